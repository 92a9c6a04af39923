(** The outer-bounded decision: Bessel bridges, and a parameter choice where the Brownian
    decision is wrong. *)
From Coq Require Import Reals List Bool Arith Lia Lra Psatz.
From Verif Require Import Base Rng L_rng M_hit SpecHit L_hit2 L_hit3 L_hit4 L_hit5 L_hit6.
Import ListNotations.
Local Open Scope R_scope.

(** ** Centred bridges: powers *)
Lemma centred_sum x i : 0 < x < 1 -> brown_sum 2 0 0 (sqrt (- ln x)) (S i) =
  brown_sum 2 0 0 (sqrt (- ln x)) i + (if Nat.odd (S i) then 2 else -2) * x ^ (S i * S i).
Proof.
  intros X. cbn [brown_sum]. f_equal. unfold brown_inc.
  assert (L : 0 <= - ln x). { assert (ln x < ln 1) by (apply ln_increasing; lra). rewrite ln_1 in *. lra. }
  assert (Q : sqrt (- ln x) * sqrt (- ln x) = - ln x) by (now apply sqrt_sqrt). set (K := sqrt (- ln x)) in *.
  assert (PW : forall n, exp (INR n * ln x) = x ^ n).
  { intros n. rewrite <- Rpower_pow by lra. reflexivity. }
  destruct (Nat.odd (S i)) eqn:O.
  - apply Nat.odd_spec in O as (m & O). rewrite O. replace ((2 * m + 1 + 1) / 2)%nat with (S m) by (apply (Nat.div_unique _ 2 (S m) 0); lia).
    unfold s_up. rewrite S_INR.
    assert (E : forall z, z = 0 -> -2 * (K * (2 * (INR m + 1) - 1) - z) * (K * (2 * (INR m + 1) - 1) - z) / 2 = INR ((2 * m + 1) * (2 * m + 1)) * ln x).
    { intros z ->. rewrite !mult_INR, !plus_INR, !mult_INR. simpl (INR 2). simpl (INR 1).
      replace (-2 * (K * (2 * (INR m + 1) - 1) - 0) * (K * (2 * (INR m + 1) - 1) - 0) / 2) with (- (K * K) * (2 * INR m + 1) ^ 2) by field. rewrite Q. simpl. ring. }
    rewrite !E, PW by lra. lra.
  - assert (O2 : Nat.even (S i) = true) by (now rewrite <- Nat.negb_odd, O). apply Nat.even_spec in O2 as (m & O2). rewrite O2.
    replace (2 * m / 2)%nat with m by (apply (Nat.div_unique _ 2 m 0); lia). unfold s_down.
    assert (E : forall z, z = 0 -> -2 * INR m * (4 * K ^ 2 * INR m + 2 * K * (z - z)) / 2 = INR ((2 * m) * (2 * m)) * ln x).
    { intros z ->. rewrite !mult_INR. simpl (INR 2). replace (-2 * INR m * (4 * K ^ 2 * INR m + 2 * K * (0 - 0)) / 2) with (- (K * K) * (4 * INR m * INR m)) by field.
      rewrite Q. ring. }
    rewrite !E, PW by lra. lra.
Qed.
Lemma outer_wrong : exists t K u s p q, 0 < t /\ 0 < K /\ K <= u /\ 0 <= s <= 1 /\ brown_escape t 0 0 K p /\ brown_escape t 0 0 u q /\
  0 < p < 1 /\ 0 < q < 1 /\ 1 - (1 - p) / (1 - q) < s /\
  forall fuel o k, (2 <= fuel)%nat -> fst (sample_brownbr_esc fuel t 0 0 K (Some u) (Some s) o k) = Ok true.
Proof.
  assert (LN : forall x, 0 < x < 1 -> 0 < - ln x). { intros x X. assert (ln x < ln 1) by (apply ln_increasing; lra). rewrite ln_1 in *. lra. }
  set (v := 3 / 4). set (w := 18 / 25). set (K := sqrt (- ln v)). set (u := sqrt (- ln w)).
  assert (KU : K < u). { apply sqrt_lt_1; try (left; apply LN; unfold v, w; lra). apply Ropp_lt_contravar, ln_increasing; unfold v, w; lra. }
  assert (K0 : 0 < K) by (apply sqrt_lt_R0, LN; unfold v; lra).
  destruct (brown_brackets 2 0 0 K ltac:(lra)) as (p & CP & BP); try (rewrite Rabs_R0; lra).
  destruct (brown_brackets 2 0 0 u ltac:(lra)) as (q & CQ & BQ); try (rewrite Rabs_R0; lra).
  assert (EV : forall i, brown_sum 2 0 0 K (S i) = brown_sum 2 0 0 K i + (if Nat.odd (S i) then 2 else -2) * v ^ (S i * S i)) by (intros; apply centred_sum; unfold v; lra).
  assert (EW : forall i, brown_sum 2 0 0 u (S i) = brown_sum 2 0 0 u i + (if Nat.odd (S i) then 2 else -2) * w ^ (S i * S i)) by (intros; apply centred_sum; unfold w; lra).
  assert (V1 : brown_sum 2 0 0 K 1 = 2 * v) by (rewrite EV; simpl; ring).
  assert (V2 : brown_sum 2 0 0 K 2 = 2 * v - 2 * v ^ 4) by (rewrite EV, V1; simpl; ring).
  assert (V5 : brown_sum 2 0 0 K 5 = 2 * v - 2 * v ^ 4 + 2 * v ^ 9 - 2 * v ^ 16 + 2 * v ^ 25) by (rewrite (EV 4%nat), (EV 3%nat), (EV 2%nat), V2; simpl; ring).
  assert (W2 : brown_sum 2 0 0 u 2 = 2 * w - 2 * w ^ 4) by (rewrite (EW 1%nat), (EW 0%nat); simpl; ring).
  assert (W3 : brown_sum 2 0 0 u 3 = 2 * w - 2 * w ^ 4 + 2 * w ^ 9) by (rewrite EW, W2; simpl; ring).
  assert (W4 : brown_sum 2 0 0 u 4 = 2 * w - 2 * w ^ 4 + 2 * w ^ 9 - 2 * w ^ 16) by (rewrite EW, W3; simpl; ring).
  assert (W5 : brown_sum 2 0 0 u 5 = 2 * w - 2 * w ^ 4 + 2 * w ^ 9 - 2 * w ^ 16 + 2 * w ^ 25) by (rewrite EW, W4; simpl; ring).
  pose proof (proj1 (BP 2%nat ltac:(lia)) eq_refl) as P2. pose proof (proj2 (BP 5%nat ltac:(lia)) eq_refl) as P5.
  pose proof (proj1 (BQ 4%nat ltac:(lia)) eq_refl) as Q4. pose proof (proj2 (BQ 5%nat ltac:(lia)) eq_refl) as Q5.
  rewrite V2 in P2. rewrite V5 in P5. rewrite W4 in Q4. rewrite W5 in Q5.
  assert (p < 1 - 0.001) by (unfold v in *; lra). assert (0 < p) by (unfold v in *; lra).
  assert (q < 1) by (unfold w in *; lra). assert (1 - 0.005 < q) by (unfold w in *; lra).
  exists 2, K, u, 0.9, p, q. split; [lra|]. split; auto. split; [lra|]. split; [lra|].
  split; [apply brown_limit; auto; try lra; rewrite Rabs_R0; lra|]. split; [apply brown_limit; auto; try lra; rewrite Rabs_R0; lra|].
  split; [lra|]. split; [lra|]. split.
  - assert (0.1 * (1 - q) < 1 - p) by lra. assert (I : 0 < / (1 - q)) by (apply Rinv_0_lt_compat; lra).
    apply (Rmult_lt_compat_r _ _ _ I) in H3. rewrite Rmult_assoc, Rinv_r in H3 by lra. unfold Rdiv. lra.
  - intros fuel o k F. rewrite brown_esc_value; try lra; try (rewrite Rabs_R0; lra). destruct fuel as [|[|fuel]]; try lia.
    cbn [esc_loop]. cbn [series_brownbr_esc]. rewrite V1, V2, W2, W3.
    assert (F1 : fratio (2 * v) (2 * w - 2 * w ^ 4) = Some (Fin (1 - (1 - 2 * v) / (1 - (2 * w - 2 * w ^ 4))))).
    { unfold fratio. rewrite (proj2 (Reqb_false _ _)); auto. unfold w. lra. }
    assert (F2 : fratio (2 * v - 2 * v ^ 4) (2 * w - 2 * w ^ 4 + 2 * w ^ 9) = Some (Fin (1 - (1 - (2 * v - 2 * v ^ 4)) / (1 - (2 * w - 2 * w ^ 4 + 2 * w ^ 9))))).
    { unfold fratio. rewrite (proj2 (Reqb_false _ _)); auto. unfold w. lra. }
    rewrite F1, F2. cbn [flt eltb Nat.even Nat.odd negb andb orb]. rewrite (proj2 (Rltb_false _ 0.9)), (proj2 (Rltb_true 0.9 _)); [reflexivity| |].
    + assert (I : / (1 - (2 * w - 2 * w ^ 4 + 2 * w ^ 9)) < 0) by (apply Rinv_lt_0_compat; unfold w; lra).
      assert (0 < 1 - (2 * v - 2 * v ^ 4)) by (unfold v; lra). unfold Rdiv. nra.
    + assert (I : 0 < / (1 - (2 * w - 2 * w ^ 4))) by (apply Rinv_0_lt_compat; unfold w; lra).
      assert (1 - 2 * v < 0) by (unfold v; lra). unfold Rdiv. nra.
Qed.

(** ** Outer bound: Bessel bridge, without fast forward *)
Lemma bessel_odd_lt1 t a b u : 0 < t -> 0 <= a -> 0 < b -> a < u -> b < u -> t < 3 * u ^ 2 -> bessel_three t a b u < 1 ->
  forall n, Nat.odd n = true -> (2 <= n)%nat -> bessel_sum t a b u n < 1.
Proof.
  intros Ht Ha Hb Hau Hbu T L n O N2. unfold bessel_three in L. destruct (Reqb_dec a 0) as [[E R]|[E R]]; rewrite R in L.
  - rewrite bessel_sum_0 by auto. apply Nat.odd_spec in O as (m & ->). destruct m as [|m]; [lia|].
    replace (2 * S m + 1)%nat with (2 * m + 3)%nat by lia.
    eapply Rle_lt_trans; [apply (odd_le (zU t b u) (zD t b u) _ 0); [now apply zs_U|now apply zs_D| |lia]|].
    + intros j J. apply zU_D_iff; auto; try lra. pose proof (yy_ge b u ltac:(lra) j J). apply core_up; auto; try lra. nra.
    + change (2 * 0 + 3)%nat with (2 * 1 + 1)%nat. rewrite zs_U by lra. change (2 * 1)%nat with (2 * 0 + 2)%nat. rewrite zs_D, zs_U by lra.
      simpl bessel0_sum. rewrite (z_term_eq t b u) in L by lra.
      assert (zU t b u 2 = (4 * u - b) * exp (- (4 * u * (2 * u - b) / t)) / b).
      { rewrite zU_e by lra. unfold yy. simpl (INR 2). f_equal. f_equal; [ring|]. f_equal. field. lra. }
      lra.
  - rewrite bessel_sum_pos by auto. pose proof (bden_pos t a b Ht Ha Hb E) as D.
    pose proof (brown_odd_lt1 t (a - u / 2) (b - u / 2) (u / 2) Ht ltac:(apply shifted_abs; lra) ltac:(apply shifted_abs; lra) L n O N2) as X.
    assert (0 < (1 - brown_sum t (a - u / 2) (b - u / 2) (u / 2) n) / bden t a b) by (apply Rdiv_lt_0_compat; lra). lra.
Qed.
Section BesselRatio.
  Variables (t a b K u p q : R).
  Hypothesis (Ht : 0 < t) (Ha : 0 <= a) (Hb : 0 < b) (HaK : a < K) (HbK : b < K) (HK : K <= u) (T : t < 3 * K ^ 2).
  Hypothesis (P : bessel_escape t a b K p) (Q : bessel_escape t a b u q) (P1 : p <= 1) (L3 : bessel_three t a b u < 1).
  Let Tu : t < 3 * u ^ 2. Proof. nra. Qed.
  Let q_lt1 : q < 1.
  Proof.
    assert (B : brackets (bessel_sum t a b u) 0 q) by (apply bessel_brackets_short; auto; lra).
    destruct (B 3%nat ltac:(lia)) as [_ B3]. specialize (B3 eq_refl).
    pose proof (bessel_odd_lt1 t a b u Ht Ha Hb ltac:(lra) ltac:(lra) Tu L3 3%nat eq_refl ltac:(lia)). lra.
  Qed.
  Lemma bessel_ratio_decides fuel s : 0 <= s <= 1 ->
    decides (sample_bessel3br_esc fuel t a b K (Some u) (Some s)) (s < 1 - (1 - p) / (1 - q)).
  Proof.
    intros Hs o k V. rewrite bessel_esc_value by auto. rewrite (proj2 (Rltb_true _ _) T).
    destruct (esc_loop _ _ _ _) eqn:E; auto.
    - eapply (esc_loop_sound _ 1 (rlim p q)); [|apply Nat.le_refl|exact E].
      apply (ratio_brackets (bessel_sum t a b K) (bessel_sum t a b u)); auto.
      + eapply brackets_shift; [|apply bessel_brackets_short; auto]; lia.
      + eapply brackets_shift; [|apply bessel_brackets_short; auto; lra]; lia.
      + apply bessel_odd_lt1; auto; lra.
    - exfalso. eapply esc_loop_noraise; eauto.
  Qed.
End BesselRatio.
Lemma brown_full t a b K : 0 < t -> Rabs a < K -> Rabs b < K ->
  exists p, brown_escape t a b K p /\ 0 <= p /\ Un_cv (brown_sum t a b K) p /\ brackets (brown_sum t a b K) 0 p.
Proof.
  intros Ht Ha Hb. destruct (brown_brackets t a b K Ht Ha Hb) as (p & CV & B). exists p.
  assert (E : brown_escape t a b K p) by (now apply brown_limit). split; auto. split; auto. now apply (brown_nonneg t a b K).
Qed.
Lemma brown_ratio_terminates' t a b K u p q : 0 < t -> Rabs a < K -> Rabs b < K -> K <= u -> brown_escape t a b K p -> brown_escape t a b u q ->
  two_sided_three t a b u < 1 -> forall s, 0 <= s <= 1 -> s <> 1 - (1 - p) / (1 - q) ->
  exists n0, forall fuel, (n0 <= fuel)%nat -> exists r, forall o k, fst (sample_brownbr_esc fuel t a b K (Some u) (Some s) o k) = Ok r.
Proof. intros. eapply brown_ratio_terminates; eauto. Qed.
