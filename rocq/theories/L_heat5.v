(** Wider intervals are harder to leave; consequences for the samplers. *)
From Coq Require Import Reals Lra Lia List Arith.
From Coquelicot Require Import Coquelicot.
From Verif Require Import Base Rng M_hit SpecHit L_hit2 L_hit3 L_hit4 L_hit5 L_hit6 L_hit9 L_heat L_heat2 L_heat3 L_heat4.
Local Open Scope R_scope.

Lemma heat_shift (u : R -> R -> R) s : heat u -> heat (fun t y => u t (y + s)).
Proof.
  intros (uy & uyy & Hu). exists (fun t y => uy t (y + s)), (fun t y => uyy t (y + s)).
  intros t y P. destruct (Hu t (y + s) P) as (U1 & U2 & U3 & U4).
  assert (D : forall (f : R -> R) d, is_derive f (y + s) d -> is_derive (fun y => f (y + s)) y d).
  { intros f d H. auto_derive; [exists d; exact H|].
    replace (Derive (fun x => f x) (y + s)) with d; [ring|symmetry; exact (is_derive_unique f (y + s) d H)]. }
  split.
  { intro eps. destruct (U1 eps) as (dl & H). exists dl. intros v w Hv Hw. apply H; [exact Hv|].
    replace (w + s - (y + s)) with (w - y) by ring. exact Hw. }
  split; [exact (D (fun z => u t z) _ U2)|]. split; [exact (D (fun z => uy t z) _ U3)|exact U4].
Qed.

Lemma img_above N t x L y m : 0 < t -> 0 <= m -> m <= x -> m <= L - x -> 0 <= y <= L ->
  gk t (y + - x) - (2 * INR N + 1) * gk t m <= img N t x L y.
Proof.
  intros P M Mx ML Y. induction N as [|n IH]; cbn [img].
  - simpl INR.
    assert (gk t (y + x) <= gk t m) by (apply gk_mono; [exact P|exact M|rewrite Rabs_pos_eq; lra]). lra.
  - set (c := 2 * INR (S n) * L).
    assert (C : 2 * L <= c).
    { unfold c. rewrite S_INR. pose proof (pos_INR n). nra. }
    rewrite S_INR.
    pose proof (gk_pos t (y + (- x + c)) P). pose proof (gk_pos t (y + (- x - c)) P).
    assert (gk t (y + (x + c)) <= gk t m) by (apply gk_mono; [exact P|exact M|rewrite Rabs_pos_eq; lra]).
    assert (gk t (y + (x - c)) <= gk t m).
    { apply gk_mono; [exact P|exact M|]. rewrite Rabs_left1; lra. }
    lra.
Qed.
Lemma img_below N s x L w : 0 < s -> 0 < x < L -> 0 <= w <= L ->
  img N s x L w <= gk s (w + - x) + 2 * INR N * gk s L.
Proof.
  intros Hs HX Hw. induction N as [|n IH].
  - cbn [img]. simpl INR. pose proof (gk_pos s (w + x) Hs). lra.
  - change (img (S n) s x L w) with (img n s x L w
      + (gk s (w + (- x + 2 * INR (S n) * L)) + gk s (w + (- x - 2 * INR (S n) * L))
         - gk s (w + (x + 2 * INR (S n) * L)) - gk s (w + (x - 2 * INR (S n) * L)))).
    set (k := 2 * INR (S n) * L). pose proof (pos_INR n).
    assert (C1 : 2 * L <= k) by (unfold k; rewrite S_INR; nra).
    pose proof (gk_pos s (w + (x + k)) ltac:(lra)). pose proof (gk_pos s (w + (x - k)) ltac:(lra)).
    assert (gk s (w + (- x + k)) <= gk s L) by (apply gk_mono; [lra|lra|rewrite Rabs_pos_eq; lra]).
    assert (gk s (w + (- x - k)) <= gk s L) by (apply gk_mono; [lra|lra|rewrite Rabs_left1; lra]).
    replace (INR (S n)) with (INR n + 1) by (rewrite S_INR; ring). lra.
Qed.

(** an interval [0, L] inside [- s, L' - s] *)
Lemma img_nested N M t x L y L' s : 0 < t -> 0 < x < L -> 0 <= y <= L -> 0 <= s -> L + s <= L' ->
  img M t x L y <= img N t (x + s) L' (y + s) + 2 / ((2 * INR M + 1) * L - x) ^ 2 * sqrt t.
Proof.
  intros P HX HY S0 SL. set (z := (2 * INR M + 1) * L - x). pose proof (pos_INR N) as HN. pose proof (pos_INR M) as HM.
  assert (Z : 0 < z) by (unfold z; nra).
  set (e0 := 2 / z ^ 2 * sqrt t).
  assert (H3 : 0 < 2 / z ^ 2) by (apply Rdiv_lt_0_compat; [lra|apply pow_lt; lra]).
  assert (E0 : 0 <= e0) by (unfold e0; apply Rmult_le_pos; [lra|apply sqrt_pos]).
  assert (G : - e0 <= img N t (x + s) L' (y + s) - img M t x L y); [|lra].
  apply (heat_near (fun t y => img N t (x + s) L' (y + s) - img M t x L y) 0 L t e0); try lra.
  - apply heat_minus; [|apply img_heat]. apply (heat_shift (fun t y => img N t (x + s) L' y)), img_heat.
  - intros r Hr. rewrite img_at_0, img_at_L.
    pose proof (img_nonneg N r (x + s) L' (0 + s) ltac:(lra) ltac:(lra) ltac:(lra)).
    pose proof (img_nonneg N r (x + s) L' (L + s) ltac:(lra) ltac:(lra) ltac:(lra)).
    split; [lra|]. pose proof (gk_pos r ((2 * INR M + 1) * L + x) ltac:(lra)).
    assert (gk r z <= e0).
    { eapply Rle_trans; [apply gk_small; lra|]. unfold e0. apply Rmult_le_compat_l; [lra|]. apply sqrt_le_1; lra. }
    fold z. lra.
  - intros eps He. pose (m := Rmin x (L - x)).
    assert (Mp : 0 < m) by (apply Rmin_pos; lra).
    assert (Mx : m <= x) by apply Rmin_l. assert (ML : m <= L - x) by apply Rmin_r.
    pose proof (pow_lt m 2 Mp) as M2.
    assert (L2 : 0 < 2 / m ^ 2) by (apply Rdiv_lt_0_compat; lra).
    destruct (small_time ((2 * INR N + 1 + 2 * INR M) * (2 / m ^ 2)) ltac:(apply Rmult_lt_0_compat; lra) eps He) as (d & Hd & HT).
    exists d. split; [exact Hd|]. intros r w Hr Hw. specialize (HT r Hr).
    pose proof (gk_small r m ltac:(lra) Mp) as GL.
    pose proof (img_above N r (x + s) L' (w + s) m ltac:(lra) ltac:(lra) ltac:(lra) ltac:(lra) ltac:(lra)) as A.
    pose proof (img_below M r x L w ltac:(lra) HX Hw) as B.
    replace (w + s + - (x + s)) with (w + - x) in A by ring.
    assert (gk r L <= gk r m) by (apply gk_mono; [lra|lra|rewrite Rabs_pos_eq; lra]).
    assert (2 * INR M * gk r L <= 2 * INR M * gk r m) by (apply Rmult_le_compat_l; lra).
    assert ((2 * INR N + 1 + 2 * INR M) * gk r m <= (2 * INR N + 1 + 2 * INR M) * (2 / m ^ 2) * sqrt r).
    { rewrite (Rmult_assoc (2 * INR N + 1 + 2 * INR M)). apply Rmult_le_compat_l; lra. }
    lra.
Qed.

(** limits of [tsum] and [textra] *)
Lemma cv_even (s : nat -> R) p : Un_cv s p -> Un_cv (fun n => s (2 * n)%nat) p.
Proof. intros C e E. destruct (C e E) as (n & H). exists n. intros m Hm. apply H. lia. Qed.
Lemma img_cv t a b K p : 0 < t -> Rabs a < K -> Rabs b < K -> brown_escape t a b K p ->
  forall eps, 0 < eps -> exists n0, forall n, (n0 <= n)%nat ->
  Rabs (img n t (a + K) (2 * K) (b + K) - gk t (b - a) * (1 - p)) < eps.
Proof.
  intros P Ha Hb E eps He. assert (CV : Un_cv (brown_sum t a b K) p) by now apply brown_limit.
  pose proof (gk_pos t (b - a) P) as Gp. apply Rabs_def2 in Ha as A. apply Rabs_def2 in Hb as B.
  set (g := gk t (b - a)) in *.
  destruct (CV (eps / (2 * g)) ltac:(apply Rdiv_lt_0_compat; lra)) as (n1 & H1).
  set (la := K + a). set (lb := K + b).
  destruct (vanish_inv (t / (2 * Rmin la K * lb)) ltac:(apply Rlt_le, Rdiv_lt_0_compat; [exact P|];
      assert (0 < Rmin la K) by (apply Rmin_pos; unfold la; lra); unfold lb; nra) (eps / (2 * g)) ltac:(apply Rdiv_lt_0_compat; lra)) as (n2 & H2).
  exists (n1 + n2)%nat. intros n Hn. rewrite img_tsum, (tsum_brown t a b K n P Ha Hb) by exact P. fold g.
  specialize (H1 (2 * n)%nat ltac:(lia)). unfold R_dist in H1. apply Rabs_def2 in H1.
  specialize (H2 n ltac:(lia)).
  assert (X0 : 0 < textra t a b K n) by apply exp_pos.
  assert (X1 : textra t a b K n <= t / (2 * Rmin la K * lb) / (2 * INR n + 1)).
  { unfold textra. pose proof (pos_INR n).
    assert (M0 : 0 < Rmin la K) by (apply Rmin_pos; unfold la; lra).
    assert (M1 : Rmin la K <= la) by apply Rmin_l. assert (M2 : Rmin la K <= K) by apply Rmin_r.
    set (m := Rmin la K) in *. set (k := 2 * INR n + 1) in *. assert (Hk : 1 <= k) by (unfold k; lra).
    assert (V : 2 * m * lb * k <= 2 * (k * K + a) * (k * K + b)).
    { replace (2 * m * lb * k) with (2 * (m * k) * lb) by ring.
      apply Rmult_le_compat; [nra|unfold lb; lra| |].
      - assert (2 * INR n * m <= 2 * INR n * K) by (apply Rmult_le_compat_l; lra). unfold k, la in *. lra.
      - unfold lb. nra. }
    assert (V0 : 0 < 2 * m * lb * k).
    { apply Rmult_lt_0_compat; [|lra]. apply Rmult_lt_0_compat; unfold lb; lra. }
    eapply Rle_trans; [apply exp_le, Ropp_le_contravar; apply Rmult_le_compat_r; [apply Rlt_le, Rinv_0_lt_compat, P|exact V]|].
    change (2 * m * lb * k * / t) with (2 * m * lb * k / t).
    eapply Rle_trans; [apply exp_neg_inv, Rdiv_lt_0_compat; assumption|]. right. field. repeat split; unfold lb in *; lra. }
  set (bs := brown_sum t a b K (2 * n)) in *. set (tx := textra t a b K n) in *.
  replace (g * (1 - bs - tx) - g * (1 - p)) with (g * (p - bs - tx)) by ring.
  rewrite Rabs_mult, (Rabs_pos_eq g) by lra.
  replace eps with (g * (eps / (2 * g) + eps / (2 * g))) by (field; lra).
  apply Rmult_lt_compat_l; [exact Gp|]. apply Rabs_def1; lra.
Qed.

Lemma brown_mono t a b K u p q : 0 < t -> Rabs a < K -> Rabs b < K -> K <= u ->
  brown_escape t a b K p -> brown_escape t a b u q -> q <= p.
Proof.
  intros P Ha Hb HK Ep Eq. apply Rnot_lt_le. intro C.
  pose proof (gk_pos t (b - a) P) as Gp. apply Rabs_def2 in Ha as A. apply Rabs_def2 in Hb as B.
  set (g := gk t (b - a)) in *. set (eps := g * (q - p) / 3). assert (He : 0 < eps) by (unfold eps; nra).
  destruct (img_cv t a b K p P Ha Hb Ep eps He) as (n1 & H1).
  destruct (img_cv t a b u q P ltac:(lra) ltac:(lra) Eq eps He) as (n2 & H2).
  pose proof (sqrt_lt_R0 t P) as Q.
  set (c := 2 / (K - a) ^ 2 * sqrt t).
  assert (Hc : 0 < c) by (unfold c; apply Rmult_lt_0_compat; [apply Rdiv_lt_0_compat; [lra|apply pow_lt; lra]|exact Q]).
  destruct (vanish_inv c ltac:(lra) eps He) as (n3 & H3).
  set (n := (n1 + n2 + n3)%nat).
  specialize (H1 n ltac:(unfold n; lia)). specialize (H2 n ltac:(unfold n; lia)). specialize (H3 n ltac:(unfold n; lia)).
  pose proof (img_nested n n t (a + K) (2 * K) (b + K) (2 * u) (u - K) P ltac:(lra) ltac:(lra) ltac:(lra) ltac:(lra)) as I.
  replace (a + K + (u - K)) with (a + u) in I by ring. replace (b + K + (u - K)) with (b + u) in I by ring.
  assert (I2 : 2 / ((2 * INR n + 1) * (2 * K) - (a + K)) ^ 2 * sqrt t <= c / (2 * INR n + 1)).
  { pose proof (pos_INR n). set (k := 2 * INR n + 1). assert (Hk : 1 <= k) by (unfold k; lra).
    unfold c. replace (2 / (K - a) ^ 2 * sqrt t / k) with (/ ((K - a) ^ 2 * k) * (2 * sqrt t)) by (field; split; lra).
    set (z := k * (2 * K) - (a + K)). assert (Z : (K - a) * k <= z) by (unfold z; nra).
    assert (Z0 : 0 < z) by (unfold z; nra).
    replace (2 / z ^ 2 * sqrt t) with (/ z ^ 2 * (2 * sqrt t)) by (field; lra).
    apply Rmult_le_compat_r; [lra|].
    apply Rinv_le_contravar; [apply Rmult_lt_0_compat; [apply pow_lt; lra|lra]|].
    assert (0 <= (K - a) * k) by nra.
    assert (((K - a) * k) * ((K - a) * k) <= z * z) by (apply Rmult_le_compat; lra).
    assert (0 < (K - a) ^ 2) by (apply pow_lt; lra). nra. }
  apply Rabs_def2 in H1. apply Rabs_def2 in H2. fold g in H1, H2. unfold eps in *. lra.
Qed.

(** ** Statements *)
Lemma brown_full_range t a b K : 0 < t -> Rabs a < K -> Rabs b < K ->
  exists p, brown_escape t a b K p /\ 0 <= p < 1 /\ Un_cv (brown_sum t a b K) p /\ brackets (brown_sum t a b K) 0 p.
Proof.
  intros P Ha Hb. destruct (brown_full t a b K P Ha Hb) as (p & E & H0 & CV & B).
  exists p. pose proof (brown_lt1 t a b K p P Ha Hb E). repeat split; auto; apply B; auto.
Qed.
Lemma bessel_full_range t a b K : 0 < t -> 0 <= a -> 0 < b -> a < K -> b < K -> exists p, bessel_escape t a b K p /\ 0 <= p < 1.
Proof.
  intros P Ha Hb HaK HbK. destruct (bessel_exists t a b K P Ha Hb HaK HbK) as (p & E). exists p.
  split; [exact E|]. exact (conj (bessel_nonneg t a b K p P Ha Hb HaK HbK E) (bessel_lt1 t a b K p P Ha Hb HaK HbK E)).
Qed.
Lemma bessel_terminates' t a b K : 0 < t -> 0 <= a -> 0 < b -> a < K -> b < K -> forall s p, 0 <= s <= 1 -> bessel_escape t a b K p -> s <> p ->
  exists n0, forall fuel, (n0 <= fuel)%nat -> total (sample_bessel3br_esc fuel t a b K None (Some s)) (fun r => r = true <-> s < p).
Proof.
  intros P Ha Hb HaK HbK s p Hs E N. apply bessel_terminates; auto. right. exact (bessel_lt1 t a b K p P Ha Hb HaK HbK E).
Qed.
Lemma brown_ratio_decides' t a b K u p q : 0 < t -> Rabs a < K -> Rabs b < K -> K <= u -> brown_escape t a b K p -> brown_escape t a b u q ->
  two_sided_three t a b u < 1 -> forall fuel s, 0 <= s <= 1 ->
  decides (sample_brownbr_esc fuel t a b K (Some u) (Some s)) (s < 1 - (1 - p) / (1 - q)).
Proof.
  intros P Ha Hb HK Ep Eq L3 fuel s Hs.
  exact (brown_ratio_decides t a b K u p q P Ha Hb HK Ep Eq (Rlt_le _ _ (brown_lt1 t a b K p P Ha Hb Ep)) L3 fuel s Hs).
Qed.
Lemma bessel_ratio_decides' t a b K u p q : 0 < t -> 0 <= a -> 0 < b -> a < K -> b < K -> K <= u -> t < 3 * K ^ 2 ->
  bessel_escape t a b K p -> bessel_escape t a b u q -> bessel_three t a b u < 1 -> forall fuel s, 0 <= s <= 1 ->
  decides (sample_bessel3br_esc fuel t a b K (Some u) (Some s)) (s < 1 - (1 - p) / (1 - q)).
Proof.
  intros P Ha Hb HaK HbK HK T Ep Eq L3 fuel s Hs.
  exact (bessel_ratio_decides t a b K u p q P Ha Hb HaK HbK HK T Ep Eq (Rlt_le _ _ (bessel_lt1 t a b K p P Ha Hb HaK HbK Ep)) L3 fuel s Hs).
Qed.
Lemma brown_ratio_range t a b K u p q : 0 < t -> Rabs a < K -> Rabs b < K -> K <= u -> brown_escape t a b K p -> brown_escape t a b u q ->
  0 <= q <= p /\ p < 1 /\ 0 <= 1 - (1 - p) / (1 - q) < 1.
Proof.
  intros P Ha Hb HK Ep Eq. pose proof (brown_mono t a b K u p q P Ha Hb HK Ep Eq).
  pose proof (brown_lt1 t a b K p P Ha Hb Ep).
  assert (0 <= q).
  { destruct (brown_full t a b u P ltac:(lra) ltac:(lra)) as (q' & E' & H' & CV & _).
    assert (CQ : Un_cv (brown_sum t a b u) q) by (apply brown_limit; auto; lra).
    now rewrite (UL_sequence _ _ _ CQ CV). }
  split; [lra|]. split; [assumption|].
  assert (0 < (1 - p) / (1 - q)) by (apply Rdiv_lt_0_compat; lra).
  assert ((1 - p) / (1 - q) <= 1).
  { apply (Rmult_le_reg_r (1 - q)); [lra|]. replace ((1 - p) / (1 - q) * (1 - q)) with (1 - p) by (field; lra). lra. }
  lra.
Qed.

(** termination with an outer bound: the denominators converge to 1 - q > 0 *)
Lemma fratio_eventually (r s : nat -> R) q : Un_cv s q -> q < 1 ->
  exists N, forall n, (N <= n)%nat -> fratio (r n) (s (S n)) = Some (Fin (1 - (1 - r n) / (1 - s (S n)))).
Proof.
  intros CV Q. destruct (CV (1 - q) ltac:(lra)) as (N & H). exists N. intros n Hn.
  specialize (H (S n) ltac:(lia)). unfold R_dist in H. apply Rabs_def2 in H.
  unfold fratio. rewrite (proj2 (Reqb_false _ _)) by lra. reflexivity.
Qed.
Lemma brown_ratio_terminates2 t a b K u p q : 0 < t -> Rabs a < K -> Rabs b < K -> K <= u -> brown_escape t a b K p -> brown_escape t a b u q ->
  forall s, 0 <= s <= 1 -> s <> 1 - (1 - p) / (1 - q) ->
  exists n0, forall fuel, (n0 <= fuel)%nat -> exists r, forall o k, fst (sample_brownbr_esc fuel t a b K (Some u) (Some s) o k) = Ok r.
Proof.
  intros P Ha Hb HK Ep Eq s Hs N.
  assert (Q1 : q < 1) by (apply (brown_lt1 t a b u q P); auto; lra).
  assert (CP : Un_cv (brown_sum t a b K) p) by now apply brown_limit.
  assert (CQ : Un_cv (brown_sum t a b u) q) by (apply brown_limit; auto; lra).
  destruct (esc_loop_terminates (fun n => 1 - (1 - brown_sum t a b K n) / (1 - brown_sum t a b u (S n)))
              (series_brownbr_esc t a b K (Some u)) (rlim p q) 1 s) as (n0 & H); auto.
  - apply ratio_cv; auto.
  - destruct (fratio_eventually (brown_sum t a b K) (brown_sum t a b u) q CQ Q1) as (n1 & H1). exists n1. exact H1.
  - exists n0. intros fuel F. destruct (H fuel F) as (r & E). exists r. intros o k.
    rewrite (brown_esc_value fuel t a b K (Some u) s P Ha Hb Hs HK o k). exact E.
Qed.
Lemma bessel_ratio_terminates t a b K u p q : 0 < t -> 0 <= a -> 0 < b -> a < K -> b < K -> K <= u -> t < 3 * K ^ 2 ->
  bessel_escape t a b K p -> bessel_escape t a b u q ->
  forall s, 0 <= s <= 1 -> s <> 1 - (1 - p) / (1 - q) ->
  exists n0, forall fuel, (n0 <= fuel)%nat -> exists r, forall o k, fst (sample_bessel3br_esc fuel t a b K (Some u) (Some s) o k) = Ok r.
Proof.
  intros P Ha Hb HaK HbK HK T Ep Eq s Hs N.
  assert (Q1 : q < 1) by (apply (bessel_lt1 t a b u q P); auto; lra).
  assert (CP : Un_cv (bessel_sum t a b K) p) by (apply (bessel_limit t a b K P Ha Hb HaK HbK); exact Ep).
  assert (CQ : Un_cv (bessel_sum t a b u) q) by (apply (bessel_limit t a b u P Ha Hb ltac:(lra) ltac:(lra)); exact Eq).
  destruct (esc_loop_terminates (fun n => 1 - (1 - bessel_sum t a b K n) / (1 - bessel_sum t a b u (S n)))
              (series_bessel3br_esc t a b K (Some u)) (rlim p q) 1 s) as (n0 & H); auto.
  - apply ratio_cv; auto.
  - destruct (fratio_eventually (bessel_sum t a b K) (bessel_sum t a b u) q CQ Q1) as (n1 & H1). exists n1. exact H1.
  - exists n0. intros fuel F. destruct (H fuel F) as (r & E). exists r. intros o k.
    rewrite (bessel_esc_value t a b K P Ha Hb HaK HbK fuel (Some u) s Hs HK o k).
    rewrite (proj2 (Rltb_true _ _) T). exact E.
Qed.
