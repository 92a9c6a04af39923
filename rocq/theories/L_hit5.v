(** Escape decisions of the samplers. *)
From Coq Require Import Reals List Bool Arith Lia Lra Psatz.
From Verif Require Import Base Rng L_rng M_hit SpecHit L_hit2 L_hit3 L_hit4.
Import ListNotations.
Local Open Scope R_scope.

Lemma seed_ok s : 0 <= s <= 1 -> (Rleb 0 s && Rleb s 1)%bool = true.
Proof. intros. apply andb_true_intro. split; apply Rleb_true; lra. Qed.
Lemma max_abs K a b : Rabs a < K -> Rabs b < K -> Rleb K (Rmax (Rabs a) (Rabs b)) = false.
Proof. intros. apply Rleb_false. now apply Rmax_lub_lt. Qed.

(** ** Brownian bridge *)
Lemma brown_esc_value fuel t a b K ub s : 0 < t -> Rabs a < K -> Rabs b < K -> 0 <= s <= 1 ->
  match ub with Some u => K <= u | None => True end ->
  forall o k, fst (sample_brownbr_esc fuel t a b K ub (Some s) o k) = esc_loop (series_brownbr_esc t a b K ub) fuel 1 s.
Proof.
  intros Ht Ha Hb Hs HU o k. cbv beta iota delta [sample_brownbr_esc get_seed bind ret].
  rewrite (proj2 (Rltb_true _ _) Ht), (seed_ok s Hs), (max_abs K a b Ha Hb).
  assert (0 < K) by (pose proof (Rabs_pos a); lra).
  replace (match ub with Some ub => Rltb ub K | None => false end) with false by (destruct ub; auto; symmetry; now apply Rltb_false).
  rewrite (proj2 (Rltb_true 0 K)) by auto.
  replace (match ub with Some ub => Rltb 0 ub | None => true end) with true by (destruct ub; auto; symmetry; apply Rltb_true; lra).
  reflexivity.
Qed.
Lemma brown_decides fuel t a b K s p : 0 < t -> Rabs a < K -> Rabs b < K -> 0 <= s <= 1 -> brown_escape t a b K p ->
  decides (sample_brownbr_esc fuel t a b K None (Some s)) (s < p).
Proof.
  intros Ht Ha Hb Hs P o k V. rewrite brown_esc_value by auto.
  destruct (esc_loop _ _ _ _) eqn:E; auto.
  - eapply esc_loop_sound; [|apply Nat.le_0_l|exact E].
    apply (fbrackets_of (brown_sum t a b K) 0 p). now apply brown_brackets_of.
  - exfalso. eapply esc_loop_noraise; eauto.
Qed.
Lemma brown_terminates t a b K s p : 0 < t -> Rabs a < K -> Rabs b < K -> 0 <= s <= 1 -> brown_escape t a b K p -> s <> p ->
  exists n0, forall fuel, (n0 <= fuel)%nat -> total (sample_brownbr_esc fuel t a b K None (Some s)) (fun r => r = true <-> s < p).
Proof.
  intros Ht Ha Hb Hs P NE.
  destruct (esc_loop_terminates (brown_sum t a b K) (series_brownbr_esc t a b K None) p 1 s) as (n0 & H); auto.
  { now apply brown_limit in P. } { exists 0%nat. auto. }
  exists n0. intros fuel F o k V. destruct (H fuel F) as (r & E).
  pose proof (brown_decides fuel t a b K s p Ht Ha Hb Hs P o k V) as D. cbv beta in D.
  rewrite brown_esc_value in D |- * by auto. now rewrite E in D |- *.
Qed.
Lemma brown_outside fuel t a b K ub s : 0 < t -> 0 <= s <= 1 -> K <= Rmax (Rabs a) (Rabs b) ->
  total (sample_brownbr_esc fuel t a b K ub (Some s)) (fun r => r = true).
Proof.
  intros Ht Hs HK o k V. cbv beta iota delta [sample_brownbr_esc get_seed bind ret].
  rewrite (proj2 (Rltb_true _ _) Ht), (seed_ok s Hs), (proj2 (Rleb_true _ _) HK). reflexivity.
Qed.
Lemma brown_inner_bound fuel t a b K u s : 0 < t -> 0 <= s <= 1 -> Rmax (Rabs a) (Rabs b) < K -> u < K ->
  total (sample_brownbr_esc fuel t a b K (Some u) (Some s)) (fun r => r = false).
Proof.
  intros Ht Hs HK HU o k V. cbv beta iota delta [sample_brownbr_esc get_seed bind ret].
  rewrite (proj2 (Rltb_true _ _) Ht), (seed_ok s Hs), (proj2 (Rleb_false _ _) HK), (proj2 (Rltb_true _ _) HU). reflexivity.
Qed.
Lemma brown_seedless fuel t a b K ub o k :
  fst (sample_brownbr_esc fuel t a b K ub None o k) =
  fst (sample_brownbr_esc fuel t a b K ub (Some (ora_r o k (DUniform 0 1))) o (S k)).
Proof. reflexivity. Qed.

(** ** The ratio of two series *)
Section Ratio.
  Variables (r s : nat -> R) (p q : R) (N : nat).
  Hypothesis (Br : brackets r N p) (Bs : brackets s N q) (Hp : p <= 1) (Hq : q < 1).
  Hypothesis Hs : forall n, Nat.odd n = true -> (S N <= n)%nat -> s n < 1.
  Definition rlim : R := 1 - (1 - p) / (1 - q).
  Lemma s_lt1 n : (S N <= n)%nat -> s n < 1.
  Proof.
    intros Hn. destruct (Nat.odd n) eqn:O; auto. destruct (Bs n ltac:(lia)) as [E _].
    rewrite <- Nat.negb_odd, O in E. specialize (E eq_refl). lra.
  Qed.
  Lemma ratio_fin n : (N <= n)%nat -> fratio (r n) (s (S n)) = Some (Fin (1 - (1 - r n) / (1 - s (S n)))).
  Proof.
    intros Hn. unfold fratio. pose proof (s_lt1 (S n) ltac:(lia)). rewrite (proj2 (Reqb_false _ _)) by lra. auto.
  Qed.
  Lemma ratio_brackets : fbrackets (fun n => fratio (r n) (s (S n))) N rlim.
  Proof.
    intros n seed Hn. rewrite ratio_fin by auto. pose proof (s_lt1 (S n) ltac:(lia)) as L1.
    destruct (Br n Hn) as [R1 R2]. destruct (Bs (S n) ltac:(lia)) as [S1 S2]. simpl. unfold rlim.
    assert (I1 : 0 < / (1 - s (S n))) by (apply Rinv_0_lt_compat; lra). assert (I2 : 0 < / (1 - q)) by (apply Rinv_0_lt_compat; lra).
    split; intros E F; apply Rltb_true in F.
    - specialize (R1 E). specialize (S2 ltac:(now rewrite Nat.odd_succ)).
      assert (/ (1 - q) <= / (1 - s (S n))) by (apply Rinv_le_contravar; lra).
      unfold Rdiv in *. nra.
    - specialize (R2 E). specialize (S1 ltac:(now rewrite Nat.even_succ)).
      assert (/ (1 - s (S n)) <= / (1 - q)) by (apply Rinv_le_contravar; lra).
      unfold Rdiv in *. destruct (Rle_lt_dec 0 (1 - r n)); nra.
  Qed.
  Lemma ratio_cv : Un_cv r p -> Un_cv s q -> Un_cv (fun n => 1 - (1 - r n) / (1 - s (S n))) rlim.
  Proof.
    intros CR CS. unfold rlim, Rdiv.
    assert (C1 : forall x, Un_cv (fun _ => x) x). { intros x e E. exists 0%nat. intros. unfold R_dist. rewrite Rminus_diag_eq, Rabs_R0; auto. }
    assert (CS' : Un_cv (fun n => s (S n)) q). { intros e E. destruct (CS e E) as (n & Hn). exists n. intros m Hm. apply Hn. lia. }
    apply CV_minus; auto. apply CV_mult; [apply CV_minus; auto|].
    (* inverse *)
    assert (A : Un_cv (fun n => / (1 - s (S n))) (/ (1 - q))).
    { apply (continuity_seq (fun x => / x) (fun n => 1 - s (S n)) (1 - q)); [|apply CV_minus; auto].
      apply (continuity_pt_inv (fun x => x)); [apply derivable_continuous_pt, derivable_pt_id|lra]. }
    exact A.
  Qed.
End Ratio.

Lemma odd_le (U D s : nat -> R) N : (forall m, s (2 * m + 1)%nat = s (2 * m)%nat + U (S m)) -> (forall m, s (2 * m + 2)%nat = s (2 * m + 1)%nat - D (S m)) ->
  (forall j, (N < j)%nat -> U (S j) <= D j) -> forall m, (N <= m)%nat -> s (2 * m + 3)%nat <= s (2 * N + 3)%nat.
Proof.
  intros SU SD H m M. induction M as [|m M IH]; [lra|].
  eapply Rle_trans; [|exact IH]. replace (2 * S m + 3)%nat with (2 * (S (S m)) + 1)%nat by lia.
  rewrite SU. replace (2 * S (S m))%nat with (2 * S m + 2)%nat by lia. rewrite SD.
  replace (2 * S m + 1)%nat with (2 * m + 3)%nat by lia. specialize (H (S (S m)) ltac:(lia)). lra.
Qed.

Lemma brown_three t a b K : 0 < t -> Rabs a < K -> Rabs b < K -> brown_sum t a b K 3 = two_sided_three t a b K.
Proof.
  intros Ht Ha Hb. unfold two_sided_three. rewrite (brown_term_eq t a b K Ht 0).
  change 3%nat with (2 * 1 + 1)%nat. rewrite bs_U by auto. change (2 * 1)%nat with (2 * 0 + 2)%nat. rewrite bs_D, bs_U by auto. simpl brown_sum.
  replace (bU t a b K 2) with (exp (- (2 * (3 * K - a) * (3 * K - b) / t)) + exp (- (2 * (3 * K + a) * (3 * K + b) / t))).
  - ring.
  - unfold bU. rewrite !up_e by auto. simpl INR. f_equal; f_equal; field; lra.
Qed.
Lemma brown_odd_lt1 t a b K : 0 < t -> Rabs a < K -> Rabs b < K -> two_sided_three t a b K < 1 ->
  forall n, Nat.odd n = true -> (2 <= n)%nat -> brown_sum t a b K n < 1.
Proof.
  intros Ht Ha Hb L n O N2. apply Nat.odd_spec in O as (m & ->). destruct m as [|m]; [lia|].
  replace (2 * S m + 1)%nat with (2 * m + 3)%nat by lia.
  eapply Rle_lt_trans; [apply (odd_le (bU t a b K) (bD t a b K) _ 0); [now apply bs_U|now apply bs_D| |lia]|].
  - intros j J. apply bU_D; auto.
  - change (2 * 0 + 3)%nat with 3%nat. now rewrite brown_three.
Qed.

(** ** Outer bound: Brownian bridge *)
Lemma brackets_shift s N M p : (N <= M)%nat -> brackets s N p -> brackets s M p.
Proof. intros L B n Hn. apply B. lia. Qed.
Lemma fbrackets_ext f g N p : (forall n, (N <= n)%nat -> f n = g n) -> fbrackets f N p -> fbrackets g N p.
Proof. intros E B n seed Hn. rewrite <- E by auto. now apply B. Qed.

Section BrownRatio.
  Variables (t a b K u p q : R).
  Hypothesis (Ht : 0 < t) (Ha : Rabs a < K) (Hb : Rabs b < K) (HK : K <= u).
  Hypothesis (P : brown_escape t a b K p) (Q : brown_escape t a b u q) (P1 : p <= 1) (L3 : two_sided_three t a b u < 1).
  Let q_lt1 : q < 1.
  Proof.
    assert (B : brackets (brown_sum t a b u) 0 q) by (apply brown_brackets_of; auto; lra).
    destruct (B 3%nat ltac:(lia)) as [_ B3]. specialize (B3 eq_refl). rewrite brown_three in B3 by (auto; lra). lra.
  Qed.
  Lemma brown_ratio_brackets : fbrackets (series_brownbr_esc t a b K (Some u)) 1 (rlim p q).
  Proof.
    apply (ratio_brackets (brown_sum t a b K) (brown_sum t a b u)); auto.
    - eapply brackets_shift; [|apply brown_brackets_of; auto]; lia.
    - eapply brackets_shift; [|apply brown_brackets_of; auto; lra]; lia.
    - apply brown_odd_lt1; auto; lra.
  Qed.
  Lemma brown_ratio_decides fuel s : 0 <= s <= 1 ->
    decides (sample_brownbr_esc fuel t a b K (Some u) (Some s)) (s < 1 - (1 - p) / (1 - q)).
  Proof.
    intros Hs o k V. rewrite brown_esc_value by auto.
    destruct (esc_loop _ _ _ _) eqn:E; auto.
    - eapply (esc_loop_sound _ 1 (rlim p q)); [apply brown_ratio_brackets|apply Nat.le_refl|exact E].
    - exfalso. eapply esc_loop_noraise; eauto.
  Qed.
  Lemma brown_ratio_terminates s : 0 <= s <= 1 -> s <> 1 - (1 - p) / (1 - q) ->
    exists n0, forall fuel, (n0 <= fuel)%nat -> exists r, forall o k, fst (sample_brownbr_esc fuel t a b K (Some u) (Some s) o k) = Ok r.
  Proof.
    intros Hs NE.
    destruct (esc_loop_terminates (fun n => 1 - (1 - brown_sum t a b K n) / (1 - brown_sum t a b u (S n))) (series_brownbr_esc t a b K (Some u)) (rlim p q) 1 s) as (n0 & H); auto.
    - apply ratio_cv; auto; apply brown_limit; auto; lra.
    - exists 1%nat. intros n Hn. apply (ratio_fin (brown_sum t a b K) (brown_sum t a b u) q 1); auto.
      + eapply brackets_shift; [|apply brown_brackets_of; auto; lra]; lia.
      + apply brown_odd_lt1; auto; lra.
    - exists n0. intros fuel F. destruct (H fuel F) as (r & E). exists r. intros o k. now rewrite brown_esc_value by auto.
  Qed.
End BrownRatio.
