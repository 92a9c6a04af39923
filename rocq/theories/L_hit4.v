(** Bessel bridge escape series, the fast forward, and the outer-bounded ratio. *)
From Coq Require Import Reals List Bool Arith Lia Lra Psatz.
From Coquelicot Require Import Rbar Hierarchy Continuity Derive AutoDerive.
From Verif Require Import Base Rng L_rng M_hit SpecHit L_hit2 L_hit3.
Import ListNotations.
Local Open Scope R_scope.

(** ** 2x <= ln((1+x)/(1-x)) <= 2x/(1-x^2) *)
Lemma nonneg_by_derivative (f f' : R -> R) x : 0 <= x -> f 0 = 0 ->
  (forall c, 0 <= c <= x -> is_derive f c (f' c)) -> (forall c, 0 < c < x -> 0 <= f' c) -> 0 <= f x.
Proof.
  intros X F0 D P. destruct (Req_dec x 0) as [->|N]; [lra|].
  destruct (MVT_cor2 f f' 0 x) as (c & E & C); [lra|intros; apply is_derive_Reals, D; lra|].
  specialize (P c C). rewrite F0 in E. nra.
Qed.
Lemma log_ratio_low x : 0 <= x < 1 -> 2 * x <= ln (1 + x) - ln (1 - x).
Proof.
  intros X. enough (0 <= ln (1 + x) - ln (1 - x) - 2 * x) by lra.
  apply (nonneg_by_derivative (fun x => ln (1 + x) - ln (1 - x) - 2 * x) (fun c => 2 * c ^ 2 / (1 - c ^ 2))).
  - lra.
  - rewrite Rplus_0_r, Rminus_0_r. ring.
  - intros c C. auto_derive; [split; [lra|split; [lra|auto]]|]. field. split; [nra|split; lra].
  - intros c C. apply Rmult_le_pos; [nra|]. left. apply Rinv_0_lt_compat. nra.
Qed.
Lemma log_ratio_up x : 0 <= x < 1 -> ln (1 + x) - ln (1 - x) <= 2 * x / (1 - x ^ 2).
Proof.
  intros X. enough (0 <= 2 * x / (1 - x ^ 2) - (ln (1 + x) - ln (1 - x))) by lra.
  apply (nonneg_by_derivative (fun x => 2 * x / (1 - x ^ 2) - (ln (1 + x) - ln (1 - x))) (fun c => 4 * c ^ 2 / (1 - c ^ 2) ^ 2)).
  - lra.
  - rewrite Rplus_0_r, Rminus_0_r. field.
  - intros c C. assert (0 < 1 - c ^ 2) by nra. auto_derive; [repeat split; lra|]. field. split; [lra|split; lra].
  - intros c C. assert (0 < 1 - c ^ 2) by nra. apply Rmult_le_pos; [nra|]. left. apply Rinv_0_lt_compat. apply pow_lt. lra.
Qed.

Lemma core_up t c h : 0 < t -> 0 <= h < c -> t <= c ^ 2 - h ^ 2 -> c + h <= (c - h) * exp (2 * h * c / t).
Proof.
  intros Ht H T. set (x := h / c). assert (X : 0 <= x < 1).
  { unfold x. split; [apply Rmult_le_pos; [lra|left; apply Rinv_0_lt_compat; lra]|]. apply (Rmult_lt_reg_r c); [lra|].
    unfold Rdiv. rewrite Rmult_assoc, Rinv_l; lra. }
  assert (HX : h = c * x) by (unfold x; field; lra).
  pose proof (log_ratio_up x X) as L.
  assert (2 * x / (1 - x ^ 2) <= 2 * h * c / t).
  { rewrite HX. assert (0 < 1 - x ^ 2) by nra. apply (Rmult_le_reg_r (t * (1 - x ^ 2))); [nra|].
    replace (2 * x / (1 - x ^ 2) * (t * (1 - x ^ 2))) with (2 * x * t) by (field; lra).
    replace (2 * (c * x) * c / t * (t * (1 - x ^ 2))) with (2 * x * (c ^ 2 - (c * x) ^ 2)) by (field; lra).
    rewrite <- HX. apply Rmult_le_compat_l; lra. }
  assert (E : exp (ln (1 + x) - ln (1 - x)) <= exp (2 * h * c / t)).
  { destruct (Req_dec (ln (1 + x) - ln (1 - x)) (2 * h * c / t)) as [->|]; [lra|]. left. apply exp_increasing. lra. }
  unfold Rminus at 1 in E. rewrite exp_plus, exp_Ropp, !exp_ln in E by lra.
  apply (Rmult_le_compat_l (c - h)) in E; [|lra].
  replace ((c - h) * ((1 + x) * / (1 - x))) with (c + h) in E; auto. rewrite HX. field. lra.
Qed.
Lemma core_low t c h : 0 < t -> 0 < h < c -> c + h <= (c - h) * exp (2 * h * c / t) -> t <= c ^ 2.
Proof.
  intros Ht H E. set (x := h / c). assert (X : 0 < x < 1).
  { unfold x. split; [apply Rdiv_lt_0_compat; lra|]. apply (Rmult_lt_reg_r c); [lra|].
    unfold Rdiv. rewrite Rmult_assoc, Rinv_l; lra. }
  assert (HX : h = c * x) by (unfold x; field; lra).
  pose proof (log_ratio_low x ltac:(lra)) as L.
  assert (E2 : exp (2 * x) <= exp (2 * h * c / t)).
  { apply Rle_trans with ((1 + x) / (1 - x)).
    - apply Rle_trans with (exp (ln (1 + x) - ln (1 - x))).
      + destruct L as [L|L]; [left; now apply exp_increasing|right; now rewrite L].
      + right. unfold Rminus at 1. rewrite exp_plus, exp_Ropp, !exp_ln by lra. reflexivity.
    - apply (Rmult_le_reg_l (c - h)); [lra|]. replace ((c - h) * ((1 + x) / (1 - x))) with (c + h); auto. rewrite HX. field. lra. }
  assert (2 * x <= 2 * h * c / t).
  { destruct (Rle_lt_dec (2 * x) (2 * h * c / t)) as [|C]; auto. apply exp_increasing in C. lra. }
  rewrite HX in H0. apply (Rmult_le_compat_r t) in H0; [|lra].
  replace (2 * (c * x) * c / t * t) with (2 * x * c ^ 2) in H0 by (field; lra). nra.
Qed.

(** ** Bessel bridge from 0 *)
Section Bessel0.
  Variables (t b K : R).
  Hypothesis (Ht : 0 < t) (Hb : 0 < b < K).
  Definition zU (j : nat) : R := s_inc K t j (- b) / b.
  Definition zD (j : nat) : R := s_inc K t j b / b.
  Notation s := (bessel0_sum t b K).
  Lemma zs_U m : s (2 * m + 1)%nat = s (2 * m)%nat + zU (S m).
  Proof.
    rewrite Nat.add_1_r. cbn [bessel0_sum]. f_equal. unfold bessel0_inc.
    assert (O : Nat.odd (S (2 * m)) = true) by (apply Nat.odd_spec; exists m; lia).
    rewrite O. unfold zU. replace ((S (2 * m) + 1) / 2)%nat with (S m); auto.
    replace (S (2 * m) + 1)%nat with (S m * 2)%nat by lia. now rewrite Nat.div_mul.
  Qed.
  Lemma zs_D m : s (2 * m + 2)%nat = s (2 * m + 1)%nat - zD (S m).
  Proof.
    replace (2 * m + 2)%nat with (S (2 * m + 1)) by lia. cbn [bessel0_sum]. unfold bessel0_inc.
    assert (O : Nat.odd (S (2 * m + 1)) = false). { rewrite <- Nat.negb_even. rewrite (proj2 (Nat.even_spec _)); auto. exists (S m). lia. }
    rewrite O. replace (S (2 * m + 1))%nat with (S m * 2)%nat by lia. rewrite Nat.div_mul by lia. unfold zD. ring.
  Qed.
  Definition yy (j : nat) : R := 2 * K * INR j.
  Lemma zU_e j : zU j = (yy j - b) * exp (- (yy j * (yy j - 2 * b) / (2 * t))) / b.
  Proof. unfold zU, s_inc, yy. f_equal. f_equal. f_equal. field. lra. Qed.
  Lemma zD_e j : zD j = (yy j + b) * exp (- (yy j * (yy j + 2 * b) / (2 * t))) / b.
  Proof. unfold zD, s_inc, yy. f_equal. f_equal. f_equal. field. lra. Qed.
  Lemma yy_ge j : (1 <= j)%nat -> 2 * K <= yy j.
  Proof. intros J. unfold yy. assert (1 <= INR j) by (apply (le_INR 1); lia). nra. Qed.
  Lemma z_pos j : (1 <= j)%nat -> 0 < zU j /\ 0 < zD j.
  Proof.
    intros J. pose proof (yy_ge j J). rewrite zU_e, zD_e.
    split; (apply Rdiv_lt_0_compat; [|lra]); apply Rmult_lt_0_compat; try apply exp_pos; lra.
  Qed.
  Lemma z_nonneg j : (1 <= j)%nat -> 0 <= zU j /\ 0 <= zD j.
  Proof. intros J. pose proof (z_pos j J). lra. Qed.
  (** D j <= U j *)
  Lemma zD_U_iff j : (1 <= j)%nat -> (zD j <= zU j <-> yy j + b <= (yy j - b) * exp (2 * b * yy j / t)).
  Proof.
    intros J. pose proof (yy_ge j J). rewrite zU_e, zD_e.
    assert (E : exp (- (yy j * (yy j - 2 * b) / (2 * t))) = exp (- (yy j * (yy j + 2 * b) / (2 * t))) * exp (2 * b * yy j / t)).
    { rewrite <- exp_plus. f_equal. field. lra. }
    rewrite E. set (e := exp (- (yy j * (yy j + 2 * b) / (2 * t)))). assert (0 < e) by apply exp_pos.
    set (f := exp (2 * b * yy j / t)). unfold Rdiv. assert (0 < / b) by (apply Rinv_0_lt_compat; lra). split; intros L.
    - apply Rmult_le_reg_r in L; auto. apply (Rmult_le_reg_r e); auto. lra.
    - apply Rmult_le_compat_r; [lra|]. apply (Rmult_le_compat_r e) in L; lra.
  Qed.
  (** U (j+1) <= D j *)
  Lemma zU_D_iff j : (1 <= j)%nat -> (zU (S j) <= zD j <-> (yy j + K) + (K - b) <= ((yy j + K) - (K - b)) * exp (2 * (K - b) * (yy j + K) / t)).
  Proof.
    intros J. pose proof (yy_ge j J). rewrite zU_e, zD_e.
    replace (yy (S j)) with (yy j + 2 * K) by (unfold yy; rewrite S_INR; ring).
    assert (E : exp (- (yy j * (yy j + 2 * b) / (2 * t))) =
      exp (- ((yy j + 2 * K) * (yy j + 2 * K - 2 * b) / (2 * t))) * exp (2 * (K - b) * (yy j + K) / t)).
    { rewrite <- exp_plus. f_equal. field. lra. }
    rewrite E. set (e := exp (- ((yy j + 2 * K) * (yy j + 2 * K - 2 * b) / (2 * t)))). assert (0 < e) by apply exp_pos.
    set (f := exp (2 * (K - b) * (yy j + K) / t)). unfold Rdiv. assert (0 < / b) by (apply Rinv_0_lt_compat; lra). split; intros L.
    - apply Rmult_le_reg_r in L; auto. apply (Rmult_le_reg_r e); auto. lra.
    - apply Rmult_le_compat_r; [lra|]. apply (Rmult_le_compat_r e) in L; lra.
  Qed.
  Lemma z_dec_from j : t <= (yy j + K) ^ 2 -> forall i, (j < i)%nat -> zD i <= zU i /\ zU (S i) <= zD i.
  Proof.
    intros T i I. assert (Y : yy j + 2 * K <= yy i).
    { unfold yy. replace (2 * K * INR j + 2 * K) with (2 * K * INR (S j)) by (rewrite S_INR; ring).
      apply Rmult_le_compat_l; [lra|]. apply le_INR. lia. }
    assert (Y0 : 0 <= yy j) by (unfold yy; pose proof (pos_INR j); nra).
    split.
    - apply zD_U_iff; [lia|]. apply core_up; auto; [lra|]. nra.
    - apply zU_D_iff; [lia|]. apply core_up; auto; [lra|]. nra.
  Qed.
  Lemma z_small j : (2 <= j)%nat -> zU j <= 4 * t / (K * b) / INR j.
  Proof.
    intros J. rewrite zU_e. assert (2 <= INR j) by (apply (le_INR 2); lia).
    pose proof (yy_ge j ltac:(lia)) as Y.
    assert (E : (K * INR j) ^ 2 / t <= yy j * (yy j - 2 * b) / (2 * t)).
    { replace ((K * INR j) ^ 2 / t) with (2 * (K * INR j) ^ 2 / (2 * t)) by (field; lra).
      apply Rmult_le_compat_r; [left; apply Rinv_0_lt_compat; lra|]. unfold yy.
      assert (K * INR j <= 2 * K * INR j - 2 * b) by nra. assert (0 < K * INR j) by nra. nra. }
    assert (P : 0 < (K * INR j) ^ 2 / t). { apply Rdiv_lt_0_compat; auto. apply pow_lt. nra. }
    assert (X : exp (- (yy j * (yy j - 2 * b) / (2 * t))) <= t / (K * INR j) ^ 2).
    { eapply Rle_trans; [apply (exp_le_iff _ ((K * INR j) ^ 2 / t)); lra|]. eapply Rle_trans; [apply exp_neg_le; auto|].
      right. field. repeat split; lra. }
    apply Rle_trans with (2 * yy j * (t / (K * INR j) ^ 2) / b).
    - apply Rmult_le_compat_r; [left; apply Rinv_0_lt_compat; lra|]. apply Rmult_le_compat; auto; try lra. left; apply exp_pos.
    - right. unfold yy. field. repeat split; lra.
  Qed.
  Lemma z_decr_exists : exists j, t <= (yy j + K) ^ 2.
  Proof.
    destruct (archimed_cor1 (2 * K * K / t)) as (n & Hn & Pn); [apply Rdiv_lt_0_compat; nra|].
    exists n. assert (0 < INR n) by (apply lt_0_INR; lia).
    assert (t < 2 * K * K * INR n).
    { apply (Rmult_lt_compat_r (t * INR n)) in Hn; [|nra].
      replace (/ INR n * (t * INR n)) with t in Hn by (field; lra).
      replace (2 * K * K / t * (t * INR n)) with (2 * K * K * INR n) in Hn by (field; lra). exact Hn. }
    unfold yy. nra.
  Qed.
  Lemma z_vanish : Un_cv (pc zU zD) 0.
  Proof.
    destruct z_decr_exists as (N & HN).
    assert (CV : Un_cv (fun n => pc zU zD (2 * N + n)) 0).
    { assert (PC : 0 < 4 * t / (K * b)) by (apply Rdiv_lt_0_compat; nra).
      apply (cv_harmonic _ (4 * (4 * t / (K * b)))); [lra| |].
      - intros n. unfold pc. destruct (Nat.even _); apply z_nonneg; lia.
      - intros n Hn. destruct (nat_par (2 * N + n)) as (m & HM).
        assert (B : pc zU zD (2 * N + n) <= zU (S m)).
        { destruct HM as [E|E]; rewrite E; [rewrite pc_even; lra|rewrite pc_odd; apply (z_dec_from N HN (S m)); lia]. }
        eapply Rle_trans; [exact B|]. eapply Rle_trans; [apply z_small; lia|].
        assert (0 < INR n) by (apply lt_0_INR; lia).
        assert (INR n <= 2 * INR (S m)). { replace 2 with (INR 2) by reflexivity. rewrite <- mult_INR. apply le_INR. lia. }
        set (C := 4 * t / (K * b)) in *. apply (Rmult_le_reg_r (INR n * INR (S m))); [nra|].
        replace (C / INR (S m) * (INR n * INR (S m))) with (C * INR n) by (field; lra).
        replace (4 * C / INR n * (INR n * INR (S m))) with (4 * C * INR (S m)) by (field; lra). nra. }
    intros e E. destruct (CV e E) as (n & Hn). exists (2 * N + n)%nat. intros m Hm.
    replace m with (2 * N + (m - 2 * N))%nat by lia. apply Hn. lia.
  Qed.
  Lemma z_brackets_from j : t <= (yy j + K) ^ 2 -> exists p, Un_cv s p /\ brackets s (2 * j) p.
  Proof.
    intros T. apply (alt_bracket (pc zU zD)).
    - apply pairs_step; [apply zs_U|apply zs_D].
    - intros n Hn. apply (pairs_dec zU zD j); [apply z_nonneg| | |exact Hn]; intros i I; apply (z_dec_from j T i I).
    - apply z_vanish.
  Qed.
  Lemma z_term_eq n : bessel_term t b K (S n) = zU (S n) - zD (S n).
  Proof.
    unfold bessel_term. rewrite zU_e, zD_e. unfold yy.
    replace (2 * INR (S n) * K * (INR (S n) * K - b) / t) with (2 * K * INR (S n) * (2 * K * INR (S n) - 2 * b) / (2 * t)) by (field; lra).
    replace (2 * INR (S n) * K * (INR (S n) * K + b) / t) with (2 * K * INR (S n) * (2 * K * INR (S n) + 2 * b) / (2 * t)) by (field; lra).
    replace (2 * INR (S n) * K) with (2 * K * INR (S n)) by ring. field. lra.
  Qed.
  Lemma z_limit p : infinite_sum (fun n => bessel_term t b K (S n)) p <-> Un_cv s p.
  Proof.
    assert (F : forall q, Un_cv s q -> infinite_sum (fun n => bessel_term t b K (S n)) q).
    { intros q Q. eapply infinite_sum_ext; [intros; symmetry; apply z_term_eq|]. apply (pairs_cv zU zD s); [reflexivity|apply zs_U|apply zs_D|exact Q]. }
    split; auto. intros H. destruct z_decr_exists as (N & HN). destruct (z_brackets_from N HN) as (q & CV & _). specialize (F q CV).
    assert (p = q) as -> by (eapply uniqueness_sum; eauto). auto.
  Qed.
  Lemma z_brackets_of j p : t <= (yy j + K) ^ 2 -> Un_cv s p -> brackets s (2 * j) p.
  Proof. intros T H. destruct (z_brackets_from j T) as (q & CV & B). now rewrite (cv_unique _ _ _ H CV). Qed.
  (** the stopping rule of the fast forward *)
  Lemma z_ff j : (1 <= j)%nat -> s (2 * j + 1)%nat < s (2 * j - 1)%nat -> t <= (yy j + K) ^ 2.
  Proof.
    intros J L. rewrite zs_U in L. destruct j as [|j]; [lia|]. replace (2 * S j)%nat with (2 * j + 2)%nat in L by lia.
    rewrite zs_D in L. replace (2 * j + 2 - 1)%nat with (2 * j + 1)%nat in L by lia.
    assert (L' : zU (S (S j)) <= zD (S j)) by lra. apply zU_D_iff in L'; [|lia].
    pose proof (yy_ge (S j) ltac:(lia)). apply (core_low t (yy (S j) + K) (K - b)); auto. lra.
  Qed.
  Lemma z_neq n : s (S n) <> s n.
  Proof.
    rewrite (pairs_step zU zD s zs_U zs_D n). unfold pc.
    destruct (z_pos (S (Nat.div2 n)) ltac:(lia)). destruct (Nat.even n); lra.
  Qed.
End Bessel0.
