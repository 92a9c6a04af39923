(** Uniformisation: exp(t Q) = exp(-rb t) sum_n (rb t)^n / n! P^n with P = I + Q / rb. *)
From Coq Require Import Reals List Arith Lia Lra.
From Coquelicot Require Import Hierarchy Series Rcomplements.
From Verif Require Import Base Mat M_mjp L_mat L_bridge.
Local Open Scope R_scope.

(** coefficients of (x - 1)^n *)
Fixpoint bco (n k : nat) : R :=
  match n, k with
  | O, O => 1
  | O, S _ => 0
  | S n', O => - bco n' 0
  | S n', S k' => bco n' k' - bco n' (S k')
  end.
Lemma bco_out n : forall k, (n < k)%nat -> bco n k = 0.
Proof.
  induction n as [|n IH]; intros [|k] H; simpl; try lia; auto.
  rewrite !IH by lia. lra.
Qed.
Lemma bco_val d : forall k, bco (k + d) k / INR (fact (k + d)) = (-1) ^ d / (INR (fact k) * INR (fact d)).
Proof.
  assert (HF : forall n, INR (fact n) <> 0) by (intros; apply INR_fact_neq_0).
  assert (HS : forall n, INR (S n) <> 0) by (intros; apply not_0_INR; lia).
  assert (FS : forall n, INR (fact (S n)) = INR (S n) * INR (fact n)) by (intros; rewrite fact_simpl, mult_INR; auto).
  induction d as [|d IHd].
  - intros k. rewrite Nat.add_0_r. simpl pow.
    assert (B : bco k k = 1).
    { induction k as [|k IH]; auto. simpl. rewrite IH, bco_out by lia. lra. }
    rewrite B. simpl (fact 0). simpl INR. field; auto.
  - assert (A0 : forall n, bco n 0 = (-1) ^ n).
    { induction n as [|n IH]; auto. simpl. rewrite IH. lra. }
    induction k as [|k IHk].
    + simpl (0 + S d)%nat. rewrite A0. simpl (fact 0). simpl (INR 1). field; auto.
    + replace (S k + S d)%nat with (S (k + S d)) by lia. cbn [bco].
      specialize (IHd (S k)). replace (S k + d)%nat with (k + S d)%nat in IHd by lia.
      rewrite (FS (k + S d)%nat).
      transitivity ((bco (k + S d) k / INR (fact (k + S d)) - bco (k + S d) (S k) / INR (fact (k + S d))) / INR (S (k + S d))).
      { field; auto. }
      rewrite IHk, IHd. rewrite (FS k), (FS d). rewrite !S_INR, plus_INR, S_INR. cbn [pow].
      pose proof (pos_INR k). pose proof (pos_INR d).
      field. repeat split; auto; lra.
Qed.

Section Unif.
Variables (dim : nat) (P : mat).
Hypothesis HP : stochastic dim P.
Definition shiftm (lam : R) : mat := fun i j => lam * (P i j - mident i j).

Fixpoint nsum (f : nat -> R) (n : nat) : R := match n with O => f 0%nat | S m => nsum f m + f (S m) end.
Lemma nsum_f_R0 f n : sum_f_R0 f n = nsum f n.
Proof. induction n; simpl; congruence. Qed.

Lemma mpow_shift lam n : forall i j, (i < dim)%nat -> (j < dim)%nat ->
  mpow dim (shiftm lam) n i j = lam ^ n * rsum (S n) (fun k => bco n k * mpow dim P k i j).
Proof.
  induction n as [|n IH]; intros i j Hi Hj.
  - simpl. lra.
  - cbn [mpow]. unfold mmul.
    rewrite (rsum_ext dim _ (fun k => lam ^ S n * (rsum (S n) (fun m => bco n m * mpow dim P m i k) * (P k j - mident k j)))).
    2:{ intros k Hk. rewrite IH by auto. unfold shiftm. cbn [pow]. ring. }
    rewrite rsum_scal_l. f_equal.
    transitivity (rsum (S n) (fun m => bco n m * mpow dim P (S m) i j) - rsum (S n) (fun m => bco n m * mpow dim P m i j)).
    + rewrite (rsum_ext dim _ (fun k => rsum (S n) (fun m => bco n m * (mpow dim P m i k * P k j) - bco n m * (mpow dim P m i k * mident k j)))).
      2:{ intros k Hk. rewrite <- rsum_scal_r. apply rsum_ext. intros; ring. }
      rewrite rsum_swap, <- rsum_minus. apply rsum_ext. intros m Hm.
      rewrite rsum_minus, !rsum_scal_l. f_equal. f_equal. apply (mident_r dim (mpow dim P m)); auto.
    + (* index shift *)
      assert (E1 : rsum (S (S n)) (fun k => bco (S n) k * mpow dim P k i j) =
                   bco (S n) 0 * mpow dim P 0 i j + rsum (S n) (fun k => bco (S n) (S k) * mpow dim P (S k) i j)).
      { apply (rsum_shift (S n) (fun k => bco (S n) k * mpow dim P k i j)). }
      assert (E2 : rsum (S n) (fun k => bco n k * mpow dim P k i j) =
                   bco n 0 * mpow dim P 0 i j + rsum (S n) (fun k => bco n (S k) * mpow dim P (S k) i j)).
      { rewrite (rsum_shift n (fun k => bco n k * mpow dim P k i j)). f_equal.
        change (rsum (S n) (fun k => bco n (S k) * mpow dim P (S k) i j)) with
          (rsum n (fun k => bco n (S k) * mpow dim P (S k) i j) + bco n (S n) * mpow dim P (S n) i j).
        rewrite (bco_out n (S n)) by lia. lra. }
      rewrite E1, E2. cbn [bco].
      rewrite (rsum_ext (S n) (fun k => (bco n k - bco n (S k)) * mpow dim P (S k) i j)
        (fun k => bco n k * mpow dim P (S k) i j - bco n (S k) * mpow dim P (S k) i j)) by (intros; ring).
      rewrite rsum_minus. ring.
Qed.

Lemma mpow_bounds n i j : (i < dim)%nat -> (j < dim)%nat -> 0 <= mpow dim P n i j <= 1.
Proof.
  intros Hi Hj. destruct (stochastic_mpow dim P n HP) as [S1 S2]. split; auto.
  rewrite <- (S2 i Hi). rewrite <- (rsum_delta dim (fun k => mpow dim P n i k) j Hj) at 1.
  apply rsum_le. intros k Hk. destruct (Nat.eqb j k); [lra|auto].
Qed.

Definition uterm (lam : R) (i j n : nat) : R := lam ^ n / INR (fact n) * mpow dim P n i j.

Lemma exp_series x : is_series (fun n => x ^ n / INR (fact n)) (exp x).
Proof.
  apply is_series_Reals. unfold exp. destruct (exist_exp x) as [l Hl]. simpl.
  intros eps He. destruct (Hl eps He) as [N HN]. exists N. intros n Hn. specialize (HN n Hn).
  rewrite (sum_eq _ (fun i => / INR (fact i) * x ^ i)); auto. intros; unfold Rdiv; ring.
Qed.
Lemma exp_series_abs x : ex_series (fun n => Rabs (x ^ n / INR (fact n))).
Proof.
  exists (exp (Rabs x)). eapply is_series_ext; [|apply exp_series]. intros n.
  unfold Rdiv. rewrite Rabs_mult, RPow_abs. f_equal. symmetry. apply Rabs_pos_eq.
  left. apply Rinv_0_lt_compat, INR_fact_lt_0.
Qed.
Lemma uterm_abs lam i j : (i < dim)%nat -> (j < dim)%nat -> ex_series (fun n => Rabs (uterm lam i j n)).
Proof.
  intros Hi Hj. apply (@ex_series_le R_AbsRing R_CompleteNormedModule) with (b := fun n => Rabs (lam ^ n / INR (fact n))).
  - intros n. change (Rabs (Rabs (uterm lam i j n)) <= Rabs (lam ^ n / INR (fact n))).
    rewrite Rabs_Rabsolu. unfold uterm. rewrite Rabs_mult.
    destruct (mpow_bounds n i j Hi Hj). rewrite (Rabs_pos_eq (mpow dim P n i j)) by auto.
    rewrite <- Rmult_1_r. apply Rmult_le_compat_l; auto. apply Rabs_pos.
  - apply exp_series_abs.
Qed.

Lemma unif_series lam E : is_expm dim (shiftm lam) E -> forall i j, (i < dim)%nat -> (j < dim)%nat ->
  is_series (uterm lam i j) (E i j * exp lam).
Proof.
  intros HE i j Hi Hj.
  destruct (ex_series_Rabs _ (uterm_abs lam i j Hi Hj)) as [s Hs].
  assert (HM : is_series (fun n => sum_f_R0 (fun k => uterm lam i j k * ((- lam) ^ (n - k) / INR (fact (n - k)))) n) (s * exp (- lam))).
  { apply (is_series_mult (uterm lam i j) (fun n => (- lam) ^ n / INR (fact n))); auto using exp_series, exp_series_abs, uterm_abs. }
  assert (EQ : is_series (fun n => mpow dim (shiftm lam) n i j / INR (fact n)) (s * exp (- lam))).
  { eapply is_series_ext; [|apply HM]. intros n. cbv beta.
    rewrite mpow_shift by auto. rewrite <- rsum_scal_l, <- rsum_div.
    rewrite nsum_f_R0.
    assert (NR : forall f N, nsum f N = rsum (S N) f).
    { intros f N; induction N as [|N IH]; [simpl; lra|]. simpl nsum. rewrite IH. reflexivity. }
    rewrite NR. apply rsum_ext. intros k Hk. unfold uterm.
    pose proof (bco_val (n - k) k) as B. replace (k + (n - k))%nat with n in B by lia.
    assert (EL : lam ^ n = lam ^ k * lam ^ (n - k)) by (rewrite <- pow_add; f_equal; lia).
    assert (HO : (- lam) ^ (n - k) = (-1) ^ (n - k) * lam ^ (n - k)).
    { replace (- lam) with (-1 * lam) by ring. apply Rpow_mult_distr. }
    transitivity (lam ^ n * mpow dim P k i j * (bco n k / INR (fact n))).
    2:{ unfold Rdiv; ring. }
    rewrite B, EL, HO. field. split; apply INR_fact_neq_0. }
  specialize (HE i j Hi Hj). apply is_series_Reals in HE.
  assert (HU : E i j = s * exp (- lam)).
  { rewrite <- (is_series_unique _ _ HE). apply is_series_unique. exact EQ. }
  rewrite HU, Rmult_assoc, <- exp_plus. replace (- lam + lam) with 0 by lra. rewrite exp_0, Rmult_1_r. exact Hs.
Qed.
End Unif.
