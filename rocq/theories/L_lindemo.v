(** The assumptions about external linear algebra are satisfiable: an exact matrix
    exponential exists, and a two-state generator with its stationary law. *)
From Coq Require Import Reals List Arith Lia Lra.
From Coquelicot Require Import Hierarchy Series Rcomplements.
From Verif Require Import Base Np Rng Mat M_mjp SpecMjp SpecLin L_mat L_unif.
Local Open Scope R_scope.

Lemma mpow_bound dim (A : mat) M n i j : (forall i j, (i < dim)%nat -> (j < dim)%nat -> Rabs (A i j) <= M) ->
  (i < dim)%nat -> (j < dim)%nat -> Rabs (mpow dim A n i j) <= (INR dim * M) ^ n.
Proof.
  intros HM. revert i j. induction n as [|n IH]; intros i j Hi Hj; cbn [mpow pow].
  - unfold mident. destruct (Nat.eqb i j); rewrite ?Rabs_R1, ?Rabs_R0; lra.
  - assert (HK : 0 <= INR dim * M).
    { apply Rmult_le_pos; [apply pos_INR|]. eapply Rle_trans; [apply Rabs_pos|apply (HM i j); auto]. }
    unfold mmul. eapply Rle_trans with (rsum dim (fun k => (INR dim * M) ^ n * M)).
    + assert (AB : forall m f, Rabs (rsum m f) <= rsum m (fun k => Rabs (f k))).
      { induction m as [|m IHm]; intros f; simpl; [rewrite Rabs_R0; lra|].
        eapply Rle_trans; [apply Rabs_triang|]. specialize (IHm f). lra. }
      eapply Rle_trans; [apply AB|]. apply rsum_le. intros k Hk. rewrite Rabs_mult.
      apply Rmult_le_compat; auto using Rabs_pos.
    + rewrite rsum_const. right; ring.
Qed.

Lemma rsum_term n f i : (forall j, (j < n)%nat -> 0 <= f j) -> (i < n)%nat -> f i <= rsum n f.
Proof.
  intros H Hi. induction n as [|n IH]; [lia|]. simpl. destruct (Nat.eq_dec i n) as [->|N].
  - assert (0 <= rsum n f) by (apply rsum_nonneg; auto). lra.
  - assert (f i <= rsum n f) by (apply IH; auto; lia). assert (0 <= f n) by auto. lra.
Qed.

Lemma expm_series dim A i j : (i < dim)%nat -> (j < dim)%nat ->
  ex_series (fun n => mpow dim A n i j / INR (fact n)).
Proof.
  intros Hi Hj. set (M := rsum dim (fun i => rsum dim (fun j => Rabs (A i j)))).
  assert (HM : forall i j, (i < dim)%nat -> (j < dim)%nat -> Rabs (A i j) <= M).
  { intros a b Ha Hb. unfold M. eapply Rle_trans; [|apply (rsum_term dim (fun i => rsum dim (fun j => Rabs (A i j))) a); auto].
    - apply (rsum_term dim (fun j => Rabs (A a j)) b); auto using Rabs_pos.
    - intros; apply rsum_nonneg; intros; apply Rabs_pos. }
  apply (@ex_series_le R_AbsRing R_CompleteNormedModule) with (b := fun n => (INR dim * M) ^ n / INR (fact n)).
  - intros n. change (norm (mpow dim A n i j / INR (fact n))) with (Rabs (mpow dim A n i j / INR (fact n))).
    unfold Rdiv. rewrite Rabs_mult, (Rabs_right (/ INR (fact n))).
    + apply Rmult_le_compat_r; [left; apply Rinv_0_lt_compat, INR_fact_lt_0|apply mpow_bound; auto].
    + left. apply Rinv_0_lt_compat, INR_fact_lt_0.
  - exists (exp (INR dim * M)). apply exp_series.
Qed.

(** exact exponential; solver: Cramer's rule for two unknowns *)
Definition la0 : linalg := {|
  la_expm := fun dim A i j => Series (fun n => mpow dim A n i j / INR (fact n));
  la_solve := fun _ A b => Some (fun i =>
    let det := A 0%nat 0%nat * A 1%nat 1%nat - A 0%nat 1%nat * A 1%nat 0%nat in
    match i with
    | O => (b 0%nat * A 1%nat 1%nat - A 0%nat 1%nat * b 1%nat) / det
    | _ => (A 0%nat 0%nat * b 1%nat - b 0%nat * A 1%nat 0%nat) / det
    end) |}.

Lemma la0_expm : expm_exact la0.
Proof.
  intros dim A i j Hi Hj. simpl. apply is_series_Reals. apply Series_correct. apply expm_series; auto.
Qed.

(** two states, rates 1 and 2 *)
Definition gen2 : mat := fun i j =>
  match i, j with O, O => -1 | O, _ => 1 | _, O => 2 | _, _ => -2 end.
Lemma gen2_generator : generator 2 gen2.
Proof.
  split.
  - intros [|[|i]] [|[|j]] Hi Hj N; simpl; try lra; lia.
  - intros [|[|i]] Hi; simpl; try lra; lia.
Qed.
Lemma gen2_pos : pos_off 2 gen2.
Proof. intros [|[|i]] [|[|j]] Hi Hj N; simpl; try lra; try contradiction; lia. Qed.
Lemma la0_solve : solve_ok la0 2 (stat_matrix gen2) stat_rhs.
Proof.
  unfold solve_ok. simpl. intros [|[|i]] Hi; unfold stat_matrix, stat_rhs; simpl; try lia; field.
Qed.
