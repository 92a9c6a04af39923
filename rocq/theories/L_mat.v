(** Finite sums and matrix algebra. *)
From Coq Require Import Reals List Arith Lia Lra.
From Verif Require Import Base Mat.
From Verif Require Export SpecLin.
Import ListNotations.
Local Open Scope R_scope.

Lemma rsum_ext n f g : (forall i, (i < n)%nat -> f i = g i) -> rsum n f = rsum n g.
Proof. induction n as [|n IH]; simpl; intros H; auto. rewrite IH, H; auto. Qed.
Lemma rsum_plus n f g : rsum n (fun i => f i + g i) = rsum n f + rsum n g.
Proof. induction n as [|n IH]; simpl; [lra|rewrite IH; lra]. Qed.
Lemma rsum_minus n f g : rsum n (fun i => f i - g i) = rsum n f - rsum n g.
Proof. induction n as [|n IH]; simpl; [lra|rewrite IH; lra]. Qed.
Lemma rsum_scal_l n c f : rsum n (fun i => c * f i) = c * rsum n f.
Proof. induction n as [|n IH]; simpl; [lra|rewrite IH; lra]. Qed.
Lemma rsum_scal_r n c f : rsum n (fun i => f i * c) = rsum n f * c.
Proof. induction n as [|n IH]; simpl; [lra|rewrite IH; lra]. Qed.
Lemma rsum_div n c f : rsum n (fun i => f i / c) = rsum n f / c.
Proof. unfold Rdiv. apply rsum_scal_r. Qed.
Lemma rsum_const n c : rsum n (fun _ => c) = INR n * c.
Proof. induction n as [|n IH]; [simpl; lra|]. rewrite S_INR. simpl. rewrite IH. lra. Qed.
Lemma rsum_0 n f : (forall i, (i < n)%nat -> f i = 0) -> rsum n f = 0.
Proof. intros H. rewrite (rsum_ext n f (fun _ => 0)); auto. rewrite rsum_const; lra. Qed.
Lemma rsum_swap n m f : rsum n (fun i => rsum m (fun j => f i j)) = rsum m (fun j => rsum n (fun i => f i j)).
Proof.
  induction n as [|n IH]; simpl.
  - rewrite rsum_0; auto.
  - rewrite IH, <- rsum_plus. reflexivity.
Qed.
Lemma rsum_nonneg n f : (forall i, (i < n)%nat -> 0 <= f i) -> 0 <= rsum n f.
Proof. induction n as [|n IH]; simpl; intros H; [lra|]. specialize (IH ltac:(auto)). specialize (H n ltac:(lia)). lra. Qed.
Lemma rsum_le n f g : (forall i, (i < n)%nat -> f i <= g i) -> rsum n f <= rsum n g.
Proof. induction n as [|n IH]; simpl; intros H; [lra|]. specialize (IH ltac:(auto)). specialize (H n ltac:(lia)). lra. Qed.
Lemma rsum_pos n f i : (forall j, (j < n)%nat -> 0 <= f j) -> (i < n)%nat -> 0 < f i -> 0 < rsum n f.
Proof.
  induction n as [|n IH]; simpl; intros H Hi Hp; [lia|].
  destruct (Nat.eq_dec i n) as [->|N].
  - assert (0 <= rsum n f) by (apply rsum_nonneg; auto). lra.
  - assert (0 < rsum n f) by (apply IH; auto; lia). specialize (H n ltac:(lia)). lra.
Qed.
Lemma rsum_delta n f i : (i < n)%nat -> rsum n (fun j => if Nat.eqb i j then f j else 0) = f i.
Proof.
  induction n as [|n IH]; simpl; intros Hi; [lia|].
  destruct (Nat.eqb_spec i n) as [->|N].
  - rewrite rsum_0; [lra|]. intros j Hj. destruct (Nat.eqb_spec n j); auto; lia.
  - rewrite IH by lia. lra.
Qed.
Lemma rsum_delta_r n f i : (i < n)%nat -> rsum n (fun j => if Nat.eqb j i then f j else 0) = f i.
Proof.
  intros Hi. rewrite <- (rsum_delta n f i Hi). apply rsum_ext. intros j _. rewrite Nat.eqb_sym; auto.
Qed.
Lemma rsum_shift n f : rsum (S n) f = f 0%nat + rsum n (fun k => f (S k)).
Proof.
  induction n as [|n IH]; [simpl; lra|]. change (rsum (S (S n)) f) with (rsum (S n) f + f (S n)).
  rewrite IH. simpl. lra.
Qed.
Lemma rsum_list n f : fold_right Rplus 0 (map f (seq 0 n)) = rsum n f.
Proof.
  induction n as [|n IH]; auto. rewrite seq_S, map_app. cbn [map rsum].
  rewrite <- IH. generalize (map f (seq 0 n)); intros l. induction l as [|a l IHl]; simpl in *; lra.
Qed.

Lemma mident_l dim A i j : (i < dim)%nat -> mmul dim mident A i j = A i j.
Proof.
  intros Hi. unfold mmul, mident.
  rewrite (rsum_ext dim _ (fun k => if Nat.eqb i k then A k j else 0)).
  - apply (rsum_delta dim (fun k => A k j)); auto.
  - intros k _. destruct (Nat.eqb i k); lra.
Qed.
Lemma mident_r dim A i j : (j < dim)%nat -> mmul dim A mident i j = A i j.
Proof.
  intros Hj. unfold mmul, mident.
  rewrite (rsum_ext dim _ (fun k => if Nat.eqb k j then A i k else 0)).
  - apply (rsum_delta_r dim (fun k => A i k)); auto.
  - intros k _. destruct (Nat.eqb k j); lra.
Qed.
Lemma mmul_assoc dim A B C i j : mmul dim (mmul dim A B) C i j = mmul dim A (mmul dim B C) i j.
Proof.
  unfold mmul.
  rewrite (rsum_ext dim _ (fun k => rsum dim (fun l => A i l * B l k * C k j))).
  2:{ intros k _. rewrite <- rsum_scal_r. reflexivity. }
  rewrite rsum_swap. apply rsum_ext. intros l _. rewrite <- rsum_scal_l. apply rsum_ext. intros; lra.
Qed.
Lemma mmul_ext dim A A' B B' i j :
  (forall k, (k < dim)%nat -> A i k = A' i k) -> (forall k, (k < dim)%nat -> B k j = B' k j) ->
  mmul dim A B i j = mmul dim A' B' i j.
Proof. intros H1 H2. apply rsum_ext. intros k Hk. rewrite H1, H2; auto. Qed.
(** P . P^m = P^m . P *)
Lemma mpow_comm dim P m i j : (i < dim)%nat -> (j < dim)%nat ->
  mmul dim P (mpow dim P m) i j = mpow dim P (S m) i j.
Proof.
  revert i j; induction m as [|m IH]; intros i j Hi Hj; simpl.
  - rewrite mident_r, mident_l; auto.
  - transitivity (mmul dim (mmul dim P (mpow dim P m)) P i j).
    + symmetry. apply mmul_assoc.
    + apply mmul_ext; auto. intros k Hk. rewrite IH; auto.
Qed.

(** stochastic matrices *)
Lemma stochastic_ident dim : stochastic dim mident.
Proof.
  split.
  - intros; unfold mident; destruct (Nat.eqb i j); lra.
  - intros i Hi. unfold mident. apply (rsum_delta dim (fun _ => 1)); auto.
Qed.
Lemma stochastic_mmul dim P Q : stochastic dim P -> stochastic dim Q -> stochastic dim (mmul dim P Q).
Proof.
  intros [P1 P2] [Q1 Q2]; split.
  - intros i j Hi Hj. apply rsum_nonneg. intros k Hk. apply Rmult_le_pos; auto.
  - intros i Hi. unfold mmul. rewrite rsum_swap.
    rewrite (rsum_ext dim _ (fun k => P i k)); auto.
    intros k Hk. rewrite rsum_scal_l, Q2; auto; lra.
Qed.
Lemma stochastic_mpow dim P m : stochastic dim P -> stochastic dim (mpow dim P m).
Proof.
  intros H; induction m; simpl; [apply stochastic_ident|apply stochastic_mmul; auto].
Qed.

