(** Concrete objects used by the non-vacuity examples. *)
From Coq Require Import Reals List Lra Lia Sorted.
From Verif Require Import Base Np Rng Mat M_mjp SpecMjp.
Import ListNotations.
Local Open Scope R_scope.

Ltac in_cases H := simpl in H; repeat (destruct H as [H|H]; [subst|]); try contradiction.

(** three sojourns 0,1,0 over [0,3] *)
Definition demo : skel R := mk_skel [0; 1; 2] [0; 1; 0]%nat 3.
Lemma demo_timed : timed demo.
Proof.
  constructor; simpl; auto.
  - repeat constructor; lra.
  - intros t H; in_cases H; lra.
Qed.
Lemma demo_wf : wf_skel demo.
Proof.
  split; [apply demo_timed|]. simpl. intros [|[|[|i]]] a b; simpl; intros Ha Hb; try discriminate;
    try (destruct i; discriminate); inversion Ha; inversion Hb; subst; lia.
Qed.
(** breaks at 0, at a jump (repeated), between jumps and at the horizon *)
Definition demo_breaks : list R := [0; 1; 1; 5/2; 3].
Lemma demo_breaks_sorted : StronglySorted Rle demo_breaks.
Proof. unfold demo_breaks. repeat constructor; lra. Qed.
Lemma demo_breaks_in b : In b demo_breaks -> 0 <= b <= sk_fin demo.
Proof. intros H; unfold demo_breaks in H; in_cases H; simpl; lra. Qed.
(** a second path, and a list of pieces with a piece of zero duration in the middle *)
Definition demo2 : skel R := mk_skel [0] [0]%nat 1.
Lemma demo2_timed : timed demo2.
Proof. constructor; simpl; auto; [repeat constructor|intros t H; in_cases H; lra]. Qed.
Definition demo_zero : skel R := mk_skel [0] [5]%nat 0.
Definition demo_pieces := [demo; demo_zero; demo2].
