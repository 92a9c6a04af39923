(** Property theorems C37, continued: the edges of the layers for every exponent pow. *)
From Coq Require Import Reals List Bool Arith ZArith Lra.
From Verif Require Import Base Rng M_hit M_edges SpecHit L_edges.
Import ListNotations.
Local Open Scope R_scope.

Theorem C37_pow_default : forall i t a b lb ub, compute_edges_pow 2 i t a b lb ub = compute_edges i t a b lb ub.
Proof. exact edges_default. Qed.
Print Assumptions C37_pow_default.
Theorem C37_pow_zero : forall pow t a b lb ub, 0 < t -> elt lb (Fin (Rmin a b)) -> elt (Fin (Rmax a b)) ub ->
  compute_edges_pow pow 0 t a b lb ub = Ok (Fin (Rmin a b), Fin (Rmax a b)).
Proof. exact edge_zero_pow. Qed.
Print Assumptions C37_pow_zero.
Theorem C37_pow_inside : forall pow t a b lb ub, 0 < t -> elt lb (Fin (Rmin a b)) -> elt (Fin (Rmax a b)) ub -> forall i,
  exists le ue, compute_edges_pow pow i t a b lb ub = Ok (Fin le, Fin ue) /\ elt lb (Fin le) /\ elt (Fin ue) ub /\
    le <= Rmin a b /\ Rmax a b <= ue /\ ((1 <= i)%nat -> le < Rmin a b /\ Rmax a b < ue).
Proof. exact edges_inside_pow. Qed.
Print Assumptions C37_pow_inside.
Theorem C37_pow_nested : forall pow t a b lb ub, 0 < t -> elt lb (Fin (Rmin a b)) -> elt (Fin (Rmax a b)) ub -> forall i j le ue le' ue', (0 < pow)%Z -> (i < j)%nat ->
  compute_edges_pow pow i t a b lb ub = Ok (Fin le, Fin ue) -> compute_edges_pow pow j t a b lb ub = Ok (Fin le', Fin ue') -> le' < le /\ ue < ue'.
Proof. exact edges_nested_pow. Qed.
Print Assumptions C37_pow_nested.
Theorem C37_pow_exhaust : forall pow t a b lb ub, 0 < t -> elt lb (Fin (Rmin a b)) -> elt (Fin (Rmax a b)) ub ->
  forall x y, (0 < pow)%Z -> elt lb (Fin x) -> elt (Fin y) ub -> exists N, forall i le ue, (N <= i)%nat ->
    compute_edges_pow pow i t a b lb ub = Ok (Fin le, Fin ue) -> le < x /\ y < ue.
Proof. exact edges_exhaust_pow. Qed.
Print Assumptions C37_pow_exhaust.
Theorem C37_pow_quantile : forall pow t a b lb ub, 0 < t -> elt lb (Fin (Rmin a b)) -> elt (Fin (Rmax a b)) ub -> forall i le ue, (1 <= i)%nat ->
  compute_edges_pow pow i t a b lb ub = Ok (Fin le, Fin ue) ->
  reach_given t a b (Fin le) lb = 1 / (powerRZ (INR i) pow + 1) /\ reach_given t a b (Fin ue) ub = 1 / (powerRZ (INR i) pow + 1).
Proof. exact edges_quantile_pow. Qed.
Print Assumptions C37_pow_quantile.
(** with an exponent that is not positive, which the code accepts, no layer after the first is wider than the first *)
Theorem C37_pow_nonpositive : forall pow t a b lb ub, 0 < t -> elt lb (Fin (Rmin a b)) -> elt (Fin (Rmax a b)) ub -> forall i j le ue le' ue', (pow <= 0)%Z -> (1 <= i < j)%nat ->
  compute_edges_pow pow i t a b lb ub = Ok (Fin le, Fin ue) -> compute_edges_pow pow j t a b lb ub = Ok (Fin le', Fin ue') -> le <= le' /\ ue' <= ue.
Proof. exact edges_shrink. Qed.
Print Assumptions C37_pow_nonpositive.
Example C37_pow_example : 0 < 1 /\ elt (Fin (-1)) (Fin (Rmin 0 1)) /\ elt (Fin (Rmax 0 1)) PosInf /\ (0 < 3)%Z.
Proof. split; [lra|]. split; [simpl; rewrite Rmin_left; lra|]. split; [exact Logic.I|reflexivity]. Qed.
