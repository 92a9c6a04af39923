(** Property theorems C101: the law of the layer of a Brownian bridge. *)
From Coq Require Import Reals List Bool Arith Lra Lia.
From Verif Require Import Base Rng M_hit SpecHit SpecLaw SpecLay L_lay4.
Local Open Scope R_scope.

(** given the bounds on the path, the layer drawn is at most L with the conditional probability that
    the bridge stays inside the edges of layer L, times the probability that one of the n attempts
    between two finite bounds succeeds *)
Theorem C101_layer : forall n t a b lb ub L p q, 0 < t -> elt lb (Fin (Rmin a b)) -> elt (Fin (Rmax a b)) ub -> (1 <= L)%nat ->
  layer_escape t a b lb ub L p -> leaves t a b lb ub q ->
  limit_chance (fun fuel => sample_layer fuel n t a b lb ub) (fun j => j <=? L)%nat (attempts lb ub q n * ((1 - p) / (1 - q))).
Proof. exact layer_law. Qed.
Print Assumptions C101_layer.
Theorem C101_exact : forall n t a b lb ub L p' p q, 0 < t -> elt lb (Fin (Rmin a b)) -> elt (Fin (Rmax a b)) ub -> (1 <= L)%nat ->
  layer_escape t a b lb ub L p' -> layer_escape t a b lb ub (S L) p -> leaves t a b lb ub q ->
  limit_chance (fun fuel => sample_layer fuel n t a b lb ub) (fun j => j =? S L)%nat (attempts lb ub q n * ((p' - p) / (1 - q))).
Proof. exact layer_exact. Qed.
Print Assumptions C101_exact.
(** the escape probabilities exist and differ from 1, with and without bounds *)
Example C101_example : exists p q p', layer_escape 1 0 0 (Fin (-1)) (Fin 1) 1 p /\ leaves 1 0 0 (Fin (-1)) (Fin 1) q /\
  layer_escape 1 0 0 NegInf PosInf 1 p' /\ leaves 1 0 0 NegInf PosInf 0 /\ q <= p < 1 /\ 0 <= p' < 1.
Proof. exact layer_inhabited. Qed.
