(** Vocabulary for what the multivariate random walk has learned (C25). *)
From Coq Require Import Reals List.
From Verif Require Import Base Mat M_adapt.
Local Open Scope R_scope.

(** the real vector y is the parameter vector x without its bounds *)
Definition unbounded (dim : nat) (lb ub : nat -> ext) (x y : vec) : Prop :=
  forall i, (i < dim)%nat -> transform_to_reals (x i) (lb i) (ub i) = Some (y i, snd (transform_to_const (y i) (lb i) (ub i))).
(** the samples of a history of adapt calls without their bounds *)
Definition transformed (dim : nat) (lb ub : nat -> ext) (h : list (vec * R)) (reals : list vec) : Prop :=
  length reals = length h /\
  forall k x p y, nth_error h k = Some (x, p) -> nth_error reals k = Some y -> unbounded dim lb ub x y.
