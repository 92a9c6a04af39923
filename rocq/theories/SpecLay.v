(** Specification of the law of the layer of a Brownian bridge. *)
From Coq Require Import Reals List Bool Arith.
From Verif Require Import Base Rng M_hit SpecHit SpecLaw.
Local Open Scope R_scope.

(** the probability of the event E tends to p as the bound on the number of terms of the series
    that the model may use goes to infinity *)
Definition limit_chance {A} (m : nat -> M A) (E : A -> bool) (p : R) : Prop :=
  forall eps, 0 < eps -> exists n0, forall fuel, (n0 <= fuel)%nat -> exists c, chance (m fuel) E c /\ Rabs (c - p) < eps.

(** the probability that a bridge from a to b over [0, t] leaves (lb, ub) *)
Definition leaves (t a b : R) (lb ub : ext) (q : R) : Prop :=
  match lb, ub with
  | Fin l, Fin u => brown_escape t (a - (l + u) / 2) (b - (l + u) / 2) ((u - l) / 2) q
  | Fin l, _ => q = reach t a b lb
  | _, Fin u => q = reach t a b ub
  | _, _ => q = 0
  end.
(** the probability that one of n attempts stays inside; attempts are only made between two finite bounds *)
Definition attempts (lb ub : ext) (q : R) (n : nat) : R := match lb, ub with Fin _, Fin _ => 1 - q ^ n | _, _ => 1 end.
