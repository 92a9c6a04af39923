(** What the ingredients of a diffusion model must satisfy. *)
From Coq Require Import Reals List Bool.
From Coquelicot Require Import Rbar Hierarchy Continuity Derive.
From Verif Require Import Base Np Rng M_mjp M_hit M_path M_skel M_seed SpecSkel SpecSeed.
Import ListNotations.
Local Open Scope R_scope.

(** (infimum, lower, upper) bounds of f on [l, u]; lower and upper are attained *)
Definition tight_bounds (f : R -> R) (l u : R) (b : R * R * R) : Prop :=
  let '(inf, lo, hi) := b in
  inf <= lo /\ (forall x, l <= x <= u -> lo <= f x <= hi) /\ (exists x, l <= x <= u /\ f x = lo) /\ (exists x, l <= x <= u /\ f x = hi).
(** [m] is the smallest value of f *)
Definition smallest (f : R -> R) (m : R) : Prop := (exists x, f x = m) /\ forall x, m <= f x.
(** real bounds in the form used by seed.py *)
Definition as_bounds (b : R -> R -> R * R * R) : bounds_fun := fun l u => let '(i, lo, hi) := b l u in (i, lo, Fin hi).
(** the drift [b] of a diffusion with constant volatility [s] on the set [D]: its antiderivative and its
    derivative are as given, and phi = (b^2 / s^2 + b') / 2 *)
Record coherent (D : R -> Prop) (b sx dx phi : R -> R) (s : R) : Prop := {
  co_sx : forall x, D x -> is_derive (K := R_AbsRing) (V := R_NormedModule) sx x (b x);
  co_dx : forall x, D x -> is_derive (K := R_AbsRing) (V := R_NormedModule) b x (dx x);
  co_phi : forall x, D x -> phi x = ((b x / s) ^ 2 + dx x) / 2 }.
(** [r] maps the state space [E] of dV = a(V) dt + c(V) dW to the state space [D] of the diffusion with
    unit volatility (Lamperti transform), [d] is its inverse, [dr] its derivative and [b] the drift of the result *)
Record lamperti (E D : R -> Prop) (a c c' r dr d b : R -> R) : Prop := {
  la_in : forall v, E v -> D (r v);
  la_out : forall x, D x -> E (d x);
  la_left : forall v, E v -> d (r v) = v;
  la_right : forall x, D x -> r (d x) = x;
  la_deriv : forall v, E v -> is_derive (K := R_AbsRing) (V := R_NormedModule) r v (dr v);
  la_unit : forall v, E v -> dr v * c v = 1;
  la_vol : forall v, E v -> is_derive (K := R_AbsRing) (V := R_NormedModule) c v (c' v);
  la_drift : forall v, E v -> b (r v) = a v / c v - c' v / 2 }.
