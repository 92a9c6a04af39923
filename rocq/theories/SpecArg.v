(** The law of the time at which a Brownian bridge attains its minimum. *)
From Coq Require Import Reals.
Local Open Scope R_scope.

(** Up to a constant, the density at u in (0, t) of the time of the minimum of a bridge over
    [0, t] that starts x and ends y above it: the product of the first-passage densities
    x u^(-3/2) exp(-x^2/(2u)) and y (t-u)^(-3/2) exp(-y^2/(2(t-u))). *)
Definition argmin_weight (t x y u : R) : R :=
  exp (- (3 / 2) * ln u - x ^ 2 / (2 * u)) * exp (- (3 / 2) * ln (t - u) - y ^ 2 / (2 * (t - u))).

(** A function of a sampled (time, minimum) pair; c is its value at (nan, -inf). *)
Definition of_min {A} (F : R -> R -> A) (c : A) (r : option (R * R)) : A := match r with Some (u, m) => F u m | None => c end.
