(** Specification vocabulary for the escape probabilities: the classical series, written
    down independently of the code, and what "exact decision" means. *)
From Coq Require Import Reals Bool Arith.
From Verif Require Import Base Rng M_hit.
Local Open Scope R_scope.

(** n-th pair of terms (n >= 1) of the probability that a Brownian bridge from a to b over
    [0, t] leaves (-K, K) *)
Definition two_sided_term (t a b K : R) (n : nat) : R :=
  exp (- (2 * ((2 * INR n - 1) * K - a) * ((2 * INR n - 1) * K - b) / t))
  + exp (- (2 * ((2 * INR n - 1) * K + a) * ((2 * INR n - 1) * K + b) / t))
  - exp (- (4 * INR n * K * (2 * INR n * K + (a - b)) / t))
  - exp (- (4 * INR n * K * (2 * INR n * K - (a - b)) / t)).
Definition brown_escape (t a b K p : R) : Prop :=
  infinite_sum (fun n => two_sided_term t a b K (S n)) p.

(** n-th pair of terms (n >= 1) of the probability that a Bessel(3) bridge from 0 to b over
    [0, t] exceeds K *)
Definition bessel_term (t b K : R) (n : nat) : R :=
  ((2 * INR n * K - b) * exp (- (2 * INR n * K * (INR n * K - b) / t))
   - (2 * INR n * K + b) * exp (- (2 * INR n * K * (INR n * K + b) / t))) / b.
(** ... from a to b: for a > 0 the bridge is a Brownian bridge conditioned to stay positive,
    so staying below K has probability P(stay in (0,K)) / P(stay positive) *)
Definition bessel_escape (t a b K p : R) : Prop :=
  (a = 0 -> infinite_sum (fun n => bessel_term t b K (S n)) p) /\
  (a <> 0 -> exists q, brown_escape t (a - K / 2) (b - K / 2) (K / 2) q /\ 1 - p = (1 - q) / (1 - exp (- (2 * a * b / t)))).

(** [m] decides the event [seed < p]: any value returned is the right answer, and it never
    raises. *)
Definition decides (m : M bool) (P : Prop) : Prop := safe m (fun r => r = true <-> P).

(** the first three terms of the two series (the largest partial sum that enters the
    denominator of the outer-bounded series) *)
Definition two_sided_three (t a b K : R) : R :=
  two_sided_term t a b K 1 + exp (- (2 * (3 * K - a) * (3 * K - b) / t)) + exp (- (2 * (3 * K + a) * (3 * K + b) / t)).
Definition bessel_three (t a b K : R) : R :=
  if Reqb a 0 then bessel_term t b K 1 + (4 * K - b) * exp (- (4 * K * (2 * K - b) / t)) / b
  else two_sided_three t (a - K / 2) (b - K / 2) (K / 2).

(** partial sums bracket p from position N on: even positions below, odd positions above *)
Definition brackets (s : nat -> R) (N : nat) (p : R) : Prop :=
  forall n, (N <= n)%nat -> (Nat.even n = true -> s n <= p) /\ (Nat.odd n = true -> p <= s n).

(** what an action may return, and which exceptions it may raise *)
Definition outcome {A} (P : A -> Prop) (E : exn -> Prop) (r : res A) : Prop :=
  match r with Ok a => P a | Raise e => E e | NoFuel => True end.

(** a minimum strictly inside its bounds, attained strictly inside (0, t) *)
Definition proper_min (t : R) (lb : ext) (ub : R) (r : option (R * R)) : Prop :=
  exists mt mx, r = Some (mt, mx) /\ elt lb (Fin mx) /\ mx < ub /\ 0 < mt < t.

(** probability that a bridge from a to b over [0, t] reaches the level x on either side *)
Definition reach (t a b : R) (x : ext) : R := match x with Fin x => exp (- (2 * (a - x) * (b - x) / t)) | _ => 0 end.
(** probability of reaching y given that x, beyond y, is not reached *)
Definition reach_given (t a b : R) (y x : ext) : R := (reach t a b y - reach t a b x) / (1 - reach t a b x).

(** escape probability of layer j *)
Definition layer_escape (t a b : R) (lb ub : ext) (j : nat) (p : R) : Prop := exists le ue, compute_edges j t a b lb ub = Ok (Fin le, Fin ue) /\
  brown_escape t (a - (le + ue) / 2) (b - (le + ue) / 2) ((ue - le) / 2) p.

(** the seed u is outside the event of leaving the bounds *)
Definition seed_keeps (t a b : R) (lb ub : ext) (u : R) : Prop :=
  match lb, ub with
  | Fin l, Fin v => forall p, brown_escape t (a - (l + v) / 2) (b - (l + v) / 2) ((v - l) / 2) p -> p <= u
  | Fin l, _ => reach t a b lb <= u
  | _, Fin v => reach t a b ub <= u
  | _, _ => True
  end.

(** the layer r is the first one that the seed does not leave *)
Definition layer_choice (t a b : R) (lb ub : ext) (r : nat) : Prop := (1 <= r)%nat /\ exists u, 0 <= u < 1 /\ seed_keeps t a b lb ub u /\
  (forall j p, (1 <= j < r)%nat -> layer_escape t a b lb ub j p -> u < p) /\ (forall p, layer_escape t a b lb ub r p -> p <= u).
