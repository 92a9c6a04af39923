(** Feasible computations. *)
From Coq Require Import List Arith.
From Verif Require Import Base Rng.

(** there are draws without exceptional coincidences (no uniform draw is 0, all differ) with
    which the computation, given enough fuel, returns a value with property [P] *)
Definition feasible {A} (m : nat -> M A) (P : A -> Prop) : Prop :=
  exists o n0 a, valid o /\ generic o /\ P a /\ forall fuel, n0 <= fuel -> fst (m fuel o 0) = Ok a.

From Coq Require Import Reals.
From Verif Require Import Np M_skel M_models M_seed M_ito SpecSeed.
Import ListNotations.
Local Open Scope R_scope.
(** on intervals within the bounds, eval_bounds_disc gives a finite interval of positive length *)
Definition spread (lb ub : ext) (bounds : bounds_fun) : Prop :=
  forall x y, x < y -> inside lb ub x -> inside lb ub y -> exists inf lo hi, bounds x y = (inf, lo, Fin hi) /\ lo < hi.
(** the same for the bounds used by flip_poisson_coin of ea3lib/skeleton.py *)
Definition spread_skel (lb ub : ext) (bd : R -> R -> R * R * R) : Prop :=
  forall x y, x < y -> elt lb (Fin x) -> elt (Fin y) ub -> let '(inf, _, hi) := bd x y in inf < hi.
(** ** a sampler of the parameters that follows a given list of moves *)
(** a proposal c + d * xi with xi standard normal, for the sector drawn by update_params *)
Definition gaussian (c d : nat -> R) (lf lb : nat -> R -> R) : nat -> M (R * R * R) :=
  fun s => do x <- draw_r DNormal; ret (c s + d s * x, lf s x, lb s x).
(** a generator whose Poisson counts are all zero *)
Definition quiet (o : oracle) : Prop := forall k lam, ora_n o k (DPoisson lam) = 0%nat.
(** the parameters after moves (coordinate, proposed value, accepted) *)
Fixpoint follow (thi : list R) (moves : list (nat * R * bool)) : list (list R) :=
  match moves with
  | [] => []
  | (s, q, d) :: r => let thi' := if d : bool then list_set thi s q else thi in thi' :: follow thi' r
  end.
(** a property of every move: of the parameters before it and of those proposed *)
Fixpoint along (P : list R -> list R -> Prop) (thi : list R) (moves : list (nat * R * bool)) : Prop :=
  match moves with
  | [] => True
  | (s, q, d) :: r => (s < length thi)%nat /\ P thi (list_set thi s q) /\ along P (if d : bool then list_set thi s q else thi) r
  end.
(** the rates of the dual coins of all intervals are positive, whatever the bounds of the seeds *)
Definition coins_alive (grad : list R -> list R -> R -> R -> R -> R -> R -> list R) (t vt thi thi' : list R) : Prop :=
  forall i a b v0 v1 l u, nth_error t i = Some a -> nth_error t (S i) = Some b -> nth_error vt i = Some v0 -> nth_error vt (S i) = Some v1 -> l <> u ->
    0 < ito_intensity thi thi' (grad thi thi' (b - a) v0 v1 l u).
(** proposals with a Gaussian step and job generators without Poisson points *)
Definition live (i : ito_inputs) : Prop := (exists c d lf lk, (forall s, d s <> 0) /\ ii_propose i = gaussian c d lf lk) /\ forall j, quiet (ii_omes i j).
(** two positive parameters *)
Definition pos2 (thi : list R) : Prop := exists b s, thi = [b; s] /\ 0 < b /\ 0 < s.
(** no interval begins and ends at an observation zero *)
Definition not_both_zero (vt : list R) : Prop := forall i v0 v1, nth_error vt i = Some v0 -> nth_error vt (S i) = Some v1 -> v0 <> 0 \/ v1 <> 0.
