(** Vocabulary for the statements about the sampler of ito/mcmc.py. *)
From Coq Require Import Reals List Arith Sorted.
From Verif Require Import Base Rng M_mjp M_path M_skel M_seed M_models M_sw M_ito SpecSkel SpecSeed.
Import ListNotations.
Local Open Scope R_scope.

(** observation times and values *)
Record series (t vt : list R) : Prop := {
  se_len : length vt = length t;
  se_two : (2 <= length t)%nat;
  se_sorted : StronglySorted Rlt t }.
(** one unrefined or refined standard bridge per interval *)
Definition seeds_ok (t : list R) (z : partition) : Prop :=
  S (length z) = length t /\ Forall (fun s => standard s /\ ends 1 0 0 s) z.
(** the proposals keep an admissible parameter vector admissible; the generators have positive and distinct uniforms *)
Definition ito_inputs_ok (adm : list R -> Prop) (i : ito_inputs) : Prop :=
  (forall thi j, adm thi -> (j < length thi)%nat -> returns_if generic (ii_propose i j) (fun p => adm (list_set thi j (fst (fst p))))) /\
  (forall j, valid (ii_omes i j) /\ generic (ii_omes i j)).
(** the log weight of a seed: the integral over the interval of minus the lower bound *)
Definition ito_weight (bounds : bounds_fun) (t xt : list R) (z : partition) (i : nat) : R :=
  let dt := nth (S i) t 0 - nth i t 0 in
  match nth_error z i with
  | Some s => - dt * low_level bounds (sqrt dt) (nth i xt 0) (nth (S i) xt 0) s
  | None => 0
  end.
(** the log density of an observed increment of the biased process, in the coordinate of the data *)
Definition ito_term (reduce dv sx : R -> R) (t vt : list R) (i : nat) : R :=
  let dt := nth (S i) t 0 - nth i t 0 in
  let x0 := reduce (nth i vt 0) in
  let x1 := reduce (nth (S i) vt 0) in
  ln (Rabs (dv (nth (S i) vt 0))) + (- ln (2 * PI * dt) / 2 - (x1 - x0) ^ 2 / (2 * dt)) + (sx x1 - sx x0).
