(** Specification of the Markov chains with their parameter samplers. *)
From Coq Require Import Reals List Arith.
From Verif Require Import Base Np Rng Mat M_adapt M_path M_seed M_sw M_chain M_full SpecAdapt.
Import ListNotations.
Local Open Scope R_scope.

(** strictly inside a bound that stands alone; two finite bounds are ignored by the samplers (C24) *)
Definition one_sided (lb ub : ext) (x : R) : Prop :=
  match lb, ub with Fin _, Fin _ => True | Fin l, _ => l < x | _, Fin u => x < u | _, _ => True end.
Definition admissible (d : nat) (lb ub : nat -> ext) (r : list R) : Prop :=
  length r = d /\ forall i, (i < d)%nat -> one_sided (lb i) (ub i) (nth i r 0).
(** the parameters of regime i *)
Definition thi_of (i : nat) (s : chain * list mv) : vec := fun j => nth j (nth i (c_thi (fst s)) []) 0.
Definition zero_one (p : R) : Prop := p = 0 \/ p = 1.
(** the same result, with f applied to the value *)
Definition res_map {A B} (f : A -> B) (r : res A) : res B := match r with Ok a => Ok (f a) | Raise e => Raise e | NoFuel => NoFuel end.
(** the two kinds of inputs differ only in where the proposals come from *)
Definition same_draws (i : full_inputs) (j : inputs) : Prop := in_params j = fi_params i /\ in_hidden j = fi_hidden i.
(** what one proposal and its acceptance (1) or rejection (0) do to a sampler's state *)
Definition move (d : nat) (lb ub : nat -> ext) (mvn : vec -> mat -> vec) (sp : mv) (x : vec) (p : R) : Prop :=
  (p = 0 /\ x = rw_state (mv_rw sp)) \/
  (p = 1 /\ exists q f b, (forall o k, mv_propose d lb ub mvn sp o k = (Ok (Some (q, f, b)), k)) /\ forall j, (j < d)%nat -> x j = q j).
(** a sampler that proposes, moves and is adapted, once for every draw *)
Inductive sampled (d : nat) (lb ub : nat -> ext) (opt_prob decay : R) (air : nat) : list (vec -> mat -> vec) -> mv -> list (vec * R) -> mv -> Prop :=
  | sampled_nil : forall sp, sampled d lb ub opt_prob decay air [] sp [] sp
  | sampled_cons : forall mvn ms sp x p sp1 h sp2, move d lb ub mvn sp x p -> mv_adapt d lb ub opt_prob decay air sp x p = Some sp1 ->
      sampled d lb ub opt_prob decay air ms sp1 h sp2 -> sampled d lb ub opt_prob decay air (mvn :: ms) sp ((x, p) :: h) sp2.
(** proposals that are made without random numbers of the chain and are admissible *)
Definition good_proposals (d : nat) (lb ub : nat -> ext) (n : nat) (i : inputs) : Prop :=
  (forall j, (j < n)%nat -> exists q f b, (forall o k, in_propose i j o k = (Ok (q, f, b), k)) /\ admissible d lb ub q) /\
  (forall j, (n <= j)%nat -> forall o k, fst (in_propose i j o k) = Raise IndexError).
(** the proposals of an iteration, with the two log densities, are those of the given samplers *)
Definition from_samplers (d : nat) (lb ub : nat -> ext) (mvn : nat -> vec -> mat -> vec) (sps : list mv) (i : inputs) : Prop :=
  forall j sp, nth_error sps j = Some sp -> exists p f b, (forall o k, mv_propose d lb ub (mvn j) sp o k = (Ok (Some (p, f, b)), k)) /\
    forall o k, in_propose i j o k = (Ok (map p (seq 0 d), f, b), k).
