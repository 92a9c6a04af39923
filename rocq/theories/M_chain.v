(** Model of the Markov chain of ctbayes/switching/mcmc.py: sample_posterior, resume_sampling and
    update_joint.  Definitions only.  The adaptation of param_samplers is left out: the proposals
    of an iteration are arbitrary (C23-C28 are about the samplers). *)
From Coq Require Import Reals List Bool Arith.
From Verif Require Import Base Np Rng Mat M_mjp M_inf M_bf M_adapt M_path M_skel M_seed M_models M_sw.
Import ListNotations.
Local Open Scope R_scope.

(** an array without NaN entries *)
Definition mat_of (A : omat) : mat := fun i j => match A i j with Some x => x | None => 0 end.
(** what an iteration yields (line 46) and the state of regime_sampler *)
Record chain : Type := mk_chain { c_thi : list (list R); c_lam : mat; c_z : partition; c_h : anchorage; c_sp : rw jump_path }.
(** the inputs of one iteration: the proposals of the parameter samplers, the generators spawned
    for the jobs of update_params and those spawned for the jobs of update_hidden *)
Record inputs : Type := mk_inputs { in_propose : nat -> M (list R * R * R); in_params : nat -> oracle; in_hidden : nat -> oracle }.
Section Chain.
Context (L : linalg) (dim fuel mp max_props : nat) (lb_x ub_x : ext) (vol : list (list R) -> nat -> R) (disc : list (list R) -> nat -> R -> R) (bounds : list (list R) -> nat -> bounds_fun)
  (grad : list R -> list R -> R -> R -> R -> R -> R -> list R) (log_prior : list (list R) -> R) (loglik : list (list R) -> anchorage -> option nat -> R * R)
  (batch : nat) (precoin : bool) (pr_portkey : R) (max_flips : nat) (t vt : list R) (opt_prob decay : R) (air : nat) (alp bet : omat).
(** update_joint: lines 58-67 *)
Definition update_joint (i : inputs) (c : chain) : M chain :=
  do lam <- mcmc_update_generator dim (c_h c) alp bet;
  do p <- lift (update_params fuel mp max_props vol disc grad log_prior loglik batch precoin pr_portkey max_flips (in_propose i) (in_params i) (c_thi c) (c_z c) (c_h c));
  let '(_, thi, z) := p in
  do r <- update_hidden L fuel mp max_props lb_x ub_x (vol thi) (disc thi) (bounds thi) (loglik thi) batch precoin pr_portkey max_flips t vt opt_prob decay air dim (mat_of lam) (in_hidden i) (c_sp c) z (c_h c);
  let '(_, (z', h', sp')) := r in
  ret (mk_chain thi (mat_of lam) z' h' sp').
(** resume_sampling: lines 53-55 (and 44-46): the iterates of the while loop, one for each element of [ins] *)
Fixpoint resume_sampling (ins : list inputs) (c : chain) : M (list chain) :=
  match ins with
  | [] => ret []
  | i :: r => do c' <- update_joint i c; do l <- resume_sampling r c'; ret (c' :: l)
  end.
(** sample_posterior: lines 35-46 *)
Definition sample_posterior (init_thi : list R) (ins : list inputs) : M (list chain) :=
  let lam := mat_of (get_ev dim alp bet) in
  let thi := repeat init_thi dim in
  do fin <- lift_opt IndexError (last_opt t);
  do y <- sample_forwards L fuel fin None dim lam;
  do a <- sample_aug fuel mp max_props lb_x ub_x (vol thi) y t vt;
  resume_sampling ins (mk_chain thi lam (fst a) (snd a) (rw_init y opt_prob 0)).
End Chain.
