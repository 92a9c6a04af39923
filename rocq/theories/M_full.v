(** Model of the two Markov chains with their parameter samplers: ctbayes/switching/mcmc.py and
    ctbayes/ito/mcmc.py.  M_chain and M_ito take the proposals as inputs; here they come from the
    samplers of ctbayes/misc/adapt.py, which are adapted after every iteration.  Definitions only. *)
From Coq Require Import Reals List Bool Arith.
From Verif Require Import Base Np Rng Mat M_mjp M_inf M_bf M_adapt M_path M_skel M_seed M_models M_sw M_chain M_mcem M_ito.
Import ListNotations.
Local Open Scope R_scope.

(** one-dimensional arrays as functions and back; [d] is the number of parameters *)
Definition col (l : list R) : vec := fun i => nth i l 0.
Definition row (d : nat) (v : vec) : list R := map v (seq 0 d).

(** param_samplers[i].propose(ome): adapt.py lines 68-73.  If the state is not strictly inside its
    bounds the code goes on with NaN and the model stops with ValueError; C104_refines shows that
    this is not reached. *)
Definition sampler_propose (d : nat) (lb ub : nat -> ext) (mvn : vec -> mat -> vec) (sp : mv) : M (list R * R * R) :=
  do r <- mv_propose d lb ub mvn sp;
  match r with Some (p, f, b) => ret (row d p, f, b) | None => raise ValueError end.
(** mcmc.py lines 81-82: param_samplers[i].adapt(thi_prime[i], float(acc_part[i])) for every i; again
    ValueError stands for NaN *)
Fixpoint adapt_all (d : nat) (lb ub : nat -> ext) (opt_prob decay : R) (air : nat) (sps : list mv) (acc : list bool) (thi : list (list R)) : res (list mv) :=
  match sps, acc, thi with
  | sp :: sps', a :: acc', x :: thi' =>
      match mv_adapt d lb ub opt_prob decay air sp (col x) (if a then 1 else 0) with
      | None => Raise ValueError
      | Some sp' => rdo r <- adapt_all d lb ub opt_prob decay air sps' acc' thi'; Ok (sp' :: r)
      end
  | _, _, _ => Ok []
  end.
(** what one iteration needs from outside: the draws of numpy's global generator for every regime
    and the generators spawned for the jobs *)
Record full_inputs : Type := mk_full { fi_mvn : nat -> vec -> mat -> vec; fi_params : nat -> oracle; fi_hidden : nat -> oracle }.
Definition proposals (d : nat) (lb ub : nat -> ext) (mvn : nat -> vec -> mat -> vec) (sps : list mv) (j : nat) : M (list R * R * R) :=
  match nth_error sps j with Some sp => sampler_propose d lb ub (mvn j) sp | None => raise IndexError end.

Section Full.
Context (L : linalg) (dim fuel mp max_props : nat) (lb_x ub_x : ext) (vol : list (list R) -> nat -> R) (disc : list (list R) -> nat -> R -> R) (bounds : list (list R) -> nat -> bounds_fun)
  (grad : list R -> list R -> R -> R -> R -> R -> R -> list R) (log_prior : list (list R) -> R) (loglik : list (list R) -> anchorage -> option nat -> R * R)
  (batch : nat) (precoin : bool) (pr_portkey : R) (max_flips : nat) (t vt : list R) (opt_prob decay : R) (air : nat) (alp bet : omat)
  (d : nat) (lb ub : nat -> ext).
(** update_joint with update_params: lines 58-83 *)
Definition full_update (i : full_inputs) (c : chain) (sps : list mv) : M (chain * list mv) :=
  do lam <- mcmc_update_generator dim (c_h c) alp bet;
  do p <- lift (update_params fuel mp max_props vol disc grad log_prior loglik batch precoin pr_portkey max_flips (proposals d lb ub (fi_mvn i) sps) (fi_params i) (c_thi c) (c_z c) (c_h c));
  let '(acc, thi, z) := p in
  do sps' <- lift (adapt_all d lb ub opt_prob decay air sps acc thi);
  do r <- update_hidden L fuel mp max_props lb_x ub_x (vol thi) (disc thi) (bounds thi) (loglik thi) batch precoin pr_portkey max_flips t vt opt_prob decay air dim (mat_of lam) (fi_hidden i) (c_sp c) z (c_h c);
  let '(_, (z', h', sp')) := r in
  ret (mk_chain thi (mat_of lam) z' h' sp', sps').
(** lines 44-46 *)
Fixpoint full_resume (ins : list full_inputs) (c : chain) (sps : list mv) : M (list (chain * list mv)) :=
  match ins with
  | [] => ret []
  | i :: r => do s <- full_update i c sps; do l <- full_resume r (fst s) (snd s); ret (s :: l)
  end.
(** sample_posterior: lines 35-46 *)
Definition full_posterior (init_thi : list R) (ins : list full_inputs) : M (list (chain * list mv)) :=
  let lam := mat_of (get_ev dim alp bet) in
  let thi := repeat init_thi dim in
  do fin <- lift_opt IndexError (last_opt t);
  do y <- sample_forwards L fuel fin None dim lam;
  do a <- sample_aug fuel mp max_props lb_x ub_x (vol thi) y t vt;
  full_resume ins (mk_chain thi lam (fst a) (snd a) (rw_init y opt_prob 0)) (repeat (mv_init (col init_thi) opt_prob) dim).
End Full.

(** ito/mcmc.py with MyopicRwSampler *)
Record ito_full_inputs : Type := mk_ito_full { if_normal : R -> R -> R; if_omes : nat -> oracle }.
Section ItoFull.
Context (fuel mp max_props : nat) (lb_x ub_x : ext) (reduce disc : list R -> R -> R) (bounds : list R -> bounds_fun)
  (grad : list R -> list R -> R -> R -> R -> R -> R -> list R) (log_prior : list R -> R) (loglik : list R -> list R -> list R -> R)
  (batch : nat) (precoin : bool) (pr_portkey : R) (max_flips : nat) (opt_prob decay : R) (air : nat) (lb ub : nat -> ext).
Definition ito_proposals (normal : R -> R -> R) (sps : list (rw R)) (j : nat) : M (R * R * R) :=
  do sp <- lift_opt IndexError (nth_error sps j); rw_propose (lb j) (ub j) normal sp.
(** update_joint: lines 45-51, with lines 70 and 79 of update_params *)
Definition ito_full_update (i : ito_full_inputs) (thi : list R) (z : partition) (sps : list (rw R)) (t vt : list R) : M (list R * partition * list (rw R)) :=
  do p <- ito_params fuel mp max_props reduce disc grad log_prior loglik batch precoin pr_portkey max_flips (ito_proposals (if_normal i) sps) thi z t vt;
  let '(sector, accept, thi', z') := p in
  do sp <- lift_opt IndexError (nth_error sps sector);
  do x <- lift_opt IndexError (nth_error thi' sector);
  let sps' := list_set sps sector (rw_adapt opt_prob decay air sp x (if (accept : bool) then 1 else 0)) in
  do z'' <- update_sde fuel mp max_props lb_x ub_x reduce disc bounds batch pr_portkey max_flips (if_omes i) thi' z' t vt;
  ret (thi', z'', sps').
Fixpoint ito_full_resume (ins : list ito_full_inputs) (thi : list R) (z : partition) (sps : list (rw R)) (t vt : list R) : M (list (list R * partition)) :=
  match ins with
  | [] => ret []
  | i :: r => do c <- ito_full_update i thi z sps t vt; do l <- ito_full_resume r (fst (fst c)) (snd (fst c)) (snd c) t vt; ret (fst c :: l)
  end.
(** sample_posterior: lines 33-42 *)
Definition ito_full_posterior (init_thi t vt : list R) (ins : list ito_full_inputs) : M (list (list R * partition)) :=
  do z <- ito_sample_aug fuel mp max_props lb_x ub_x reduce t vt init_thi;
  ito_full_resume ins init_thi z (map (fun x => rw_init x opt_prob (- (1))) init_thi) t vt.
End ItoFull.
