(** Model of ctbayes/ito/mcmc.py and of the closures of ctbayes/ito/static.py it uses.  Real numbers are
    exact.  Definitions only.  As in M_chain the adaptation of param_samplers is left out: the proposals
    of an iteration are arbitrary (C23-C28 are about the samplers; with the class the code uses the
    proposal raises TypeError, C27). *)
From Coq Require Import Reals List Bool Arith.
From Verif Require Import Base Np Rng M_bf M_path M_skel M_seed M_models M_sw M_mcem.
Import ListNotations.
Local Open Scope R_scope.

(** eval_biased_log_lik: static.py lines 55-62; [dv], [sx] are dv_reduce and sx_eval_drift *)
Definition ito_loglik (reduce dv sx : list R -> R -> R) (thi t vt : list R) : R :=
  let dt := np_diff t in
  let xt := map (reduce thi) vt in
  rsum (map (fun p => let '(v, d, dx, (x1, x0)) := p in
               ln (Rabs (dv thi v)) - ln (2 * PI * d) / 2 - dx ^ 2 / (2 * d) + sx thi x1 - sx thi x0)
         (combine (zip3 (tl vt) dt (np_diff xt)) (combine (tl xt) (removelast xt)))).
(** sample_conv_endpt: static.py lines 85-91, the log density up to a constant and its derivative *)
Definition endpt_f (sx : R -> R) (fin_t init_x x : R) : R := sx x - (x - init_x) ^ 2 / (2 * fin_t).
Definition endpt_df (drift : R -> R) (fin_t init_x x : R) : R := drift x - (x - init_x) / fin_t.
(** sample_sde: static.py lines 16-27, one path; [endpoint] is next(sample_conv_endpt(...)) *)
Definition sample_sde (fuel mp max_props n : nat) (reduce dereduce disc : R -> R) (bounds : R -> R -> R * R * R) (lb_x ub_x : ext)
    (endpoint : M R) (t : list R) (fin_t init_v : R) (fin_v : option R) : M (list R) :=
  let fin_x_sampler := match fin_v with None => endpoint | Some v => ret (reduce v) end in
  do x <- sample_skeleton fuel mp max_props n fin_t (reduce init_v) lb_x ub_x fin_x_sampler disc bounds;
  do r <- interpolate_skeleton fuel mp max_props x t;
  ret (map dereduce (snd r)).

Section Ito.
Context (fuel mp max_props : nat) (lb_x ub_x : ext) (reduce disc : list R -> R -> R) (bounds : list R -> bounds_fun)
  (grad : list R -> list R -> R -> R -> R -> R -> R -> list R) (log_prior : list R -> R) (loglik : list R -> list R -> list R -> R)
  (batch : nat) (precoin : bool) (pr_portkey : R) (max_flips : nat).
(** sample_aug: static.py lines 50-53 *)
Definition ito_sample_aug (t vt thi : list R) : M partition :=
  map_m (fun n => sample_raw_seed fuel mp max_props lb_x ub_x (fst n) (snd n)) (ito_normops reduce t vt thi).
(** mcmc.py lines 100 and 139: mod.t[i:(i + 2)] - mod.t[i] and mod.vt[i:(i + 2)] *)
Definition sub_t (t : list R) (i : nat) : option (list R) := option_map (fun t0 => map (fun u => u - t0) (firstn 2 (skipn i t))) (nth_error t i).
Definition sub_v (vt : list R) (i : nat) : list R := firstn 2 (skipn i vt).
(** eval_sde_weight: lines 146-150 *)
Definition eval_sde_weight (thi : list R) (z : partition) (t vt : list R) : M R :=
  do st <- map_m (fun p => integrate_disc_bound (fst (snd p)) (snd (snd p)) (bounds thi) (fst p)) (combine z (ito_normops reduce t vt thi));
  ret (rsum st).
(** flip_sde_coins: lines 153-159 *)
Definition flip_sde_coins (thi : list R) (z : partition) (t vt : list R) : M (bool * partition) :=
  do rs <- map_m (fun p => do r <- seed_poisson_coin fuel mp max_props (fst (snd p)) (snd (snd p)) (fst p) (disc thi) (bounds thi) batch;
                           ret (fst (fst r), snd r)) (combine z (ito_normops reduce t vt thi));
  collect_coins rs.
(** line 136: new_z_, = new_z *)
Definition only {A} (l : list A) : M A := match l with [a] => ret a | _ => raise ValueError end.
(** update_sde_bridge: lines 129-143; the state of the two generators is the pair (proposed, current) *)
Definition update_sde_bridge (i : nat) (thi : list R) (z_nil z_prime : skel) (t vt : list R) : M skel :=
  do ts <- lift_opt IndexError (sub_t t i);
  let vs := sub_v vt i in
  let flip (first : bool) (s : skel * skel) : M ((bool * skel) * (skel * skel)) :=
    if first then do r <- flip_sde_coins thi [fst s] ts vs; do q <- only (snd r); ret ((fst r, q), (q, snd s))
    else do r <- flip_sde_coins thi [snd s] ts vs; do q <- only (snd r); ret ((fst r, q), (fst s, q)) in
  do w_nil <- eval_sde_weight thi [z_nil] ts vs;
  do w_prime <- eval_sde_weight thi [z_prime] ts vs;
  do r <- sample_twocoin flip w_prime w_nil pr_portkey z_nil max_flips (z_prime, z_nil);
  ret (snd (fst r)).
(** update_sde: lines 119-126; job i runs with its own generator [omes i] *)
Definition update_sde (omes : nat -> oracle) (thi : list R) (z_nil : partition) (t vt : list R) : M partition :=
  do z_prime <- ito_sample_aug t vt thi;
  lift (run_jobs 0 omes (map (fun p => update_sde_bridge (fst (fst p)) thi (snd (fst p)) (snd p) t vt) (zip3 (seq 0 (length z_nil)) z_nil z_prime))).
(** flip_param_coins: lines 96-103 *)
Definition ito_flip_param_coins (thi_nil thi_prime : list R) (z : partition) (t vt : list R) (upside : bool) : M (bool * partition) :=
  do rs <- map_m (fun p => do ts <- lift_opt IndexError (sub_t t (fst p));
                           do fin <- lift_opt IndexError (last_opt ts);
                           do v0 <- lift_opt IndexError (hd_error (sub_v vt (fst p)));
                           do v1 <- lift_opt IndexError (last_opt (sub_v vt (fst p)));
                           ito_param_coin fuel mp max_props reduce disc grad thi_nil thi_prime fin v0 v1 (snd p) upside batch) (combine (seq 0 (length z)) z);
  collect_coins rs.
(** update_params: lines 54-80; [propose i] is param_samplers[i].propose(ome).  The result is
    (sector, accept, parameters, seeds); ome.integers(0, 0) raises ValueError *)
Definition ito_params (propose : nat -> M (R * R * R)) (thi_nil : list R) (z : partition) (t vt : list R) : M (nat * bool * list R * partition) :=
  if Nat.eqb (length thi_nil) 0 then raise ValueError
  else
    do sector <- draw_n (DPick (length thi_nil));
    do p <- propose sector;
    let '(prop, log_p_for, log_p_back) := p in
    let thi_prime := list_set thi_nil sector prop in
    let flip (first : bool) (s : partition) := do r <- ito_flip_param_coins thi_nil thi_prime s t vt first; ret (r, snd r) in
    do r <- ito_step (m := M) (@ret) (@bind) o_ulog_lt log_prior (fun thi => loglik thi t vt) thi_nil thi_prime log_p_for log_p_back precoin
              (run_twocoin_joint flip (fun s => ret s) pr_portkey max_flips z) z;
    after_step (sector, false, thi_nil, z) (fun accept z_acc => (sector, accept, if (accept : bool) then thi_prime else thi_nil, z_acc)) r.
(** the inputs of one iteration: the proposals of the parameter samplers and the generators spawned in update_sde *)
Record ito_inputs : Type := mk_ito { ii_propose : nat -> M (R * R * R); ii_omes : nat -> oracle }.
(** update_joint: lines 45-51 *)
Definition ito_update_joint (i : ito_inputs) (thi : list R) (z : partition) (t vt : list R) : M (list R * partition) :=
  do p <- ito_params (ii_propose i) thi z t vt;
  let '(_, _, thi', z') := p in
  do z'' <- update_sde (ii_omes i) thi' z' t vt;
  ret (thi', z'').
(** sample_posterior: lines 33-42: what the generator yields in as many iterations as [ins] has elements *)
Fixpoint ito_resume (ins : list ito_inputs) (thi : list R) (z : partition) (t vt : list R) : M (list (list R * partition)) :=
  match ins with
  | [] => ret []
  | i :: r => do c <- ito_update_joint i thi z t vt; do l <- ito_resume r (fst c) (snd c) t vt; ret (c :: l)
  end.
Definition ito_sample_posterior (init_thi t vt : list R) (ins : list ito_inputs) : M (list (list R * partition)) :=
  do z <- ito_sample_aug t vt init_thi; ito_resume ins init_thi z t vt.
End Ito.
