(** Model of ctbayes/misc/adapt.py.  Definitions only. *)
From Coq Require Import Reals List ZArith Bool Arith.
From Verif Require Import Base Np Rng Mat M_mjp.
Import ListNotations.
Local Open Scope R_scope.

(** seq_update_normal: lines 8-29, on vectors of length dim.  n is a float; the theorems
    assume it non-zero. *)
Definition seq_update_normal (obs : vec) (n : R) (mean : vec) (cov : mat) : vec * mat :=
  let dev := fun i => obs i - mean i in
  (fun i => mean i + dev i / n, fun i j => cov i j + (dev i * dev j - cov i j) / n).

(** np.log; None: the argument is not positive and the result is -inf or NaN. *)
Definition np_log (x : R) : option R := if Rltb 0 x then Some (ln x) else None.
Definition isinf (x : ext) : bool := match x with Fin _ => false | _ => true end.

(** transform_to_reals: lines 32-39 *)
Definition transform_to_reals (x : R) (lb ub : ext) : option (R * R) :=
  match lb, ub with
  | Fin l, Fin u => Some (x, 0)
  | Fin l, _ => match np_log (x - l) with Some y => Some (y, - y) | None => None end
  | _, Fin u => match np_log (u - x) with Some y => Some (y, - y) | None => None end
  | _, _ => Some (x, 0)
  end.
(** transform_to_const: lines 42-49 *)
Definition transform_to_const (y : R) (lb ub : ext) : R * R :=
  match lb, ub with
  | Fin l, Fin u => (y, 0)
  | Fin l, _ => (l + exp y, - y)
  | _, Fin u => (u - exp y, - y)
  | _, _ => (y, 0)
  end.

(** Fields shared by the three samplers (lines 57-64, 94-101, 125-131). *)
Record rw (St : Type) : Type := mk_rw {
  rw_state : St; rw_scale : list R; rw_emp : list R; rw_periods : list nat }.
Arguments mk_rw {St}. Arguments rw_state {St}. Arguments rw_scale {St}. Arguments rw_emp {St}. Arguments rw_periods {St}.
Definition rw_init {St} (state : St) (opt_prob scale0 : R) : rw St := mk_rw state [scale0] [opt_prob] [0; 1]%nat.

Definition np_mean (l : list R) : R := fold_right Rplus 0 l / INR (length l).
(** 1 / (len(adapt_periods) ** adapt_decay) *)
Definition learning_rate (len : nat) (decay : R) : R := 1 / Rpower (INR len) decay.

(** MyopicRwSampler.adapt: lines 110-118.  The lists are never empty and adapt_periods has
    at least two entries, so l[-1] and l[-2] do not fail. *)
Definition rw_adapt {St} (opt_prob decay : R) (air : nat) (sp : rw St) (sample : St) (prob : R) : rw St :=
  let emp := rw_emp sp ++ [prob] in
  let per := rw_periods sp in
  if Nat.eqb (length emp) (last per 0%nat + 1) then
    let mean_prob := np_mean (skipn (nth (length per - 2) per 0%nat) emp) in
    mk_rw sample
      (rw_scale sp ++ [last (rw_scale sp) 0 + learning_rate (length per) decay * (mean_prob - opt_prob)])
      emp (per ++ [(last per 0 + length per ^ air)%nat])
  else mk_rw sample (rw_scale sp) emp per.

(** MyopicMjpSampler.adapt: lines 140-147: the latest probability, not the mean. *)
Definition mjp_adapt {St} (opt_prob decay : R) (air : nat) (sp : rw St) (sample : St) (prob : R) : rw St :=
  let emp := rw_emp sp ++ [prob] in
  let per := rw_periods sp in
  if Nat.eqb (length emp) (last per 0%nat + 1) then
    mk_rw sample
      (rw_scale sp ++ [last (rw_scale sp) 0 + learning_rate (length per) decay * (prob - opt_prob)])
      emp (per ++ [(last per 0 + length per ^ air)%nat])
  else mk_rw sample (rw_scale sp) emp per.

(** MyopicMvRwSampler: lines 52-86.  Vectors have length dim. *)
Record mv : Type := mk_mv { mv_rw : rw vec; mv_mean : vec; mv_adapt_cov : mat; mv_prop_cov : mat }.
Definition mv_init (init_state : vec) (opt_prob : R) : mv :=
  mk_mv (rw_init init_state opt_prob (- (1))) (fun _ => 0) mident mident.
(** zip of transform_to_reals over the coordinates; None if any coordinate is not finite *)
Definition to_reals_vec (dim : nat) (lb ub : nat -> ext) (x : vec) : option (vec * vec) :=
  if forallb (fun i => match transform_to_reals (x i) (lb i) (ub i) with Some _ => true | None => false end) (seq 0 dim)
  then Some (fun i => match transform_to_reals (x i) (lb i) (ub i) with Some (y, _) => y | None => 0 end,
             fun i => match transform_to_reals (x i) (lb i) (ub i) with Some (_, j) => j | None => 0 end)
  else None.
(** adapt: lines 75-86.  None: the sample is not strictly inside its bounds and the
    averages become NaN. *)
Definition mv_adapt (dim : nat) (lb ub : nat -> ext) (opt_prob decay : R) (air : nat) (sp : mv) (sample : vec) (prob : R) : option mv :=
  match to_reals_vec dim lb ub sample with
  | None => None
  | Some (sample_real, _) =>
      let '(mean, cov) := seq_update_normal sample_real (INR (1 + length (rw_emp (mv_rw sp)))) (mv_mean sp) (mv_adapt_cov sp) in
      let emp := rw_emp (mv_rw sp) ++ [prob] in
      let per := rw_periods (mv_rw sp) in
      if Nat.eqb (length emp) (last per 0%nat + 1) then
        let mean_prob := np_mean (skipn (nth (length per - 2) per 0%nat) emp) in
        Some (mk_mv (mk_rw sample
          (rw_scale (mv_rw sp) ++ [last (rw_scale (mv_rw sp)) 0 + learning_rate (length per) decay * (mean_prob - opt_prob)])
          emp (per ++ [(last per 0 + length per ^ air)%nat])) mean cov cov)
      else Some (mk_mv (mk_rw sample (rw_scale (mv_rw sp)) emp per) mean cov (mv_prop_cov sp))
  end.
(** propose: lines 68-73.  np.random.multivariate_normal(mean, cov) draws from numpy's
    global state: [mvn] is the map from its arguments to the draw for the current global
    state.  The generator ome is an argument of the method but is not used. *)
Definition mv_propose (dim : nat) (lb ub : nat -> ext) (mvn : vec -> mat -> vec) (sp : mv) : M (option (vec * R * R)) :=
  ret (match to_reals_vec dim lb ub (rw_state (mv_rw sp)) with
       | None => None
       | Some (state_real, log_p_backw) =>
           let prop_real := mvn state_real (fun i j => mv_prop_cov sp i j * exp (last (rw_scale (mv_rw sp)) 0)) in
           let prop := fun i => fst (transform_to_const (prop_real i) (lb i) (ub i)) in
           let log_p_forw := fun i => snd (transform_to_const (prop_real i) (lb i) (ub i)) in
           Some (prop, rsum dim log_p_forw, rsum dim log_p_backw)
       end).

(** MyopicRwSampler.propose: lines 103-108.  The built-in sum of a float raises TypeError
    ('float' object is not iterable); the same for the integer 0. *)
Definition py_sum_number (x : R) : res R := Raise TypeError.
Definition rw_propose (lb ub : ext) (normal : R -> R -> R) (sp : rw R) : M (R * R * R) :=
  let '(state_real, log_p_backw) :=
    match transform_to_reals (rw_state sp) lb ub with Some p => p | None => (0, 0) (* NaN *) end in
  let prop_real := normal state_real (exp (last (rw_scale sp) 0)) in
  let '(prop, log_p_forw) := transform_to_const prop_real lb ub in
  do f <- lift (py_sum_number log_p_forw);
  do b <- lift (py_sum_number log_p_backw);
  ret (prop, f, b).

(** ito/mcmc.py update_params, lines 64-65: pick a sector (ValueError for an empty
    parameter vector), propose, continue with [rest] (lines 66-80). *)
Definition ito_update_params {X} (lb ub : nat -> ext) (normal : R -> R -> R) (samplers : list (rw R)) (n_thi : nat)
    (rest : nat -> R * R * R -> M X) : M X :=
  if Nat.eqb n_thi 0 then raise ValueError
  else
    do sector <- draw_n (DPick n_thi);
    do sp <- lift_opt IndexError (nth_error samplers sector);
    do p <- rw_propose (lb sector) (ub sector) normal sp;
    rest sector p.

(** MyopicMjpSampler.propose: lines 133-138.  A negative size raises ValueError. *)
Definition mjp_propose (L : linalg) (fuel : nat) (sp : rw (skel R)) (dim : nat) (lam : mat) (t : list R)
  : M (skel R * list R) :=
  let p_cond := 1 / (1 + exp (last (rw_scale sp) 0)) in
  if Nat.ltb (length t) 2 then raise ValueError
  else
    do us <- draw_rs (repeat (DUniform 0 1) (length t - 2));
    do t_cond <- lift_opt IndexError (mask (pyslice t 1 (-1)) (map (fun u => Rltb u p_cond) us));
    do ps <- mutate_partition L fuel (partition_skeleton (rw_state sp) t_cond) dim lam;
    do prop <- lift (paste_partition ps);
    ret (prop, t_cond).
(** switching/mcmc.py line 157: regime_sampler.propose(lam, mod.t[1:-1], ome) *)
Definition hidden_propose (L : linalg) (fuel : nat) (sp : rw (skel R)) (dim : nat) (lam : mat) (obs_t : list R) :=
  mjp_propose L fuel sp dim lam (pyslice obs_t 1 (-1)).
