(** Model of ctbayes/switching/types.py, static.py and mcmc.py.  Real numbers are exact.
    Definitions only.  reduce and dereduce are the identity and dv_reduce is 1 for all switching
    models of the package (models/ou.py lines 23-33, the same in ou2.py and ou3.py), and are
    left out except where noted.  The parameters thi enter through the functions built from them:
    [vol y] is eval_vol(thi, y), [disc y] eval_disc(thi, y), [bounds y] eval_bounds_disc(thi, y).
    mjp.skel is [M_mjp.skel R]; a seed is [M_skel.skel]. *)
From Coq Require Import Reals List Bool Arith ZArith.
From Verif Require Import Base Np Rng Mat M_mjp M_inf M_bf M_adapt M_hit M_path M_skel M_seed M_models.
Import ListNotations.
Local Open Scope R_scope.

Notation jump_path := (M_mjp.skel R).
Notation partition := (list M_skel.skel).

(** ** types.py *)
(** Anchorage: lines 7-10 *)
Record anch (T : Type) : Type := mk_anch { a_t : list T; a_y : list nat; a_v : list T }.
Arguments mk_anch {T} _ _ _.
Arguments a_t {T} _.
Arguments a_y {T} _.
Arguments a_v {T} _.
Notation anchorage := (anch R).
(** prune_anchorage: lines 13-16; [not_virtual] is ~np.hstack([False, np.diff(yt) == 0]) *)
Definition prune_anchorage (h : anchorage) : res jump_path :=
  match mask (a_t h) (not_virtual (a_y h)), mask (a_y h) (not_virtual (a_y h)), last_opt (a_t h) with
  | Some t, Some y, Some f => Ok (M_mjp.mk_skel t y f)
  | _, _, _ => Raise IndexError
  end.

(** ** mcmc.py: cutting an anchorage at observation times; over any number type, so that the
    binary64 behaviour can be exhibited *)
Section Cut.
Context {T : Type} `{Num T}.
(** break_r, line 226; h.t is not empty *)
Definition break_r (t new_t : list T) : list nat :=
  (0%nat :: map fst (filter (fun p => np_isin (snd p) new_t) (combine (seq 1 (length t - 2)) (pyslice t 1 (-1)))) ++ [(length t - 1)%nat]).
(** l[r0:r1] *)
Definition cut {A} (l : list A) (r0 r1 : nat) : list A := pyslice l (Z.of_nat r0) (Z.of_nat r1).
(** split_hidden: lines 223-230 *)
Definition split_hidden {Z} (z : list Z) (h : anch T) (new_t : list T) : list (list Z) * list (anch T) :=
  let br := break_r (a_t h) new_t in
  let prs := combine br (tl br) in
  (map (fun p => cut z (fst p) (snd p)) prs,
   map (fun p => mk_anch (map (fun u => nsub u (nth (fst p) (a_t h) n0)) (cut (a_t h) (fst p) (snd p + 1))) (cut (a_y h) (fst p) (snd p + 1)) (cut (a_v h) (fst p) (snd p + 1))) prs).
(** paste_hidden: lines 233-240 *)
Definition paste_step (h h_ : anch T) : anch T :=
  mk_anch (a_t h ++ map (fun u => nadd u (last (a_t h) n0)) (tl (a_t h_))) (a_y h ++ tl (a_y h_)) (a_v h ++ tl (a_v h_)).
Definition paste_hidden {Z} (z_part : list (list Z)) (h_part : list (anch T)) : res (list Z * anch T) :=
  match h_part with
  | [] => Raise IndexError
  | h :: r => Ok (concat z_part, fold_left paste_step r h)
  end.
End Cut.

(** ** static.py *)
Definition zip4 {A B C D} (l : list A) (m : list B) (n : list C) (q : list D) : list (A * B * C * D) := combine (combine (combine l m) n) q.
(** gen_normops: lines 39-44 *)
Definition sw_normops (vol : nat -> R) (h : anchorage) : list (normop * normop) :=
  map (fun p => let '(dt, y0, x0, x1) := p in (sw_norm (vol y0) dt x0 x1, sw_denorm (vol y0) dt x0 x1))
    (zip4 (np_diff (a_t h)) (removelast (a_y h)) (a_v h) (tl (a_v h))).
(** sample_anchors: lines 60-68 *)
Definition sample_anchors (vol : nat -> R) (t : list R) (yt : list nat) (fin_t init_x fin_x : R) : M (list R) :=
  if Nat.eqb (length t) 1 then ret [init_x]
  else
    let sig_t := map (fun p => fst p * (vol (snd p)) ^ 2) (combine (np_diff (t ++ [fin_t])) yt) in
    let s := np_cumsum sig_t in
    do fin_s <- lift_opt IndexError (last_opt s);
    do xt <- sample_brownbr (removelast s) fin_s init_x fin_x;
    ret (init_x :: xt).
(** sample_aug: lines 46-58 *)
Definition sample_aug (fuel mp max_props : nat) (lb_x ub_x : ext) (vol : nat -> R) (y : jump_path) (t vt : list R) : M (partition * anchorage) :=
  let y_part := partition_skeleton y (pyslice t 1 (-1)) in
  do xs <- map_m (fun p => let '(s, x0, x1) := p in sample_anchors vol (M_mjp.sk_t s) (M_mjp.sk_x s) (M_mjp.sk_fin s) x0 x1) (zip3 y_part vt (tl vt));
  do v_last <- lift_opt IndexError (last_opt vt);
  do t_last <- lift_opt IndexError (last_opt t);
  do y_last <- lift_opt IndexError (last_opt (M_mjp.sk_x y));
  let tt := concat (map (fun p => map (Rplus (fst p)) (M_mjp.sk_t (snd p))) (combine t y_part)) ++ [t_last] in
  let ytt := concat (map (fun s => M_mjp.sk_x s) y_part) ++ [y_last] in
  let h := mk_anch tt ytt (concat xs ++ [v_last]) in
  do z <- map_m (fun n => sample_raw_seed fuel mp max_props lb_x ub_x (fst n) (snd n)) (sw_normops vol h);
  ret (z, h).

(** np.split(l, idx): the pieces between increasing positions *)
Fixpoint np_split_from {A} (i : nat) (l : list A) (idx : list nat) : list (list A) :=
  match idx with
  | [] => [l]
  | j :: r => firstn (j - i) l :: np_split_from j (skipn (j - i) l) r
  end.
Definition np_split {A} (l : list A) (idx : list nat) : list (list A) := np_split_from 0 l idx.
(** np.where(b)[0] *)
Definition where_true (b : list bool) : list nat := map fst (filter snd (combine (seq 0 (length b)) b)).
(** l[b] for arrays of equal length *)
Definition select {A} (l : list A) (b : list bool) : list A := map fst (filter snd (combine l b)).
(** is_obs, line 74 *)
Definition is_obs (yt : list nat) : list bool := true :: eq_pairs (tl yt) (removelast yt).
(** log(|dv_reduce(v)|) - log(2 pi s) / 2 - (x1 - x0)^2 / (2 s), lines 78-79 *)
Definition gauss (dv : R -> R) (v sig dx : R) : R := ln (Rabs (dv v)) - ln (2 * PI * sig) / 2 - dx ^ 2 / (2 * sig).
(** sig_t, line 75 *)
Definition sig_of (vol : nat -> R) (t : list R) (yt : list nat) : list R := map (fun p => fst p * (vol (snd p)) ^ 2) (combine (np_diff t) (removelast yt)).
(** p_del, line 77; [sx] is sx_eval_drift(thi, ., .) on arrays *)
Definition p_del (vol : nat -> R) (sx : list nat -> list R -> list R) (yt : list nat) (vt : list R) : list R :=
  map (fun p => let '(b, a, y) := p in (b - a) / (vol y) ^ 2) (zip3 (sx (removelast yt) (tl vt)) (sx (removelast yt) (removelast vt)) (removelast yt)).
(** p_vt, line 78 *)
Definition p_vt (vol : nat -> R) (dv : R -> R) (t : list R) (yt : list nat) (vt : list R) : list R :=
  map (fun p => let '(v, s, dx) := p in gauss dv v s dx) (zip3 (tl vt) (sig_of vol t yt) (np_diff vt)).
(** p_vt_obs, lines 76 and 79; the pieces [1:-1] of the split *)
Definition p_vt_obs (vol : nat -> R) (dv : R -> R) (t : list R) (yt : list nat) (vt : list R) : R :=
  let sig_obs := map rsum (pyslice (np_split (sig_of vol t yt) (where_true (is_obs yt))) 1 (-1)) in
  let v_obs := select vt (is_obs yt) in
  rsum (map (fun p => let '(v, s, dx) := p in gauss dv v s dx) (zip3 (tl v_obs) sig_obs (np_diff v_obs))).
(** is_selected, line 80 *)
Definition is_selected (yt : list nat) (restrict : option nat) : list bool :=
  map (fun y => match restrict with Some r => Nat.eqb y r | None => true end) (removelast yt).
(** eval_biased_log_lik: lines 70-81; logarithms of non-positive numbers do not occur for
    increasing times and non-zero volatilities *)
Definition eval_biased_log_lik (vol : nat -> R) (dv : R -> R) (sx : list nat -> list R -> list R) (h : anchorage) (restrict : option nat) : R * R :=
  let sel := is_selected (a_y h) restrict in
  let pd := p_del vol sx (a_y h) (a_v h) in
  let pv := p_vt vol dv (a_t h) (a_y h) (a_v h) in
  (rsum (map (fun p => fst p + snd p) (combine (select pd sel) (select pv sel))), p_vt_obs vol dv (a_t h) (a_y h) (a_v h) - rsum (select pv sel)).
(** construct_gen_hyperprior: lines 110-113; the diagonal is NaN *)
Definition construct_gen_hyperprior (alp bet : R) : omat * omat :=
  let ones (c : R) : omat := fun i j => if Nat.eqb i j then None else Some (c * 1) in (ones alp, ones bet).

(** ** mcmc.py *)
(** all(success), list(new_z) of a non-empty list of results; unpacking the transposition of an empty list fails *)
Definition collect_coins {A} (rs : list (bool * A)) : M (bool * list A) :=
  match rs with [] => raise ValueError | _ => ret (forallb fst rs, map snd rs) end.
(** flip_hidden_coins: lines 214-220 *)
Definition flip_hidden_coins (fuel mp max_props : nat) (vol : nat -> R) (disc : nat -> R -> R) (bounds : nat -> bounds_fun) (batch : nat) (z : partition) (h : anchorage) : M (bool * partition) :=
  do rs <- map_m (fun p => let '(z_, y0, n) := p in
                    do r <- seed_poisson_coin fuel mp max_props (fst n) (snd n) z_ (disc y0) (bounds y0) batch;
                    ret (fst (fst r), snd r)) (zip3 z (a_y h) (sw_normops vol h));
  collect_coins rs.
(** eval_hidden_weight: lines 198-202; [loglik] is eval_biased_loglik at thi *)
Definition eval_hidden_weight (vol : nat -> R) (bounds : nat -> bounds_fun) (loglik : anchorage -> option nat -> R * R) (z : partition) (h : anchorage) : M R :=
  do st <- map_m (fun p => let '(z_, y0, n) := p in integrate_disc_bound (fst n) (snd n) (bounds y0) z_) (zip3 z (a_y h) (sw_normops vol h));
  ret (rsum st + (fst (loglik h None) + snd (loglik h None))).
(** update_hidden_section: lines 173-195, with flip_hidden_precoin (205-211); the state of the two
    generators is the pair of partitions (proposed, current) *)
Definition update_hidden_section (fuel mp max_props : nat) (vol : nat -> R) (disc : nat -> R -> R) (bounds : nat -> bounds_fun) (loglik : anchorage -> option nat -> R * R)
    (batch : nat) (precoin : bool) (pr_portkey : R) (max_flips : nat) (z_nil : partition) (h_nil : anchorage) (z_prime : partition) (h_prime : anchorage) : M (bool * partition * anchorage) :=
  let flip (first : bool) (s : partition * partition) : M ((bool * partition) * (partition * partition)) :=
    if first then do r <- flip_hidden_coins fuel mp max_props vol disc bounds batch (fst s) h_prime; ret (r, (snd r, snd s))
    else do r <- flip_hidden_coins fuel mp max_props vol disc bounds batch (snd s) h_nil; ret (r, (fst s, snd r)) in
  do w_nil <- eval_hidden_weight vol bounds loglik z_nil h_nil;
  do w_prime <- eval_hidden_weight vol bounds loglik z_prime h_prime;
  do r <- hidden_step (m := M) (@ret) (@bind) o_ulog_lt precoin w_prime w_nil (run_twocoin flip pr_portkey z_nil max_flips (z_prime, z_nil)) (z_prime, z_nil);
  after_step (false, z_nil, h_nil) (fun accept z_acc => (accept, z_acc, if (accept : bool) then h_prime else h_nil)) r.
(** jobs run by joblib, job i with its own generator [omes i] (spawned from the seed sequence of
    ome); if jobs fail, joblib reports one of their exceptions, here the first *)
Fixpoint run_jobs {A} (i : nat) (omes : nat -> oracle) (jobs : list (M A)) : res (list A) :=
  match jobs with
  | [] => Ok []
  | j :: r => rdo a <- fst (j (omes i) 0%nat); rdo l <- run_jobs (S i) omes r; Ok (a :: l)
  end.
(** update_hidden after the call of regime_sampler.propose: lines 158-170 *)
Definition update_hidden_with (fuel mp max_props : nat) (lb_x ub_x : ext) (vol : nat -> R) (disc : nat -> R -> R) (bounds : nat -> bounds_fun) (loglik : anchorage -> option nat -> R * R)
    (batch : nat) (precoin : bool) (pr_portkey : R) (max_flips : nat) (t vt : list R) (opt_prob decay : R) (air : nat) (omes : nat -> oracle)
    (sp : rw jump_path) (z_nil : partition) (h_nil : anchorage) (y_prime : jump_path) (t_cond : list R) : M (partition * anchorage * rw jump_path) :=
  do a <- sample_aug fuel mp max_props lb_x ub_x vol y_prime t vt;
  let '(z_prime, h_prime) := a in
  let '(zn, hn) := split_hidden z_nil h_nil t_cond in
  let '(zp, hp) := split_hidden z_prime h_prime t_cond in
  do acc <- lift (run_jobs 0 omes (map (fun q => let '(zn_, zp_, hn_, hp_) := q in
                    update_hidden_section fuel mp max_props vol disc bounds loglik batch precoin pr_portkey max_flips zn_ hn_ zp_ hp_) (zip4 zn zp hn hp)));
  do r <- lift (paste_hidden (map (fun q => snd (fst q)) acc) (map (fun q => snd q) acc));
  do y <- lift (prune_anchorage (snd r));
  ret (fst r, snd r, mjp_adapt opt_prob decay air sp y (np_mean (map (fun q => if (fst (fst q) : bool) then 1 else 0) acc))).
(** update_hidden: lines 153-170; the first component of the result is the proposal, which the
    code discards *)
Definition update_hidden (L : linalg) (fuel mp max_props : nat) (lb_x ub_x : ext) (vol : nat -> R) (disc : nat -> R -> R) (bounds : nat -> bounds_fun) (loglik : anchorage -> option nat -> R * R)
    (batch : nat) (precoin : bool) (pr_portkey : R) (max_flips : nat) (t vt : list R) (opt_prob decay : R) (air : nat) (dim : nat) (lam : mat) (omes : nat -> oracle)
    (sp : rw jump_path) (z : partition) (h : anchorage) : M ((jump_path * list R) * (partition * anchorage * rw jump_path)) :=
  do p <- hidden_propose L fuel sp dim lam t;
  do r <- update_hidden_with fuel mp max_props lb_x ub_x vol disc bounds loglik batch precoin pr_portkey max_flips t vt opt_prob decay air omes sp z h (fst p) (snd p);
  ret (p, r).
(** mcmc.update_generator: lines 243-246 *)
Definition mcmc_update_generator (dim : nat) (h : anchorage) (alp0 bet0 : omat) : M omat :=
  do y <- lift (prune_anchorage h);
  do p <- lift (update dim y alp0 bet0);
  sample_param dim (fst p) (snd p).

(** ** parameters; here thi is explicit: an array with a row per regime *)
Section Params.
Context (fuel mp max_props : nat) (vol : list (list R) -> nat -> R) (disc : list (list R) -> nat -> R -> R)
  (grad : list R -> list R -> R -> R -> R -> R -> R -> list R) (log_prior : list (list R) -> R) (loglik : list (list R) -> anchorage -> option nat -> R * R)
  (batch : nat) (precoin : bool) (pr_portkey : R) (max_flips : nat).
(** flip_param_coins: lines 128-136 *)
Definition flip_param_coins (thi_nil thi_prime : list (list R)) (z : partition) (h : anchorage) (upside : bool) (state : nat) : M (bool * partition) :=
  do rs <- map_m (fun p => let '((dt, y0, v0, v1), z_) := p in
                    if Nat.eqb y0 state then sw_param_coin fuel mp max_props vol disc grad thi_nil thi_prime dt y0 v0 v1 z_ upside batch
                    else ret (true, z_)) (combine (zip4 (np_diff (a_t h)) (a_y h) (a_v h) (tl (a_v h))) z);
  collect_coins rs.
(** update_params_section: lines 86-112; [propose] is param_samplers[state].propose(ome) *)
Definition update_params_section (propose : M (list R * R * R)) (thi_nil : list (list R)) (z : partition) (h : anchorage) (state : nat)
    : M (bool * list (list R) * partition) :=
  do p <- propose;
  let '(prop, log_p_for, log_p_back) := p in
  let thi_prime := list_set thi_nil state prop in
  let flip (first : bool) (s : partition) := do r <- flip_param_coins thi_nil thi_prime s h first state; ret (r, snd r) in
  do r <- switching_step (m := M) (@ret) (@bind) o_ulog_lt log_prior (fun thi => fst (loglik thi h (Some state))) thi_nil thi_prime log_p_for log_p_back precoin
            (run_twocoin_joint flip (fun s => ret s) pr_portkey max_flips z) z;
  after_step (false, thi_nil, z) (fun accept z_acc => (accept, if (accept : bool) then thi_prime else thi_nil, z_acc)) r.
Fixpoint all_ok {A} (l : list (option A)) : res (list A) :=
  match l with [] => Ok [] | Some a :: r => rdo q <- all_ok r; Ok (a :: q) | None :: _ => Raise IndexError end.
(** lines 79-80: thi_part[i][i] and z_part[y0][i] *)
Definition assemble (parts : list (bool * list (list R) * partition)) (yt : list nat) : res (list (list R) * partition) :=
  let get i := nth_error parts i in
  let rows := map (fun i => match get i with Some (_, thi, _) => nth_error thi i | None => None end) (seq 0 (length parts)) in
  let seeds := map (fun p => match get (snd p) with Some (_, _, z) => nth_error z (fst p) | None => None end) (combine (seq 0 (length yt - 1)) (removelast yt)) in
  rdo th <- all_ok rows; rdo z <- all_ok seeds; Ok (th, z).
(** update_params: lines 70-83 without the calls of adapt; [propose i] is the proposal of sampler i *)
Definition update_params (propose : nat -> M (list R * R * R)) (omes : nat -> oracle) (thi_nil : list (list R)) (z : partition) (h : anchorage) : res (list bool * list (list R) * partition) :=
  rdo parts <- run_jobs 0 omes (map (fun i => update_params_section (propose i) thi_nil z h i) (seq 0 (length thi_nil)));
  rdo r <- assemble parts (a_y h);
  Ok (map (fun p => fst (fst p)) parts, fst r, snd r).
End Params.
