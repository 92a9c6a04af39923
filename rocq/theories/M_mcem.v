(** Model of ctbayes/ito/mcem.py and ctbayes/switching/mcem.py.  Real numbers are exact.
    Definitions only.  scipy's minimize is external: update_param is a parameter of the loops;
    est_se and est_aug_lik are in M_est. *)
From Coq Require Import Reals List Bool Arith ZArith.
From Verif Require Import Base Np Rng Mat M_mjp M_inf M_bf M_adapt M_path M_skel M_seed M_models M_sw M_chain.
Import ListNotations.
Local Open Scope R_scope.

(** int((n_particles ** (1 / r) + 1) ** r): ito line 41, switching line 49; the value is positive,
    so that int takes the integer part *)
Definition next_particles (r : R) (n : nat) : nat := Z.to_nat (Int_part (Rpower (Rpower (INR n) (1 / r) + 1) r)).

(** the loop of update_particles: ito lines 70-74, switching lines 89-94.  A state is a particle
    (z, or z and h) and whatever else an update reads and writes ([S']: the regime sampler, an
    object that update_hidden changes).  [k] rounds are left, [i] is the index. *)
Section Particles.
Context {P S' : Type} (thin : nat) (upd : P * S' -> M (P * S')).
Fixpoint particles (k i : nat) (x : P * S') : M (list P * S') :=
  match k with
  | O => ret ([], snd x)
  | S k' => do x' <- upd x;
            do r <- particles k' (S i) x';
            ret (if Nat.eqb (Nat.modulo i thin) 0 then fst x' :: fst r else fst r, snd r)
  end.
Definition update_particles (n : nat) (x : P * S') : M (list P * S') := particles (n * thin) 0 x.
End Particles.

(** np.abs(obj - obj_nil) < ftol; obj_nil is -inf ([None]) before the first iteration *)
Definition converged (ftol : R) (obj_nil : option R) (obj : R) : bool :=
  match obj_nil with None => false | Some o => Rltb (Rabs (obj - o)) ftol end.

(** ito/mcem.py: maximize_posterior (lines 33-45) with iterate_em (48-54): what the generator yields in at most [k]
    iterations and whether it stopped *)
Section Ito.
Context {Th Z : Type} (rate ftol : R) (thin : nat) (sample_aug : Th -> M Z) (update_sde : Th -> Z -> M Z) (update_param : Th -> list Z -> M (Th * R)).
Definition ito_iterate_em (thi : Th) (z : Z) (n : nat) : M (R * Th * list Z) :=
  do r <- update_particles thin (fun x : Z * unit => do z' <- update_sde thi (fst x); ret (z', tt)) n (z, tt);
  do p <- update_param thi (fst r);
  ret (snd p, fst p, fst r).
Fixpoint ito_em_loop (init_thi : Th) (k : nat) (obj_nil : option R) (n : nat) (zz : list Z) : M (list (R * Th * list Z) * bool) :=
  match k with
  | O => ret ([], false)
  | S k' =>
      do z <- lift_opt IndexError (last_opt zz);
      do r <- ito_iterate_em init_thi z n;
      let '(obj, thi, zz') := r in
      if converged ftol obj_nil obj then ret ([r], true)
      else do q <- ito_em_loop init_thi k' (Some obj) (next_particles rate n) zz'; ret (r :: fst q, snd q)
  end.
Definition ito_maximize (init_thi : Th) (k : nat) : M (list (R * Th * list Z) * bool) :=
  do z <- sample_aug init_thi; ito_em_loop init_thi k None 1 [z].
End Ito.

(** switching/mcem.py: maximize_posterior (lines 36-53) after the initialisation, with iterate_em (56-64).  A
    particle is a pair (z, h); [S'] is the state of regime_sampler *)
Section Switching.
Context {Th P S' : Type} (rate ftol : R) (thin : nat) (update_hidden : Th -> mat -> P * S' -> M (P * S')) (update_param : Th -> list P -> M (Th * R)) (update_generator : list P -> res (mat * R)).
Definition sw_iterate_em (thi : Th) (lam : mat) (x : P * S') (n : nat) : M (R * Th * mat * list P * S') :=
  do r <- update_particles thin (update_hidden thi lam) n x;
  do p <- update_param thi (fst r);
  do g <- lift (update_generator (fst r));
  ret (snd p + snd g, fst p, fst g, fst r, snd r).
Fixpoint sw_em_loop (k : nat) (obj_nil : option R) (n : nat) (thi : Th) (lam : mat) (pp : list P) (sp : S') : M (list (R * Th * mat * list P * S') * bool) :=
  match k with
  | O => ret ([], false)
  | S k' =>
      do p <- lift_opt IndexError (last_opt pp);
      do r <- sw_iterate_em thi lam (p, sp) n;
      let '(obj, thi', lam', pp', sp') := r in
      if converged ftol obj_nil obj then ret ([r], true)
      else do q <- sw_em_loop k' (Some obj) (next_particles rate n) thi' lam' pp' sp'; ret (r :: fst q, snd q)
  end.
End Switching.

(** ** initial generator and M-step for the generator *)
(** the NaN entries in row-major order *)
Definition nan_cells (dim : nat) (A : omat) : list (nat * nat) := filter (fun p => negb (is_some (A (fst p) (snd p)))) (list_prod (seq 0 dim) (seq 0 dim)).
Definition before (p : nat * nat) (i j : nat) : bool := Nat.ltb (fst p) i || (Nat.eqb (fst p) i && Nat.ltb (snd p) j).
(** A[np.isnan(A)] = v for v of length dim: the k-th NaN entry becomes v[k] *)
Definition set_nan (dim : nat) (A : omat) (v : nat -> R) : res omat :=
  if Nat.eqb (length (nan_cells dim A)) dim
  then Ok (fun i j => match A i j with Some x => Some x | None => Some (v (length (filter (fun p => before p i j) (nan_cells dim A)))) end)
  else Raise ValueError.
(** np.nansum(A, 0)[j] *)
Definition nansum_col (dim : nat) (A : omat) (j : nat) : R := Mat.rsum dim (fun i => nan0 (A i j)).
(** switching lines 39-40 *)
Definition init_generator (dim : nat) (alp bet : omat) : res omat :=
  let lam : omat := fun i j => nandiv (alp i j) (bet i j) in
  set_nan dim lam (fun j => - nansum_col dim lam j).
(** np.mean of a list of arrays, over the list *)
Definition nan_mean (l : list omat) : omat := fun i j =>
  match all_ok (map (fun A => A i j) l) with Ok v => Some (np_mean v) | _ => None end.
Fixpoint res_map {A B} (f : A -> res B) (l : list A) : res (list B) :=
  match l with [] => Ok [] | a :: r => rdo b <- f a; rdo q <- res_map f r; Ok (b :: q) end.
(** update_generator: switching lines 114-121; zip of an empty list fails to unpack.  [None] is a non-finite log posterior. *)
Definition em_update_generator (dim : nat) (hh : list anchorage) (alp0 bet0 : omat) : res (omat * option R) :=
  rdo yy <- res_map prune_anchorage hh;
  rdo ab <- res_map (fun y => update dim y alp0 bet0) yy;
  match ab with
  | [] => Raise ValueError
  | _ =>
      let num := nan_mean (map (fun p i j => nan2 Rminus (fst p i j) (Some 1)) ab) in
      let den := nan_mean (map snd ab) in
      let lam : omat := fun i j => nandiv (num i j) (den i j) in
      rdo lam' <- set_nan dim lam (fun i => - nansum_row dim lam i);
      rdo ll <- res_map (fun y => eval_loglik dim y (mat_of lam')) yy;
      Ok (lam', match all_ok ll with Ok v => Some (np_mean v + eval_logprior dim (mat_of lam') alp0 bet0) | _ => None end)
  end.

(** ** buffer_bounds: ito lines 91-96, switching lines 124-129 *)
(** min(abs(lb - ub) / 2, buffer); equal infinities give NaN, here 0 (they are excluded in the theorems) *)
Definition margin (buffer : R) (p : ext * ext) : R :=
  match p with
  | (Fin l, Fin u) => if Rltb buffer (Rabs (l - u) / 2) then buffer else Rabs (l - u) / 2
  | _ => buffer
  end.
Definition eplus (e : ext) (d : R) : ext := match e with Fin x => Fin (x + d) | e => e end.
(** e + d for arrays: equal lengths, or one of length one *)
Definition badd (e : list ext) (d : list R) : res (list ext) :=
  if Nat.eqb (length e) (length d) then Ok (map (fun p => eplus (fst p) (snd p)) (combine e d))
  else match e, d with
       | [x], _ => Ok (map (fun y => eplus x y) d)
       | _, [y] => Ok (map (fun x => eplus x y) e)
       | _, _ => Raise ValueError
       end.
Definition buffer_bounds (lb ub : option (list ext)) (n_dim : nat) (buffer : R) : res (list ext * list ext) :=
  let lb_ := match lb with None => repeat NegInf n_dim | Some l => l end in
  let ub_ := match ub with None => repeat PosInf n_dim | Some u => u end in
  let d := map (margin buffer) (combine lb_ ub_) in
  rdo l <- badd lb_ d; rdo u <- badd ub_ (map Ropp d); Ok (l, u).
(** the clipping in est_se (ito line 120, switching line 159): np.max([np.min([thi, ub], 0), lb], 0) *)
Definition emin (x : R) (u : ext) : ext := if eleb (Fin x) u then Fin x else u.
Definition emax (e l : ext) : ext := if eleb l e then e else l.
Definition clip (lb ub : list ext) (thi : list R) : list ext := map (fun p => emax (emin (fst (fst p)) (snd p)) (snd (fst p))) (combine (combine thi lb) ub).

(** ** the Monte-Carlo objective *)
(** np.sort(ome.uniform(high=dt, size=n)) *)
Definition supports (n : nat) (dt : R) : M (list R) := do l <- map_m (fun _ => draw_r (DUniform 0 dt)) (seq 0 n); ret (np_sort l).
Section ItoObjective.
Context (fuel mp max_props : nat) (reduce disc : list R -> R -> R) (log_lik log_prior : list R -> R) (t vt : list R).
(** gen_normops: ito/static.py lines 45-48 *)
Definition ito_normops (thi : list R) : list (normop * normop) :=
  let xt := map (reduce thi) vt in
  map (fun p => let '(dt, x0, x1) := p in (ito_norm dt x0 x1, ito_denorm dt x0 x1)) (zip3 (np_diff t) xt (tl xt)).
(** est_log_aug_lik: ito lines 107-113; [log_lik thi] is eval_biased_loglik(thi, t, vt) *)
Definition ito_est_log_aug_lik (thi : list R) (z : partition) (supp_t : list (list R)) : M (R * partition) :=
  do rs <- map_m (fun p => let '(t_, z_, n) := p in interpolate_seed fuel mp max_props (fst n) (snd n) z_ t_) (zip3 supp_t z (ito_normops thi));
  match rs with
  | [] => raise ValueError
  | _ => ret (log_lik thi + M_models.rsum (map (fun p => - fst p * np_mean (map (disc thi) (snd p))) (combine (np_diff t) (map snd rs))), map fst rs)
  end.
(** update_objective: ito lines 77-88; the result is f_obj *)
Definition ito_update_objective (n_supports : nat) (omes : nat -> oracle) (thi : list R) (zz : list partition) : M (list R -> M (list R)) :=
  do supp_t <- map_m (supports n_supports) (np_diff t);
  do r <- lift (run_jobs 0 omes (map (fun z => ito_est_log_aug_lik thi z supp_t) zz));
  match r with
  | [] => raise ValueError
  | _ => ret (fun thi' => do l <- map_m (fun z => ito_est_log_aug_lik thi' z supp_t) (map snd r); ret (map (fun v => fst v + log_prior thi') l))
  end.
End ItoObjective.
Section SwObjective.
Context (fuel mp max_props : nat) (vol : list (list R) -> nat -> R) (disc : list (list R) -> nat -> R -> R) (loglik : list (list R) -> anchorage -> option nat -> R * R) (log_prior : list (list R) -> R).
Definition selected (restrict : option nat) (y0 : nat) : bool := match restrict with None => true | Some r => Nat.eqb y0 r end.
(** est_log_aug_lik: switching lines 143-152 *)
Definition sw_est_log_aug_lik (thi : list (list R)) (z : partition) (h : anchorage) (supp_t : list (list R)) (restrict : option nat) : M (R * partition) :=
  do rs <- map_m (fun p => let '(t_, y0, z_, n) := p in
                    if selected restrict y0 then interpolate_seed fuel mp max_props (fst n) (snd n) z_ t_ else ret (z_, [])) (zip4 supp_t (a_y h) z (sw_normops (vol thi) h));
  match rs with
  | [] => raise ValueError
  | _ => let st := map (fun p => let '(dt, y0, x_) := p in - dt * np_mean (map (disc thi y0) x_))
                     (filter (fun p => selected restrict (snd (fst p))) (zip3 (np_diff (a_t h)) (a_y h) (map snd rs))) in
         ret (fst (loglik thi h restrict) + M_models.rsum st, map fst rs)
  end.
(** update_objective: switching lines 97-111 *)
Definition sw_update_objective (n_supports : nat) (omes : nat -> oracle) (thi : list (list R)) (zz : list partition) (hh : list anchorage) : M (list (list R) -> nat -> M (list R)) :=
  do supp_t <- map_m (fun h => map_m (supports n_supports) (np_diff (a_t h))) hh;
  do r <- lift (run_jobs 0 omes (map (fun p => let '(z, h, t) := p in sw_est_log_aug_lik thi z h t None) (zip3 zz hh supp_t)));
  match r with
  | [] => raise ValueError
  | _ => ret (fun thi' restrict =>
                do l <- map_m (fun p => let '(z, h, t) := p in sw_est_log_aug_lik thi' z h t (Some restrict)) (zip3 (map snd r) hh supp_t);
                ret (map (fun v => fst v + log_prior thi') l))
  end.
End SwObjective.

(** switching/mcem.py: maximize_posterior, lines 36-53, with the update of mcmc.py; [omes c] are the
    generators spawned for the jobs of call [c] of update_hidden, [opt] is the default opt_prob of
    MyopicMjpSampler.  A log posterior that is not finite ends the run here; it does not occur in
    the theorems. *)
Section Maximize.
Context (L : linalg) (dim fuel mp max_props : nat) (lb_x ub_x : ext) (vol : list (list R) -> nat -> R) (disc : list (list R) -> nat -> R -> R) (bounds : list (list R) -> nat -> bounds_fun)
  (loglik : list (list R) -> anchorage -> option nat -> R * R) (batch : nat) (precoin : bool) (pr_portkey : R) (max_flips : nat) (t vt : list R) (opt decay : R) (air : nat) (alp bet : omat)
  (rate ftol : R) (thin : nat) (omes : nat -> nat -> oracle) (update_param : list (list R) -> list (partition * anchorage) -> M (list (list R) * R)).
Definition em_update_hidden (thi : list (list R)) (lam : mat) (x : (partition * anchorage) * (rw jump_path * nat)) : M ((partition * anchorage) * (rw jump_path * nat)) :=
  let '((z, h), (sp, c)) := x in
  do r <- update_hidden L fuel mp max_props lb_x ub_x (vol thi) (disc thi) (bounds thi) (loglik thi) batch precoin pr_portkey max_flips t vt opt decay air dim lam (omes c) sp z h;
  let '(_, (z', h', sp')) := r in
  ret ((z', h'), (sp', S c)).
Definition em_generator (pp : list (partition * anchorage)) : res (mat * R) :=
  rdo g <- em_update_generator dim (map snd pp) alp bet;
  match snd g with Some v => Ok (mat_of (fst g), v) | None => Raise ValueError end.
Definition sw_maximize (init_thi : list R) (k : nat) : M (list (R * list (list R) * mat * list (partition * anchorage) * (rw jump_path * nat)) * bool) :=
  do lam0 <- lift (init_generator dim alp bet);
  let lam := mat_of lam0 in
  let thi := repeat init_thi dim in
  do fin <- lift_opt IndexError (last_opt t);
  do y <- sample_forwards L fuel fin None dim lam;
  do a <- sample_aug fuel mp max_props lb_x ub_x (vol thi) y t vt;
  sw_em_loop rate ftol thin em_update_hidden update_param em_generator k None 1 thi lam [a] (rw_init y opt 0, 0%nat).
End Maximize.
