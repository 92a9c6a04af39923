(** Model of ctbayes/ea3lib/seed.py and of the normal operators of ctbayes/ito/static.py
    (lines 69-83) and ctbayes/switching/static.py (lines 88-106).  Real numbers are exact.
    Definitions only.  SeedSkeleton (seed.py lines 10-16) has the fields of Skeleton and is
    represented by the same record [skel]. *)
From Coq Require Import Reals List Bool Arith ZArith.
From Verif Require Import Base Np Rng M_mjp M_hit M_path M_skel.
Import ListNotations.
Local Open Scope R_scope.

(** norm_rsde and denorm_rsde take two arrays, the second possibly None *)
Definition normop : Type := list R -> option (list R) -> list R * option (list R).

(** ito/static.py lines 69-75 *)
Definition ito_norm (fin_t init_x fin_x : R) : normop := fun t xt =>
  let s := map (fun u => u / fin_t) t in
  (s, option_map (fun xt => map (fun p => (snd p - init_x - fst p * (fin_x - init_x)) / sqrt fin_t) (combine s xt)) xt).
(** ito/static.py lines 77-83 *)
Definition ito_denorm (fin_t init_x fin_x : R) : normop := fun s zs =>
  (map (fun u => u * fin_t) s, option_map (fun zs => map (fun p => snd p * sqrt fin_t + init_x + fst p * (fin_x - init_x)) (combine s zs)) zs).
(** switching/static.py lines 88-95; [vol] is eval_vol(thi, init_y) *)
Definition sw_norm (vol fin_t init_x fin_x : R) : normop := fun t xt =>
  let s := map (fun u => u / fin_t) t in
  (s, option_map (fun xt => map (fun p => (snd p - init_x - fst p * (fin_x - init_x)) / (sqrt fin_t * vol)) (combine s xt)) xt).
(** switching/static.py lines 97-104 *)
Definition sw_denorm (vol fin_t init_x fin_x : R) : normop := fun s zs =>
  (map (fun u => u * fin_t) s, option_map (fun zs => map (fun p => snd p * sqrt fin_t * vol + init_x + fst p * (fin_x - init_x)) (combine s zs)) zs).

(** the second result of an operator called with an array *)
Definition values_of (r : list R * option (list R)) : M (list R) := lift_opt TypeError (snd r).

(** lines 78-79: an infinite bound stays infinite under the operators *)
Definition bound_z (agg : list R -> res R) (norm : normop) (t : list R) (b : ext) : M ext :=
  match b with
  | Fin l => do z <- values_of (norm t (Some [l; l])); do m <- lift (agg z); ret (Fin m)
  | e => ret e
  end.
(** sample_raw_seed: lines 65-80 *)
Definition sample_raw_seed (fuel mp max_props : nat) (lb_x ub_x : ext) (norm denorm : normop) : M skel :=
  let t := fst (denorm [0; 1] None) in
  do lb_z <- bound_z arr_max norm t lb_x;
  do ub_z <- bound_z arr_min norm t ub_x;
  sample_raw_skeleton fuel mp max_props 1 0 0 lb_z ub_z.

(** interpolate_seed: lines 209-227 *)
Definition interpolate_seed (fuel mp max_props : nat) (norm denorm : normop) (seed : skel) (new_t : list R) : M (skel * list R) :=
  let new_s := fst (norm new_t None) in
  do r <- interpolate_skeleton fuel mp max_props seed new_s;
  do new_x <- values_of (denorm new_s (Some (snd r)));
  ret (fst r, new_x).
(** SeedSkeleton.__call__: lines 18-24 *)
Definition seed_call (fuel mp max_props : nat) (norm denorm : normop) (seed : skel) (t : list R) : M (list R) :=
  do fin_t <- lift_opt IndexError (hd_error (fst (denorm [1] None)));
  if existsb (fun u => Rltb fin_t u) t then raise ValueError
  else do r <- interpolate_seed fuel mp max_props norm denorm seed t; ret (snd r).

(** np.linspace(0, 1, n + 1) *)
Definition linspace01 (n : nat) : list R := map (fun i => INR i / INR n) (seq 0 (S n)).
(** lines 257-258: element-wise minimum / maximum of x[1:] and x[:-1] *)
Definition pair_min (x : list R) : list R := map (fun p => Rmin (fst p) (snd p)) (combine (tl x) (removelast x)).
Definition pair_max (x : list R) : list R := map (fun p => Rmax (fst p) (snd p)) (combine (tl x) (removelast x)).
(** eval_bounds_disc: (infimum, lower, upper), the upper bound may be infinite *)
Definition bounds_fun : Type := R -> R -> R * R * ext.
(** bound_disc_path: lines 230-261.  [grid] is either the number of intervals or the times.
    zip of an empty list raises ValueError (unpacking). *)
Definition bound_disc_path (norm denorm : normop) (bounds : bounds_fun) (seed : skel) (grid : nat + list R) : M (list R * list R * list ext) :=
  let lz := if Rltb (k_tight seed) (k_loose seed) then k_tight seed else k_loose seed in
  let uz := if Rltb (k_tight seed) (k_loose seed) then k_loose seed else k_tight seed in
  let s := match grid with inl n => linspace01 n | inr t => fst (norm t None) end in
  do le_x <- values_of (denorm s (Some (repeat lz (length s))));
  do ue_x <- values_of (denorm s (Some (repeat uz (length s))));
  let phi := map (fun p => bounds (fst p) (snd p)) (combine (pair_min le_x) (pair_max ue_x)) in
  match phi with
  | [] => raise ValueError
  | _ => ret (fst (denorm s None), map (fun q => snd (fst q)) phi, map (fun q => snd q) phi)
  end.
(** -np.diff(t) @ le_phi *)
Definition neg_dot (d l : list R) : R := fold_right Rplus 0 (map (fun p => - fst p * snd p) (combine d l)).
(** integrate_disc_bound: lines 193-206 *)
Definition integrate_disc_bound (norm denorm : normop) (bounds : bounds_fun) (seed : skel) : M R :=
  do r <- bound_disc_path norm denorm bounds seed (inl 1%nat);
  ret (neg_dot (np_diff (fst (fst r))) (snd (fst r))).
(** np.max(ue_phi - le_phi); [None] is an infinite value *)
Fixpoint gaps (ue : list ext) (le : list R) : list (option R) :=
  match ue, le with
  | Fin u :: ue', l :: le' => Some (u - l) :: gaps ue' le'
  | _ :: ue', _ :: le' => None :: gaps ue' le'
  | _, _ => []
  end.
Fixpoint all_some (l : list (option R)) : option (list R) :=
  match l with
  | [] => Some []
  | Some a :: r => match all_some r with Some r' => Some (a :: r') | None => None end
  | None :: _ => None
  end.
(** line 113: le_phi[np.searchsorted(t, u, 'right') - 1] *)
Definition level_at (t le_phi : list R) (u : R) : option R := pyget le_phi (Z.of_nat (searchsorted_right t u) - 1)%Z.
(** the loop of flip_poisson_coin: lines 109-115 *)
Fixpoint seed_loop (fuel mp max_props n : nat) (norm denorm : normop) (disc : R -> R) (bounds : list R) (t le_phi : list R) (p : ppp_state) (s : skel) : M (bool * skel) :=
  match n with
  | O => nofuel
  | S n' =>
      do r <- ppp_next bounds p;
      match r with
      | None => ret (true, s)
      | Some (batch, p') =>
          let rows := col1_sort batch in
          let new_t := map (fun r => nth 1 r 0) rows in
          let crit := map (fun r => nth 0 r 0) rows in
          do q <- interpolate_seed fuel mp max_props norm denorm s new_t;
          do low <- map_m (fun u => lift_opt IndexError (level_at t le_phi u)) new_t;
          if existsb (fun c => Rltb (snd c) (disc (fst (fst c)) - snd (fst c))) (combine (combine (snd q) low) crit)
          then ret (false, fst q)
          else seed_loop fuel mp max_props n' norm denorm disc bounds t le_phi p' (fst q)
      end
  end.
(** flip_poisson_coin: lines 83-115; result (success, -integral of the lower bound, seed) *)
Definition seed_poisson_coin (fuel mp max_props : nat) (norm denorm : normop) (seed : skel) (disc : R -> R) (bounds : bounds_fun) (batch_size : nat)
  : M (bool * R * skel) :=
  do r <- bound_disc_path norm denorm bounds seed (inl 1%nat);
  let '(t, le_phi, ue_phi) := r in
  let st := neg_dot (np_diff t) le_phi in
  match all_some (gaps ue_phi le_phi) with
  | None => ret (false, st, seed)
  | Some g =>
      do intensity <- lift (arr_max g);
      do fin_t <- lift_opt ValueError (hd_error (fst (denorm [1] None)));
      do p <- ppp_start 1 [intensity; fin_t] batch_size;
      do z <- seed_loop fuel mp max_props (S (length (pp_sizes p))) norm denorm disc [intensity; fin_t] t le_phi p seed;
      ret (fst z, st, snd z)
  end.
(** the proposals of one next(): lines 54-60; log(u) is -inf for u = 0, which is below any weight *)
Fixpoint bridge_props (fuel mp max_props n : nat) (lb_x ub_x : ext) (norm denorm : normop) (disc : R -> R) (bounds : bounds_fun) : M skel :=
  match n with
  | O => raise BudgetConstraintError
  | S n' =>
      do p <- sample_raw_seed fuel mp max_props lb_x ub_x norm denorm;
      do r <- seed_poisson_coin fuel mp max_props norm denorm p disc bounds 2;
      let '(success, log_weight, q) := r in
      if success then
        do u <- draw_r (DUniform 0 1);
        if Reqb u 0 || Rltb (ln u) log_weight then ret q
        else bridge_props fuel mp max_props n' lb_x ub_x norm denorm disc bounds
      else bridge_props fuel mp max_props n' lb_x ub_x norm denorm disc bounds
  end.
(** sample_bridge: lines 49-62, one next() *)
Definition sample_seed_bridge (fuel mp max_props n : nat) (lb_x ub_x : ext) (norm denorm : normop) (disc : R -> R) (bounds : bounds_fun) : M skel :=
  do _ <- assert_ (eltb lb_x ub_x);
  bridge_props fuel mp max_props n lb_x ub_x norm denorm disc bounds.
(** lines 152-155: the gap *)
Definition dual_gap (upside : bool) (phi_nil phi_prime : R) : R :=
  if upside then (if Rltb phi_nil phi_prime then phi_prime - phi_nil else 0)
  else (if Rltb phi_prime phi_nil then phi_nil - phi_prime else 0).
(** the loop of flip_dual_coin: lines 146-159 *)
Fixpoint dual_loop (fuel mp max_props n : nat) (norm_nil denorm_nil norm_prime denorm_prime : normop) (disc_nil disc_prime : R -> R) (upside : bool)
    (intensity fin_t : R) (p : ppp_state) (s : skel) : M (bool * skel) :=
  match n with
  | O => nofuel
  | S n' =>
      do r <- ppp_next [intensity; fin_t] p;
      match r with
      | None => ret (true, s)
      | Some (batch, p') =>
          let rows := col1_sort batch in
          let new_t := map (fun r => nth 1 r 0) rows in
          let crit := map (fun r => nth 0 r 0) rows in
          do q <- interpolate_seed fuel mp max_props norm_nil denorm_nil s new_t;
          do q' <- interpolate_seed fuel mp max_props norm_prime denorm_prime (fst q) new_t;
          let gap := map (fun c => dual_gap upside (disc_nil (fst c)) (disc_prime (snd c))) (combine (snd q) (snd q')) in
          do _ <- assert_ (negb (existsb (fun g => Rltb intensity g) gap));
          if existsb (fun c => Rltb (snd c) (fst c)) (combine gap crit) then ret (false, fst q')
          else dual_loop fuel mp max_props n' norm_nil denorm_nil norm_prime denorm_prime disc_nil disc_prime upside intensity fin_t p' (fst q')
      end
  end.
(** flip_dual_coin: lines 118-159 *)
Definition flip_dual_coin (fuel mp max_props : nat) (seed : skel) (intensity : R) (norm_nil denorm_nil : normop) (disc_nil : R -> R)
    (norm_prime denorm_prime : normop) (disc_prime : R -> R) (upside : bool) (batch_size : nat) : M (bool * skel) :=
  do fin_t <- lift_opt ValueError (hd_error (fst (denorm_nil [1] None)));
  do p <- ppp_start 1 [intensity; fin_t] batch_size;
  dual_loop fuel mp max_props (S (length (pp_sizes p))) norm_nil denorm_nil norm_prime denorm_prime disc_nil disc_prime upside intensity fin_t p seed.
(** est_poisson_coin: lines 162-190; the bounds of a grid with one interval have one entry,
    so ue_phi - new_phi subtracts from it.  [None] is -inf; [ln] is the logarithm of a positive
    number as in M_skel. *)
Definition seed_est_coin (fuel mp max_props : nat) (norm denorm : normop) (seed : skel) (disc : R -> R) (bounds : bounds_fun) : M (option R * R * skel) :=
  do r <- bound_disc_path norm denorm bounds seed (inl 1%nat);
  let '(t, le_phi, ue_phi) := r in
  let st := neg_dot (np_diff t) le_phi in
  match all_some (gaps ue_phi le_phi) with
  | None => ret (None, st, seed)
  | Some g =>
      do intensity <- lift (arr_max g);
      do fin_t <- lift_opt ValueError (hd_error (fst (denorm [1] None)));
      do pts <- sample_ppp intensity [fin_t];
      let new_t := map (fun r => nth 0 r 0) pts in
      match new_t, ue_phi with
      | [], _ => ret (Some 0, st, seed)
      | _, [Fin ue] =>
          do q <- interpolate_seed fuel mp max_props norm denorm seed new_t;
          ret (Some (fold_right Rplus 0 (map (fun v => ln (ue - disc v)) (snd q)) - INR (length (snd q)) * ln intensity), st, fst q)
      | _, _ => raise ValueError
      end
  end.
