(** Model of ctbayes/sdelib/interpolators.py (fill_wiener_outer, fill_wiener_inner) and
    ctbayes/ea3lib/skeleton.py.  Real numbers are exact.  Definitions only.
    fill_wiener_vector (interpolators.py lines 9-58) is in M_est. *)
From Coq Require Import Reals List Bool Arith ZArith.
From Verif Require Import Base Np Rng M_mjp M_hit M_path.
Import ListNotations.
Local Open Scope R_scope.

(** ** interpolators.py *)

(** np.unique of an array of positions into an array of length n *)
Definition np_unique_pos (n : nat) (l : list nat) : list nat :=
  filter (fun i => existsb (Nat.eqb i) l) (seq 0 (S n)).
(** l[i] = v on a list *)
Fixpoint list_set {A} (l : list A) (i : nat) (v : A) : list A :=
  match l, i with
  | [], _ => []
  | _ :: r, O => v :: r
  | a :: r, S j => a :: list_set r j v
  end.
(** lines 134-138 *)
Definition check_bounds (x : list R) (min_x : R) (ue_x hit_x : option R) : M unit :=
  do mx <- lift (arr_min x);
  do _ <- assert_ (Rleb min_x mx);
  match ue_x with
  | None => ret tt
  | Some ue =>
      do mx' <- lift (arr_max x);
      do _ <- assert_ (Rltb mx' ue);
      match hit_x with
      | None => ret tt
      | Some h => assert_ (Rltb min_x h && Rltb h ue)
      end
  end.
(** lines 143-148: the upper bound and the hitting level of segment number j *)
Definition sector_levels (n : nat) (ue_x hit_x : option R) (hit_i : option (list bool)) (j : nat) : option (option R * option R) :=
  match hit_i with
  | None => if Nat.ltb j (n - 1) then Some (ue_x, None) else None
  | Some h => match nth_error h j with
              | Some true => Some (ue_x, hit_x)
              | Some false => Some (hit_x, None)
              | None => None
              end
  end.
(** lines 150-152 for one sector i (1 <= i < len(t) by the assertion on line 133) *)
Definition fill_sector (fuel mp max_props : nat) (t x new_t : list R) (insert_to : list nat) (min_x : R) (ue_x hit_x : option R)
    (hit_i : option (list bool)) (i : nat) : M (list R * option (list bool)) :=
  do lv <- lift_opt IndexError (sector_levels (length t) ue_x hit_x hit_i (i - 1));
  do x0 <- lift_opt IndexError (nth_error x (i - 1));
  do x1 <- lift_opt IndexError (nth_error x i);
  let t0 := nth (i - 1) t 0 in
  sample_layerbr fuel mp max_props (map (fun p => snd p - t0) (filter (fun p => Nat.eqb (fst p) i) (combine insert_to new_t)))
    (nth i t 0 - t0) x0 x1 min_x (fst lv) (snd lv).
(** lines 160-166 *)
Definition stack_flags (hit_i : list bool) (sectors : list nat) (new : list (list R * option (list bool))) : list bool :=
  concat (fold_left (fun acc p => let '(i, (b, a)) := p in
                                  list_set acc (i - 1) (match a with
                                                        | None => concat (repeat (nth (i - 1) acc []) (length b + 1))
                                                        | Some fl => fl end))
                    (combine sectors new) (map (fun h => [h]) hit_i)).
(** fill_wiener_inner: lines 115-168 *)
Definition fill_wiener_inner (fuel mp max_props : nat) (t x new_t : list R) (min_x : R) (ue_x hit_x : option R) (hit_i : option (list bool))
  : M (list R * list R * list nat * option (list bool)) :=
  match new_t with
  | [] => ret (t, x, [], None)
  | _ =>
      do t0 <- lift (arr_min t);
      do t1 <- lift (arr_max t);
      do s0 <- lift (arr_min new_t);
      do s1 <- lift (arr_max new_t);
      do _ <- assert_ (Rleb 0 t0 && Rltb t0 s0 && Rleb s0 s1 && Rltb s1 t1);
      do _ <- check_bounds x min_x ue_x hit_x;
      let insert_to := map (searchsorted_left t) new_t in
      let sectors := np_unique_pos (length t) insert_to in
      do new <- map_m (fill_sector fuel mp max_props t x new_t insert_to min_x ue_x hit_x hit_i) sectors;
      ret (np_insert t insert_to new_t, np_insert x insert_to (concat (map fst new)),
           map (fun p => (fst p + snd p)%nat) (combine insert_to (seq 0 (length insert_to))),
           match hit_i with None => None | Some h => Some (stack_flags h sectors new) end)
  end.
(** fill_wiener_outer: lines 61-112 *)
Definition fill_wiener_outer (fuel mp max_props : nat) (t x new_t : list R) (min_x : R) (ue_x hit_x : option R) (hit_i : option (list bool))
  : M (list R * list R * list nat * option (list bool)) :=
  do t0 <- lift (arr_min t);
  do t1 <- lift (arr_max t);
  do s0 <- lift (arr_min new_t);
  do s1 <- lift (arr_max new_t);
  do _ <- assert_ (Rleb 0 t0 && Rleb t0 s0 && Rleb s0 s1 && Rleb s1 t1);
  do _ <- check_bounds x min_x ue_x hit_x;
  do r <- fill_wiener_inner fuel mp max_props t x (filter (fun s => negb (np_isin s t)) new_t) min_x ue_x hit_x hit_i;
  let '(stack_t, stack_x, _, stack_hit_i) := r in
  ret (stack_t, stack_x, filter (fun i => np_isin (nth i stack_t 0) new_t) (seq 0 (length stack_t)), stack_hit_i).

(** ** skeleton.py *)

(** class Skeleton: lines 10-16 *)
Record skel : Type := mk_skel {
  k_t : list R; k_x : list R; k_tight : R; k_loose : R; k_hit : R; k_hit_i : option (list bool) }.

(** flip_skeleton: lines 154-170; [None] is an IndexError on an empty skeleton *)
Definition flip_skeleton (s : skel) : res skel :=
  match nth_error (k_x s) 0, last_opt (k_x s), last_opt (k_t s) with
  | Some x0, Some x1, Some fin_t =>
      let reflect_x := (x0 + x1) / 2 in
      rdo r <- reverse (k_t s) (k_x s) fin_t;
      rdo q <- reflect (Some (fst r)) (snd r) reflect_x;
      rdo a <- reflect None [k_tight s] reflect_x;
      rdo b <- reflect None [k_loose s] reflect_x;
      rdo c <- reflect None [k_hit s] reflect_x;
      Ok (mk_skel (match fst q with Some t => t | None => [] end) (snd q) (hd 0 (snd a)) (hd 0 (snd b)) (hd 0 (snd c))
                  (match k_hit_i s with Some h => Some (rev h) | None => None end))
  | _, _, _ => Raise IndexError
  end.
(** interpolate_skeleton: lines 124-151 *)
Definition interpolate_skeleton (fuel mp max_props : nat) (s : skel) (new_t : list R) : M (skel * list R) :=
  match new_t with
  | [] => ret (s, [])
  | _ =>
      if Rltb (k_tight s) (k_loose s) then
        do r <- fill_wiener_outer fuel mp max_props (k_t s) (k_x s) new_t (k_tight s) (Some (k_loose s)) (Some (k_hit s)) (k_hit_i s);
        let '(t', x', i', h') := r in
        ret (mk_skel t' x' (k_tight s) (k_loose s) (k_hit s) h', map (fun i => nth i x' 0) i')
      else
        do f <- lift (flip_skeleton s);
        do fin_t <- lift_opt IndexError (last_opt (k_t s));
        do n <- lift (reverse new_t [] fin_t);
        do r <- fill_wiener_outer fuel mp max_props (k_t f) (k_x f) (fst n) (k_tight f) (Some (k_loose f)) (Some (k_hit f)) (k_hit_i f);
        let '(t', x', i', h') := r in
        do g <- lift (flip_skeleton (mk_skel t' x' (k_tight f) (k_loose f) (k_hit f) h'));
        ret (g, map (fun i => nth (length t' - 1 - i) (k_x g) 0) (rev i'))
  end.
(** Skeleton.__call__: lines 18-21 *)
Definition skel_call (fuel mp max_props : nat) (s : skel) (t : list R) : M (list R) :=
  do fin_t <- lift_opt IndexError (last_opt (k_t s));
  if existsb (fun u => Rltb fin_t u) t then raise ValueError
  else do r <- interpolate_skeleton fuel mp max_props s t; ret (snd r).
(** a finite bound of a sector; an infinite one does not occur with finite layers *)
Definition fin_of (e : ext) : M R := match e with Fin r => ret r | _ => raise ValueError end.
(** sample_raw_skeleton: lines 57-73.  [lo_anchor] is not used by the code either.  A NaN
    minimum ([None]) would enter the skeleton; it does not occur with finite edges. *)
Definition sample_raw_skeleton (fuel mp max_props : nat) (fin_t init_x fin_x : R) (lb_x ub_x : ext) : M skel :=
  do a <- sample_anchor fuel mp fin_t init_x fin_x lb_x ub_x;
  let '(_, lo_sector, hi_sector) := a in
  do l0 <- fin_of (fst lo_sector); do l1 <- fin_of (snd lo_sector);
  do h0 <- fin_of (fst hi_sector); do h1 <- fin_of (snd hi_sector);
  do e <- sample_edges fuel mp max_props fin_t init_x fin_x (l0, l1) (h0, h1);
  match e with
  | None => raise ValueError
  | Some (tight_t, tight_x, hit_x, loose_x, hit_i) =>
      let s := mk_skel [0; tight_t; fin_t] [init_x; tight_x; fin_x] tight_x loose_x hit_x
                 (match hit_i with Some (e1, e2) => Some [e1; e2] | None => None end) in
      do u <- draw_r (DUniform 0 1);
      if Rltb u (1/2) then ret s else lift (flip_skeleton s)
  end.

(** np.argsort(ppp.T[1]): rows of a batch (height, time) sorted by time *)
Fixpoint col1_ins (a : list R) (l : list (list R)) : list (list R) :=
  match l with
  | [] => [a]
  | b :: r => if Rleb (nth 1 a 0) (nth 1 b 0) then a :: l else b :: col1_ins a r
  end.
Fixpoint col1_sort (l : list (list R)) : list (list R) :=
  match l with [] => [] | a :: r => col1_ins a (col1_sort r) end.
(** flip_poisson_coin: lines 76-97.  Batches are drawn lazily, between interpolations. *)
Fixpoint poisson_loop (fuel mp max_props n : nat) (disc : R -> R) (bounds : list R) (cent_phi : R) (p : ppp_state) (s : skel) : M (bool * skel) :=
  match n with
  | O => nofuel
  | S n' =>
      do r <- ppp_next bounds p;
      match r with
      | None => ret (true, s)
      | Some (batch, p') =>
          let rows := col1_sort batch in
          do q <- interpolate_skeleton fuel mp max_props s (map (fun r => nth 1 r 0) rows);
          if existsb (fun c => Rltb (snd c) (disc (fst c) - cent_phi)) (combine (snd q) (map (fun r => nth 0 r 0) rows))
          then ret (false, fst q)
          else poisson_loop fuel mp max_props n' disc bounds cent_phi p' (fst q)
      end
  end.
Definition flip_poisson_coin (fuel mp max_props : nat) (s : skel) (disc : R -> R) (bounds_disc : R -> R -> R * R * R) (batch_size : nat) : M (bool * skel) :=
  let '(cent_phi, le_phi, ue_phi) := bounds_disc (Rmin (k_loose s) (k_tight s)) (Rmax (k_loose s) (k_tight s)) in
  do fin_t <- lift_opt IndexError (last_opt (k_t s));
  let bounds := [ue_phi - cent_phi; fin_t] in
  do p <- ppp_start 1 bounds batch_size;
  poisson_loop fuel mp max_props (S (length (pp_sizes p))) disc bounds cent_phi p s.
(** sample_skeleton: lines 44-54, one next(); [endpoint] is next(endpoint_sampler) *)
Fixpoint sample_skeleton (fuel mp max_props n : nat) (fin_t init_x : R) (lb_x ub_x : ext) (endpoint : M R) (disc : R -> R)
    (bounds_disc : R -> R -> R * R * R) : M skel :=
  match n with
  | O => raise BudgetConstraintError
  | S n' =>
      do fin_x <- endpoint;
      do p <- sample_raw_skeleton fuel mp max_props fin_t init_x fin_x lb_x ub_x;
      do r <- flip_poisson_coin fuel mp max_props p disc bounds_disc 2;
      if fst r then ret (snd r) else sample_skeleton fuel mp max_props n' fin_t init_x lb_x ub_x endpoint disc bounds_disc
  end.
(** est_poisson_coin: lines 100-121.  [ln] is the logarithm of a positive number; numpy's
    -inf (argument 0) and NaN (negative argument) are not represented, they do not occur when
    ue_phi is a strict upper bound of phi on the path. *)
Definition est_poisson_coin (fuel mp max_props : nat) (s : skel) (disc : R -> R) (bounds_disc : R -> R -> R * R * R) : M (R * skel) :=
  let '(cent_phi, le_phi, ue_phi) := bounds_disc (Rmin (k_loose s) (k_tight s)) (Rmax (k_loose s) (k_tight s)) in
  let intensity := ue_phi - le_phi in
  do fin_t <- lift_opt IndexError (last_opt (k_t s));
  do pts <- sample_ppp intensity [fin_t];
  let new_t := map (fun r => nth 0 r 0) pts in
  match new_t with
  | [] => ret ((intensity - ue_phi + cent_phi) * fin_t, s)
  | _ =>
      do q <- interpolate_skeleton fuel mp max_props s new_t;
      ret (fold_right Rplus 0 (map (fun v => ln (ue_phi - disc v)) (snd q)) - INR (length new_t) * ln intensity + (intensity - ue_phi + cent_phi) * fin_t, fst q)
  end.
