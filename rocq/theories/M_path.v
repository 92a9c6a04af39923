(** Model of ctbayes/sdelib/moments.py, paths.py and of reverse, reflect and pivot_brownbr
    (ctbayes/sdelib/transforms.py).  Real numbers are exact.  Definitions only. *)
From Coq Require Import Reals List Bool Arith.
From Verif Require Import Base Np Rng M_hit.
Import ListNotations.
Local Open Scope R_scope.

(** ** moments.py.  Vectors are lists, matrices lists of rows. *)

(** np.min / np.max of an array; an empty one is a ValueError *)
Definition arr_min (l : list R) : res R := match l with [] => Raise ValueError | a :: r => Ok (np_min_from a r) end.
Definition arr_max (l : list R) : res R := match l with [] => Raise ValueError | a :: r => Ok (np_max_from a r) end.

(** moments_wiener: moments.py lines 4-25 *)
Definition moments_wiener (t : list R) (init_x mu : R) : res (list R * list (list R)) :=
  rdo m <- arr_min t;
  if negb (Rltb 0 m) then Raise AssertionError
  else Ok (map (fun s => init_x + mu * s) t, map (fun r => map (fun c => Rmin c r) t) t).
(** moments_brownbr: lines 28-48 *)
Definition moments_brownbr (t : list R) (fin_t init_x fin_x : R) : res (list R * list (list R)) :=
  rdo m <- arr_min t;
  rdo m' <- arr_max t;
  if negb (Rltb 0 m && Rltb m' fin_t) then Raise AssertionError
  else Ok (map (fun s => init_x + (fin_x - init_x) * s / fin_t) t,
           map (fun r => map (fun c => (fin_t - Rmax c r) * Rmin c r / fin_t) t) t).
(** moments_gaussian_bridge: lines 51-62; [None]: an index error *)
Definition moments_gaussian_bridge (fin_x : R) (umean : list R) (ucov : list (list R)) : option (list R * list (list R)) :=
  match last_opt umean, last_opt ucov with
  | Some mn, Some lastrow =>
      match last_opt lastrow with
      | Some v =>
          let cross := but_last lastrow in
          Some (map (fun p => fst p + snd p * (fin_x - mn) / v) (combine (but_last umean) cross),
                map (fun p => map (fun q => fst q - snd p * snd q / v) (combine (but_last (fst p)) cross)) (combine (but_last ucov) cross))
      | None => None
      end
  | _, _ => None
  end.

(** ** paths.py *)

(** sample_wiener: lines 9-45.  The standard normals are drawn row by row (one row per
    time).  [col z d j] is column j of the normals.  mu=None and mu=0 give the same values. *)
Definition col (z : list R) (n d j : nat) : list R := map (fun i => nth (i * d + j) z 0) (seq 0 n).
(** line 39: np.ediff1d(t, to_begin=(t[0],)) *)
Definition ediff_begin (t : list R) : list R := match t with [] => [] | a :: _ => a :: np_diff t end.
(** lines 40-43 for one coordinate *)
Definition wiener_coord (t z : list R) (init mu : R) : list R :=
  map (fun c => c + init) (np_cumsum (map (fun p => sqrt (fst p) * snd p + fst p * mu) (combine (ediff_begin t) z))).
(** the columns of the result (line 43) *)
Definition sample_wiener (t : list R) (init_x mu : list R) : M (list (list R)) :=
  do m <- lift (arr_min t);
  do _ <- assert_ (Rltb 0 m);
  do z <- draw_rs (repeat DNormal (length t * length init_x));
  ret (map (fun j => wiener_coord t (col z (length t) (length init_x) j) (nth j init_x 0) (nth j mu 0)) (seq 0 (length init_x))).

(** sample_brownbr: lines 48-86 *)
Definition brownbr_times (t : list R) (fin_t : R) : list R := map (fun s => (s / fin_t) / (1 - s / fin_t)) t.
Definition sample_brownbr (t : list R) (fin_t init_x fin_x : R) : M (list R) :=
  do m <- lift (arr_min t);
  do m' <- lift (arr_max t);
  do _ <- assert_ (Rltb 0 m && Rltb m' fin_t);
  do w <- sample_wiener (brownbr_times t fin_t) [init_x / sqrt fin_t] [fin_x / sqrt fin_t];
  ret (map (fun p => sqrt fin_t * ((1 - fst p / fin_t) * snd p)) (combine t (nth 0 w []))).

(** np.linalg.norm over the coordinates *)
Definition norm_at (cols : list (list R)) (i : nat) : R := sqrt (fold_right Rplus 0 (map (fun c => nth i c 0 ^ 2) cols)).
(** sample_bessel: lines 89-126 *)
Definition sample_bessel (t : list R) (init_x : R) (dim : nat) (mu : option R) : M (list R) :=
  do m <- lift (arr_min t);
  do _ <- assert_ (Rltb 0 m);
  do _ <- assert_ (Rleb 0 init_x);
  do _ <- assert_ (Nat.ltb 0 dim);
  do w <- sample_wiener t (repeat 0 (dim - 1) ++ [init_x]) (repeat 0 (dim - 1) ++ [match mu with Some m => m | None => 0 end]);
  ret (map (norm_at w) (seq 0 (length t))).
(** list comprehension of samplers *)
Fixpoint map_m {A B} (f : A -> M B) (l : list A) : M (list B) :=
  match l with
  | [] => ret []
  | a :: r => do b <- f a; do bs <- map_m f r; ret (b :: bs)
  end.
(** sample_besselbr: lines 129-165 *)
Definition sample_besselbr (t : list R) (fin_t fin_x : R) (dim : nat) : M (list R) :=
  do m <- lift (arr_min t);
  do m' <- lift (arr_max t);
  do _ <- assert_ (Rltb 0 m && Rltb m' fin_t);
  do _ <- assert_ (Nat.ltb 0 dim);
  do w <- map_m (fun f => sample_brownbr t fin_t 0 f) (repeat 0 (dim - 1) ++ [fin_x]);
  ret (map (norm_at w) (seq 0 (length t))).

(** lines 275-277: duration, start and end of every segment *)
Definition segments (t xt : list R) : list (R * R * R) := zip3 (np_diff t) (but_last xt) (tl xt).
(** propose_layerbr_edge: lines 228-284.  [fuel] bounds the escape series. *)
Fixpoint layerbr_edge_loop (fuel n : nat) (t : list R) (fin_t fin_x : R) (ub_sup_x lb_sup_x : option R) : M (list R * list bool) :=
  match n with
  | O => raise BudgetConstraintError
  | S n' =>
      do xt <- (match t with [] => ret [] | _ => sample_besselbr t fin_t fin_x 3 end);
      let segs := segments (0 :: t ++ [fin_t]) (0 :: xt ++ [fin_x]) in
      do ok <- (match ub_sup_x with
                | None => ret true
                | Some ub =>
                    do e <- map_m (fun s => let '(dt, x0, x1) := s in sample_bessel3br_esc fuel dt x0 x1 ub None None) segs;
                    ret (negb (existsb (fun b => b) e))
                end);
      if ok then
        match lb_sup_x with
        | None => ret (xt, [])
        | Some lb =>
            do h <- map_m (fun s => let '(dt, x0, x1) := s in sample_bessel3br_esc fuel dt x0 x1 lb ub_sup_x None) segs;
            ret (xt, h)
        end
      else layerbr_edge_loop fuel n' t fin_t fin_x ub_sup_x lb_sup_x
  end.
Definition propose_layerbr_edge (fuel mp : nat) (t : list R) (fin_t fin_x : R) (ub_sup_x lb_sup_x : option R) : M (list R * list bool) :=
  do _ <- (match t with
           | [] => ret tt
           | _ => do m <- lift (arr_min t); do m' <- lift (arr_max t); assert_ (Rltb 0 m && Rltb m' fin_t)
           end);
  do _ <- assert_ (match ub_sup_x with Some ub => Rltb fin_x ub | None => true end);
  layerbr_edge_loop fuel mp t fin_t fin_x ub_sup_x lb_sup_x.

(** shifting an optional level, line 338 *)
Definition opt_sub (x : option R) (c : R) : option R := match x with Some v => Some (v - c) | None => None end.
(** propose_layerbr: lines 287-355.  The function calls itself only with the minimum at an
    end point, i.e. recursion depth two; [rec] stands for that call. *)
Definition propose_layerbr_body
    (rec : list R -> R -> R -> R -> R -> option R -> option R -> M (list R * list bool))
    (fuel mp : nat) (t : list R) (fin_t init_x fin_x inf_x : R) (ub_sup_x lb_sup_x : option R) : M (list R * list bool) :=
  do _ <- (match t with
           | [] => ret tt
           | _ => do m <- lift (arr_min t); do m' <- lift (arr_max t); assert_ (Rltb 0 m && Rltb m' fin_t)
           end);
  do _ <- assert_ (Rleb inf_x (Rmin init_x fin_x));
  do _ <- (match ub_sup_x with
           | None => ret tt
           | Some ub =>
               do _ <- assert_ (Rltb (Rmax init_x fin_x) ub);
               match lb_sup_x with
               | None => ret tt
               | Some lb => if Rltb lb ub then ret tt else raise ValueError (* raise Exception *)
               end
           end);
  if Reqb inf_x init_x || Reqb inf_x fin_x then
    do r <- (if Reqb inf_x fin_x then
               do q <- propose_layerbr_edge fuel mp (map (fun s => fin_t - s) (rev t)) fin_t (init_x - inf_x) (opt_sub ub_sup_x inf_x) (opt_sub lb_sup_x inf_x);
               ret (rev (fst q), rev (snd q))
             else propose_layerbr_edge fuel mp t fin_t (fin_x - inf_x) (opt_sub ub_sup_x inf_x) (opt_sub lb_sup_x inf_x));
    ret (map (fun x => x + inf_x) (fst r), snd r)
  else
    do m <- sample_layerbr_min fuel mp fin_t init_x fin_x ub_sup_x (Some (Fin inf_x)) None;
    match m with
    | None => raise ValueError
    | Some (min_t, min_x) =>
        let ix := searchsorted_left t min_t in
        do r0 <- rec (firstn ix t) min_t init_x min_x min_x ub_sup_x lb_sup_x;
        do r1 <- rec (map (fun s => s - min_t) (skipn ix t)) (fin_t - min_t) min_x fin_x min_x ub_sup_x lb_sup_x;
        let xt := fst r0 ++ fst r1 in
        match lb_sup_x with
        | None => ret (xt, [])
        | Some _ => ret (xt, but_last (snd r0) ++ [last (snd r0) false || hd false (snd r1)] ++ tl (snd r1))
        end
    end.
Definition propose_layerbr (fuel mp : nat) : list R -> R -> R -> R -> R -> option R -> option R -> M (list R * list bool) :=
  propose_layerbr_body (propose_layerbr_body (fun _ _ _ _ _ _ _ => nofuel) fuel mp) fuel mp.
(** sample_layerbr: lines 168-225 *)
Fixpoint layerbr_loop (fuel mp n : nat) (t : list R) (fin_t init_x fin_x inf_x : R) (ub_sup_x lb_sup_x : option R) : M (list R * option (list bool)) :=
  match n with
  | O => raise BudgetConstraintError
  | S n' =>
      do r <- propose_layerbr fuel mp t fin_t init_x fin_x inf_x ub_sup_x lb_sup_x;
      match lb_sup_x with
      | None => ret (fst r, None)
      | Some _ => if existsb (fun b => b) (snd r) then ret (fst r, Some (snd r))
                  else layerbr_loop fuel mp n' t fin_t init_x fin_x inf_x ub_sup_x lb_sup_x
      end
  end.
Definition sample_layerbr (fuel mp max_props : nat) (t : list R) (fin_t init_x fin_x inf_x : R) (ub_sup_x lb_sup_x : option R)
  : M (list R * option (list bool)) :=
  do m <- lift (arr_min t);
  do m' <- lift (arr_max t);
  do _ <- assert_ (Rltb 0 m && Rltb m' fin_t);
  do _ <- assert_ (Nat.ltb 0 max_props);
  do _ <- assert_ (Rleb inf_x (Rmin init_x fin_x));
  do _ <- assert_ (match ub_sup_x with
                   | None => true
                   | Some ub => Rltb (Rmax init_x fin_x) ub && match lb_sup_x with Some lb => Rltb lb ub | None => true end
                   end);
  layerbr_loop fuel mp max_props t fin_t init_x fin_x inf_x ub_sup_x lb_sup_x.

(** ** transforms.py *)

(** reverse: lines 7-28 (a plain Exception is represented by ValueError) *)
Definition reverse (t : list R) (x : list R) (fin_t : R) : res (list R * list R) :=
  let out := Ok (map (fun s => fin_t - s) (rev t), rev x) in
  match t with
  | [] => if Rleb 0 fin_t then out else Raise AssertionError
  | a :: r =>
      if negb (Rleb 0 (np_min_from a r) && Rleb (np_max_from a r) fin_t) then Raise ValueError
      else if Rleb 0 fin_t then out else Raise AssertionError
  end.
(** reflect: lines 31-49; np.min of an empty array raises *)
Definition reflect (t : option (list R)) (x : list R) (reflect_x : R) : res (option (list R) * list R) :=
  let out := Ok (t, map (fun v => 2 * reflect_x - v) x) in
  match t with
  | None => out
  | Some [] => Raise ValueError
  | Some (a :: r) => if Rleb 0 (np_min_from a r) then out else Raise AssertionError
  end.
(** pivot_brownbr: lines 52-77 *)
Definition pivot_brownbr (s z : list R) (fin_t init_x fin_x : R) (norm_time denorm_time : R -> R) : res (list R * list R) :=
  rdo m <- arr_min s;
  rdo m' <- arr_max s;
  if negb (Rleb 0 m && Rleb m' 1) then Raise AssertionError
  else if negb (Rltb 0 fin_t) then Raise AssertionError
  else
    let amp := norm_time fin_t in
    Ok (map (fun u => denorm_time (u * amp)) s,
        map (fun p => fst p * sqrt amp + init_x + snd p * (fin_x - init_x)) (combine z s)).
(** gen_seeded_bessel3br: lines 80-119; rows of z are triples; fin_t ** 1.5 is fin_t * sqrt fin_t *)
Definition gen_seeded_bessel3br (s : list R) (z : list (R * R * R)) (fin_t fin_x : R) : res (list R * list R) :=
  rdo m <- arr_min s;
  rdo m' <- arr_max s;
  if negb (Rltb 0 m && Rltb m' 1) then Raise AssertionError
  else if negb (Rltb 0 fin_t) then Raise AssertionError
  else
    let t := map (fun u => u * fin_t) s in
    Ok (t, map (fun p => let '(z0, z1, z2) := fst p in
                         sqrt fin_t * sqrt ((z0 + fin_x * snd p / (fin_t * sqrt fin_t)) ^ 2 + z1 ^ 2 + z2 ^ 2)) (combine z t)).
