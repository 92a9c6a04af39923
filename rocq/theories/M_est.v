(** Model of est_aug_lik and est_se of ctbayes/ito/mcem.py and ctbayes/switching/mcem.py, and of
    fill_wiener_vector of ctbayes/sdelib/interpolators.py.  Real numbers are exact.  Definitions only. *)
From Coq Require Import Reals List Bool Arith ZArith.
From Verif Require Import Base Np Rng M_mjp M_hit M_path M_skel M_seed M_models M_inf M_sw M_adapt M_mcem.
Import ListNotations.
Local Open Scope R_scope.

(** sum of numbers that are possibly -inf ([None]) *)
Definition osum (l : list (option R)) : option R := option_map M_models.rsum (all_some l).
(** np.log summed with finite numbers *)
Definition oplus (x : option R) (y : R) : option R := option_map (fun v => y + v) x.

(** est_aug_lik: ito lines 99-104.  [est] is seed.est_poisson_coin (lines 162-190), [log_lik thi] is
    eval_biased_loglik(thi, t, vt); unpacking zip of an empty list raises ValueError. *)
Definition est_fun : Type := normop -> normop -> skel -> (R -> R) -> bounds_fun -> M (option R * R * skel).
Definition ito_aug_with (est : est_fun) (reduce disc : list R -> R -> R) (bounds : list R -> bounds_fun) (log_lik : list R -> R) (t vt : list R)
    (thi : list R) (z : partition) : M (option R * partition) :=
  do rs <- map_m (fun p => let '(z_, n) := p in est (fst n) (snd n) z_ (disc thi) (bounds thi)) (combine z (ito_normops reduce t vt thi));
  match rs with
  | [] => raise ValueError
  | _ => ret (oplus (osum (map (fun r => fst (fst r)) rs)) (log_lik thi + M_models.rsum (map (fun r => snd (fst r)) rs)), map snd rs)
  end.
Definition ito_est_aug_lik (fuel mp max_props : nat) := ito_aug_with (seed_est_coin fuel mp max_props).
(** est_aug_lik: switching lines 131-140; [loglik] is eval_biased_loglik, a pair *)
Definition sw_aug_with (est : est_fun) (vol : list (list R) -> nat -> R) (disc : list (list R) -> nat -> R -> R) (bounds : list (list R) -> nat -> bounds_fun)
    (loglik : list (list R) -> anchorage -> option nat -> R * R) (thi : list (list R)) (z : partition) (h : anchorage) (restrict : option nat) : M (option R * partition) :=
  do rs <- map_m (fun p => let '(z_, y0, n) := p in
                    if selected restrict y0 then est (fst n) (snd n) z_ (disc thi y0) (bounds thi y0) else ret (Some 0, 0, z_))
                 (zip3 z (a_y h) (sw_normops (vol thi) h));
  match rs with
  | [] => raise ValueError
  | _ => let l := loglik thi h restrict in
         ret (oplus (osum (map (fun r => fst (fst r)) rs)) (fst l + snd l + M_models.rsum (map (fun r => snd (fst r)) rs)), map snd rs)
  end.
Definition sw_est_aug_lik (fuel mp max_props : nat) := sw_aug_with (seed_est_coin fuel mp max_props).

(** ** est_se: ito lines 116-132, switching lines 155-173 *)
(** |x - bound| *)
Definition edist (x : R) (e : ext) : ext := match e with Fin y => Fin (Rabs (x - y)) | _ => PosInf end.
(** d_thi = np.min([np.abs(thi - lb), np.abs(thi - ub)]) for arrays of equal length (checked by [box_ok]) *)
Definition distance (lb ub : list ext) (thi : list R) : res ext :=
  match map (fun p => edist (fst p) (snd p)) (combine thi lb ++ combine thi ub) with
  | [] => Raise ValueError
  | d :: r => Ok (fold_left (fun a b => if eltb b a then b else a) r d)
  end.
Definition is_zero (e : ext) : bool := match e with Fin x => Reqb x 0 | _ => false end.
Definition box_ok (lb ub : list ext) (thi : list R) : bool := Nat.eqb (length lb) (length thi) && Nat.eqb (length ub) (length thi).
(** the entries of a clipped point; an infinite entry does not occur when no lower bound is inf and no upper bound -inf *)
Definition finite (l : list ext) : res (list R) := if forallb is_fin l then Ok (map (fun e => match e with Fin x => x | _ => 0 end) l) else Raise ValueError.
(** f_wrap_obj: ito lines 119-121, switching lines 158-160 *)
Definition wrap {A} (lb ub : list ext) (f : list R -> M A) (x : list R) : M A := do y <- lift (finite (clip lb ub x)); f y.
(** np.cov of the transposed gradients: rows are particles *)
Definition np_cov (d : nat) (g : list (list R)) : list (list R) :=
  let avg i := np_mean (map (fun r => nth i r 0) g) in
  map (fun i => map (fun j => M_models.rsum (map (fun r => (nth i r 0 - avg i) * (nth j r 0 - avg j)) g) / (INR (length g) - 1)) (seq 0 d)) (seq 0 d).
Definition msub (A B : list (list R)) : list (list R) := map (fun p => map (fun q => fst q - snd q) (combine (fst p) (snd p))) (combine A B).
Definition diag_pos (A : list (list R)) : bool := forallb (fun p => Rltb 0 (nth (fst p) (snd p) 0)) (combine (seq 0 (length A)) A).
Section Se.
(** numdifftools' Hessian and Gradient, np.linalg.inv *)
Context (hess : (list R -> M R) -> list R -> M (list (list R))) (grad : (list R -> M (list R)) -> list R -> M (list (list R))) (inv : list (list R) -> res (list (list R))).
(** lines 125-130 / 164-172 for one parameter vector and its objective *)
Definition se_of (lb ub : list ext) (f : list R -> M (list R)) (thi : list R) : M (option (list (list R))) :=
  if negb (box_ok lb ub thi) then raise ValueError
  else
    do d <- lift (distance lb ub thi);
    if is_zero d then ret None
    else   do H <- hess (fun x => do v <- wrap lb ub f x; ret (- np_mean v)) thi;
           do G <- grad (wrap lb ub f) thi;
           do se <- lift (inv (msub H (np_cov (length thi) G)));
           ret (if diag_pos se then Some se else None).
(** est_se: ito lines 116-132 *)
Definition ito_est_se (fuel mp max_props : nat) (reduce disc : list R -> R -> R) (log_lik log_prior : list R -> R) (t vt : list R) (lb ub : option (list ext)) (buffer : R)
    (n_supports : nat) (omes : nat -> oracle) (thi : list R) (zz : list partition) : M (option (list (list R))) :=
  do f <- ito_update_objective fuel mp max_props reduce disc log_lik log_prior t vt n_supports omes thi zz;
  do b <- lift (buffer_bounds lb ub (length thi) buffer);
  se_of (fst b) (snd b) f thi.
(** est_se: switching lines 155-173; n_dim is the number of regimes *)
Definition sw_est_se (fuel mp max_props : nat) (vol : list (list R) -> nat -> R) (disc : list (list R) -> nat -> R -> R) (loglik : list (list R) -> anchorage -> option nat -> R * R)
    (log_prior : list (list R) -> R) (lb ub : option (list ext)) (buffer : R) (n_supports : nat) (omes : nat -> oracle) (thi : list (list R)) (zz : list partition) (hh : list anchorage)
    : M (list (option (list (list R)))) :=
  do b <- lift (buffer_bounds lb ub (length thi) buffer);
  do f <- sw_update_objective fuel mp max_props vol disc loglik log_prior n_supports omes thi zz hh;
  map_m (fun p => se_of (fst b) (snd b) (fun x => f (firstn (fst p) thi ++ [x] ++ skipn (S (fst p)) thi) (fst p)) (snd p)) (combine (seq 0 (length thi)) thi).
End Se.

(** ** fill_wiener_vector: interpolators.py lines 9-58, for one-dimensional x.
    np.vstack makes one row per sector, so that np.insert broadcasts only if there is one sector;
    otherwise it raises ValueError.  For x of shape (n, 1), as in the doctest, np.insert cannot
    broadcast the row either unless there is a single new time. *)
Definition fill_wiener_vector (t x new_t : list R) : M (list R * list R * list nat) :=
  do t0 <- lift (arr_min t);
  do s0 <- lift (arr_min new_t);
  do s1 <- lift (arr_max new_t);
  do t1 <- lift (arr_max t);
  do _ <- assert_ (Rleb 0 t0 && Rltb t0 s0 && Rleb s0 s1 && Rleb s1 t1);
  do _ <- assert_ (Nat.eqb (length t) (length x));
  let insert_to := map (searchsorted_right t) new_t in
  let sectors := np_unique_pos (length t) insert_to in
  do new_x <- map_m (fun i =>
    do ti <- lift_opt IndexError (nth_error t i);
    do tp <- lift_opt IndexError (nth_error t (i - 1));
    do xp <- lift_opt IndexError (nth_error x (i - 1));
    do xi <- lift_opt IndexError (nth_error x i);
    sample_brownbr (map (fun p => snd p - tp) (filter (fun p => Nat.eqb (fst p) i) (combine insert_to new_t))) (ti - tp) xp xi) sectors;
  match new_x with
  | [row] => ret (np_insert t insert_to new_t, np_insert x insert_to row, map (fun p => (fst p + snd p)%nat) (combine insert_to (seq 0 (length insert_to))))
  | _ => raise ValueError
  end.
