(** Seeds: a standard bridge from 0 to 0 on [0, 1] and the path it stands for. *)
From Coq Require Import Reals List.
From Verif Require Import Base Np Rng M_mjp M_hit M_path M_skel M_seed SpecSkel.
Import ListNotations.
Local Open Scope R_scope.

(** the value at normalised time s of the path from x0 to x1 whose seed has the value z *)
Definition path_at (scale x0 x1 s z : R) : R := z * scale + x0 + s * (x1 - x0).
(** what norm_rsde and denorm_rsde compute for a path from x0 to x1 of duration T *)
Record operators (norm denorm : normop) (T scale x0 x1 : R) : Prop := {
  op_norm_none : forall t, norm t None = (map (fun u => u / T) t, None);
  op_norm_some : forall t x, norm t (Some x) = (map (fun u => u / T) t, Some (map (fun p => (snd p - x0 - fst p / T * (x1 - x0)) / scale) (combine t x)));
  op_denorm_none : forall s, denorm s None = (map (fun u => u * T) s, None);
  op_denorm_some : forall s z, denorm s (Some z) = (map (fun u => u * T) s, Some (map (fun p => path_at scale x0 x1 (fst p) (snd p)) (combine s z))) }.
(** the path of the seed takes the value x at time u *)
Definition seed_at (T scale x0 x1 : R) (s : skel) (u x : R) : Prop := exists z, at_time s (u / T) z /\ x = path_at scale x0 x1 (u / T) z.
Definition standard (s : skel) : Prop := well_formed s /\ horizon s = 1.
Definition low_z (s : skel) : R := Rmin (k_loose s) (k_tight s).
Definition high_z (s : skel) : R := Rmax (k_loose s) (k_tight s).
(** between, in any order *)
Definition between (a b u : R) : Prop := Rmin a b <= u <= Rmax a b.
(** strictly inside possibly infinite bounds *)
Definition inside (lb ub : ext) (x : R) : Prop := elt lb (Fin x) /\ elt (Fin x) ub.
(** eval_bounds_disc encloses phi on every interval *)
Definition encloses (bounds : bounds_fun) (disc : R -> R) : Prop :=
  forall lx ux, lx <= ux -> let '(inf, le, ue) := bounds lx ux in forall x, lx <= x <= ux -> le <= disc x /\ ele (Fin (disc x)) ue.

(** ** the coins with a log *)
(** the levels read on line 113 *)
Definition seed_step (fuel mp n : nat) (norm denorm : normop) (t le_phi : list R) (s : skel) (new_t : list R) : M (skel * list (R * R)) :=
  do q <- interpolate_seed fuel mp n norm denorm s new_t;
  do low <- map_m (fun u => lift_opt IndexError (level_at t le_phi u)) new_t;
  ret (fst q, combine (snd q) low).
Definition logged_seed_coin (fuel mp n : nat) (norm denorm : normop) (seed : skel) (disc : R -> R) (bounds : bounds_fun) (batch_size : nat)
  : M (bool * R * skel * list (R * R * (R * R))) :=
  do r <- bound_disc_path norm denorm bounds seed (inl 1%nat);
  let '(t, le_phi, ue_phi) := r in
  let st := neg_dot (np_diff t) le_phi in
  match all_some (gaps ue_phi le_phi) with
  | None => ret (false, st, seed, [])
  | Some g =>
      do intensity <- lift (arr_max g);
      do fin_t <- lift_opt ValueError (hd_error (fst (denorm [1] None)));
      do p <- ppp_start 1 [intensity; fin_t] batch_size;
      do z <- logged (seed_step fuel mp n norm denorm t le_phi) (fun _ v => disc (fst v) - snd v) [intensity; fin_t] (S (length (pp_sizes p))) p seed;
      ret (fst (fst z), st, snd (fst z), snd z)
  end.
(** one round of the dual coin: the path under both parameters *)
Definition dual_step (fuel mp n : nat) (norm_nil denorm_nil norm_prime denorm_prime : normop) (s : skel) (new_t : list R) : M (skel * list (R * R)) :=
  do q <- interpolate_seed fuel mp n norm_nil denorm_nil s new_t;
  do q' <- interpolate_seed fuel mp n norm_prime denorm_prime (fst q) new_t;
  ret (fst q', combine (snd q) (snd q')).
(** the dual coin without its assertion, with the log *)
Definition logged_dual_coin (fuel mp n : nat) (seed : skel) (intensity : R) (norm_nil denorm_nil : normop) (disc_nil : R -> R)
    (norm_prime denorm_prime : normop) (disc_prime : R -> R) (upside : bool) (batch_size : nat) : M (bool * skel * list (R * R * (R * R))) :=
  do fin_t <- lift_opt ValueError (hd_error (fst (denorm_nil [1] None)));
  do p <- ppp_start 1 [intensity; fin_t] batch_size;
  logged (dual_step fuel mp n norm_nil denorm_nil norm_prime denorm_prime)
    (fun _ v => dual_gap upside (disc_nil (fst v)) (disc_prime (snd v))) [intensity; fin_t] (S (length (pp_sizes p))) p seed.
(** the values of the path at time u under both parameters, from the same seed value *)
Definition dual_at (T c x0 x1 c' y0 y1 : R) (s : skel) (u : R) (v : R * R) : Prop :=
  exists z, at_time s (u / T) z /\ fst v = path_at c x0 x1 (u / T) z /\ snd v = path_at c' y0 y1 (u / T) z.
(** over the whole path and all seed values between the bounds, the difference the coin looks at is at most C *)
Definition dominated (c x0 x1 c' y0 y1 : R) (s : skel) (f g : R -> R) (up : bool) (C : R) : Prop :=
  forall u z, 0 <= u <= 1 -> low_z s <= z <= high_z s ->
    (if up then g (path_at c' y0 y1 u z) - f (path_at c x0 x1 u z) else f (path_at c x0 x1 u z) - g (path_at c' y0 y1 u z)) <= C.
(** the times of a grid: n equal intervals, or the given times *)
Definition grid_times (T : R) (grid : nat + list R) : list R := match grid with inl n => map (fun i => T * (INR i / INR n)) (seq 0 (S n)) | inr t => t end.
(** the lower bound that [bounds] gives on the band of the seed [s] for a path from x0 to x1 *)
Definition low_level (bounds : bounds_fun) (scale x0 x1 : R) (s : skel) : R :=
  snd (fst (bounds (low_z s * scale + Rmin x0 x1) (high_z s * scale + Rmax x0 x1))).
