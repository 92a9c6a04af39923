(** Estimates of augmented likelihoods on paths that are already known. *)
From Coquelicot Require Import Hierarchy RInt.
From Coq Require Import Reals List.
From Verif Require Import Base Np Rng M_mjp M_hit M_path M_skel M_seed SpecSeed.
Import ListNotations.
Local Open Scope R_scope.

(** exp of a number that is possibly -inf ([None]) *)
Definition exp_of (x : option R) : R := match x with Some v => exp v | None => 0 end.

(** seed.est_poisson_coin with another interpolation of skeletons *)
Definition seed_est_with (interp : skel -> list R -> M (skel * list R)) (norm denorm : normop) (seed : skel) (disc : R -> R) (bounds : bounds_fun) : M (option R * R * skel) :=
  do r <- bound_disc_path norm denorm bounds seed (inl 1%nat);
  let '(t, le_phi, ue_phi) := r in
  let st := neg_dot (np_diff t) le_phi in
  match all_some (gaps ue_phi le_phi) with
  | None => ret (None, st, seed)
  | Some g =>
      do intensity <- lift (arr_max g);
      do fin_t <- lift_opt ValueError (hd_error (fst (denorm [1] None)));
      do pts <- sample_ppp intensity [fin_t];
      let new_t := map (fun r => nth 0 r 0) pts in
      match new_t, ue_phi with
      | [], _ => ret (Some 0, st, seed)
      | _, [Fin ue] =>
          do q <- (do r <- interp seed (fst (norm new_t None)); do new_x <- values_of (denorm (fst (norm new_t None)) (Some (snd r))); ret (fst r, new_x));
          ret (Some (fold_right Rplus 0 (map (fun v => ln (ue - disc v)) (snd q)) - INR (length (snd q)) * ln intensity), st, fst q)
      | _, _ => raise ValueError
      end
  end.
(** [path s] is the normalised path that the seed [s] stands for; reading it off changes nothing *)
Definition pinned (path : skel -> R -> R) (s : skel) (u : list R) : M (skel * list R) := ret (s, map (path s) u).
(** the path of the seed over a segment of duration T *)
Definition segment_path (path : skel -> R -> R) (s : skel) (T scale x0 x1 u : R) : R := path_at scale x0 x1 (u / T) (path s (u / T)).
(** the discrepancy has finite bounds le < ue where the path runs, stays below ue on it, and v is its
    integral *)
Definition estimable (path : skel -> R -> R) (disc : R -> R) (bounds : bounds_fun) (s : skel) (T scale x0 x1 v : R) : Prop :=
  0 < T /\ is_RInt (fun u => disc (segment_path path s T scale x0 x1 u)) 0 T v /\
  exists inf le ue, bounds (low_z s * scale + Rmin x0 x1) (high_z s * scale + Rmax x0 x1) = (inf, le, Fin ue) /\ le < ue /\
    forall u, 0 <= u <= T -> disc (segment_path path s T scale x0 x1 u) < ue.

(** all new times lie strictly between t[j] and t[j + 1] *)
Definition in_gap (t : list R) (j : nat) (new_t : list R) : Prop := (S j < length t)%nat /\ Forall (fun u => nth j t 0 < u < nth (S j) t 0) new_t.

(** a point between two arrays of bounds *)
Definition in_box (lb ub : list ext) (x : list R) : Prop := Forall2 (fun v p => ele (fst p) (Fin v) /\ ele (Fin v) (snd p)) x (combine lb ub).
(** some coordinate equals one of its bounds *)
Definition touches (lb ub : list ext) (x : list R) : Prop := exists i v, nth_error x i = Some v /\ (nth_error lb i = Some (Fin v) \/ nth_error ub i = Some (Fin v)).
(** rows' is rows with row k replaced by x *)
Definition replaces (rows : list (list R)) (k : nat) (x : list R) (rows' : list (list R)) : Prop :=
  length rows' = length rows /\ nth_error rows' k = Some x /\ forall j, j <> k -> nth_error rows' j = nth_error rows j.
