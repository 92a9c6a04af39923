(** The Monte-Carlo objective of the M-step on paths that are already known: est_log_aug_lik and
    update_objective with the interpolation of skeletons left open. *)
From Coquelicot Require Import Hierarchy RInt.
From Coq Require Import Reals List.
From Verif Require Import Base Np Rng M_mjp M_hit M_path M_skel M_seed SpecSeed M_models M_inf M_sw M_adapt M_mcem SpecEst.
Import ListNotations.
Local Open Scope R_scope.

(** seed.interpolate_seed with another interpolation of skeletons *)
Definition interpolate_with (interp : skel -> list R -> M (skel * list R)) (norm denorm : normop) (seed : skel) (new_t : list R) : M (skel * list R) :=
  do r <- interp seed (fst (norm new_t None));
  do new_x <- values_of (denorm (fst (norm new_t None)) (Some (snd r)));
  ret (fst r, new_x).
(** est_log_aug_lik of ito and of switching *)
Definition ito_log_with (interp : skel -> list R -> M (skel * list R)) (reduce disc : list R -> R -> R) (log_lik : list R -> R) (t vt thi : list R) (z : partition) (supp_t : list (list R)) : M (R * partition) :=
  do rs <- map_m (fun p => let '(t_, z_, n) := p in interpolate_with interp (fst n) (snd n) z_ t_) (zip3 supp_t z (ito_normops reduce t vt thi));
  match rs with
  | [] => raise ValueError
  | _ => ret (log_lik thi + M_models.rsum (map (fun p => - fst p * np_mean (map (disc thi) (snd p))) (combine (np_diff t) (map snd rs))), map fst rs)
  end.
Definition sw_log_with (interp : skel -> list R -> M (skel * list R)) (vol : list (list R) -> nat -> R) (disc : list (list R) -> nat -> R -> R) (loglik : list (list R) -> anchorage -> option nat -> R * R)
    (thi : list (list R)) (z : partition) (h : anchorage) (supp_t : list (list R)) (restrict : option nat) : M (R * partition) :=
  do rs <- map_m (fun p => let '(t_, y0, z_, n) := p in
                    if selected restrict y0 then interpolate_with interp (fst n) (snd n) z_ t_ else ret (z_, [])) (zip4 supp_t (a_y h) z (sw_normops (vol thi) h));
  match rs with
  | [] => raise ValueError
  | _ => let st := map (fun p => let '(dt, y0, x_) := p in - dt * np_mean (map (disc thi y0) x_))
                     (filter (fun p => selected restrict (snd (fst p))) (zip3 (np_diff (a_t h)) (a_y h) (map snd rs))) in
         ret (fst (loglik thi h restrict) + M_models.rsum st, map fst rs)
  end.
(** update_objective *)
Definition ito_objective_with (interp : skel -> list R -> M (skel * list R)) (reduce disc : list R -> R -> R) (log_lik log_prior : list R -> R) (t vt : list R)
    (n_supports : nat) (omes : nat -> oracle) (thi : list R) (zz : list partition) : M (list R -> M (list R)) :=
  do supp_t <- map_m (supports n_supports) (np_diff t);
  do r <- lift (run_jobs 0 omes (map (fun z => ito_log_with interp reduce disc log_lik t vt thi z supp_t) zz));
  match r with
  | [] => raise ValueError
  | _ => ret (fun thi' => do l <- map_m (fun z => ito_log_with interp reduce disc log_lik t vt thi' z supp_t) (map snd r); ret (map (fun v => fst v + log_prior thi') l))
  end.

Definition sw_objective_with (interp : skel -> list R -> M (skel * list R)) (vol : list (list R) -> nat -> R) (disc : list (list R) -> nat -> R -> R) (loglik : list (list R) -> anchorage -> option nat -> R * R) (log_prior : list (list R) -> R)
    (n_supports : nat) (omes : nat -> oracle) (thi : list (list R)) (zz : list partition) (hh : list anchorage) : M (list (list R) -> nat -> M (list R)) :=
  do supp_t <- map_m (fun h => map_m (supports n_supports) (np_diff (a_t h))) hh;
  do r <- lift (run_jobs 0 omes (map (fun p => let '(z, h, t) := p in sw_log_with interp vol disc loglik thi z h t None) (zip3 zz hh supp_t)));
  match r with
  | [] => raise ValueError
  | _ => ret (fun thi' restrict =>
                do l <- map_m (fun p => let '(z, h, t) := p in sw_log_with interp vol disc loglik thi' z h t (Some restrict)) (zip3 (map snd r) hh supp_t);
                ret (map (fun v => fst v + log_prior thi') l))
  end.
(** an imputed path fits its anchorage: one seed per segment, times increase *)
Definition matches (z : partition) (h : anchorage) : Prop :=
  (0 < length z)%nat /\ length (a_t h) = S (length z) /\ length (a_y h) = S (length z) /\ length (a_v h) = S (length z) /\
  forall i, (i < length z)%nat -> nth i (a_t h) 0 < nth (S i) (a_t h) 0.

(** v is the integral of the discrepancy along the path over a segment of duration T > 0 *)
Definition integral_along (path : skel -> R -> R) (disc : R -> R) (s : skel) (T scale x0 x1 v : R) : Prop :=
  0 < T /\ is_RInt (fun u => disc (segment_path path s T scale x0 x1 u)) 0 T v.
(** how far the discrepancy is above its lower bound, which decides the variance of est_aug_lik:
    le and ue are the bounds of the discrepancy where the path runs, and r is the integral of
    (discrepancy - le)^2 / (ue - le) along the path *)
Definition spread (path : skel -> R -> R) (disc : R -> R) (bounds : bounds_fun) (s : skel) (T scale x0 x1 r : R) : Prop :=
  exists inf le ue q, bounds (low_z s * scale + Rmin x0 x1) (high_z s * scale + Rmax x0 x1) = (inf, le, Fin ue) /\
    is_RInt (fun u => (disc (segment_path path s T scale x0 x1 u) - le) ^ 2) 0 T q /\ r = q / (ue - le).
