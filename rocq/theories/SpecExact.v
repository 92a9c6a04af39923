(** The bridge update of the Ito chain with the interpolation of seeds left open, and what is
    asked of a path that is already known. *)
From Coquelicot Require Import Hierarchy RInt Continuity.
From Coq Require Import Reals List Bool Arith ZArith.
From Verif Require Import Base Np Rng M_mjp M_hit M_path M_skel M_seed SpecSeed M_bf M_models M_sw M_mcem M_ito SpecLaw SpecEst.
Import ListNotations.
Local Open Scope R_scope.

Section With.
Context (interp : skel -> list R -> M (skel * list R)).
(** seed.interpolate_seed: ctbayes/ea3lib/seed.py lines 209-227 *)
Definition interp_seed_with (norm denorm : normop) (seed : skel) (new_t : list R) : M (skel * list R) :=
  let new_s := fst (norm new_t None) in
  do r <- interp seed new_s;
  do new_x <- values_of (denorm new_s (Some (snd r)));
  ret (fst r, new_x).
(** the loop of seed.flip_poisson_coin: lines 109-115 *)
Fixpoint seed_loop_with (n : nat) (norm denorm : normop) (disc : R -> R) (bounds : list R) (t le_phi : list R) (p : ppp_state) (s : skel) : M (bool * skel) :=
  match n with
  | O => nofuel
  | S n' =>
      do r <- ppp_next bounds p;
      match r with
      | None => ret (true, s)
      | Some (batch, p') =>
          let rows := col1_sort batch in
          let new_t := map (fun r => nth 1 r 0) rows in
          let crit := map (fun r => nth 0 r 0) rows in
          do q <- interp_seed_with norm denorm s new_t;
          do low <- map_m (fun u => lift_opt IndexError (level_at t le_phi u)) new_t;
          if existsb (fun c => Rltb (snd c) (disc (fst (fst c)) - snd (fst c))) (combine (combine (snd q) low) crit)
          then ret (false, fst q)
          else seed_loop_with n' norm denorm disc bounds t le_phi p' (fst q)
      end
  end.
(** seed.flip_poisson_coin: lines 83-115 *)
Definition seed_coin_with (norm denorm : normop) (seed : skel) (disc : R -> R) (bounds : bounds_fun) (batch_size : nat) : M (bool * R * skel) :=
  do r <- bound_disc_path norm denorm bounds seed (inl 1%nat);
  let '(t, le_phi, ue_phi) := r in
  let st := neg_dot (np_diff t) le_phi in
  match all_some (gaps ue_phi le_phi) with
  | None => ret (false, st, seed)
  | Some g =>
      do intensity <- lift (arr_max g);
      do fin_t <- lift_opt ValueError (hd_error (fst (denorm [1] None)));
      do p <- ppp_start 1 [intensity; fin_t] batch_size;
      do z <- seed_loop_with (S (length (pp_sizes p))) norm denorm disc [intensity; fin_t] t le_phi p seed;
      ret (fst z, st, snd z)
  end.
(** ctbayes/ito/mcmc.py lines 153-159 and 129-143 *)
Definition flip_coins_with (reduce disc : list R -> R -> R) (bounds : list R -> bounds_fun) (batch : nat) (thi : list R) (z : partition) (t vt : list R) : M (bool * partition) :=
  do rs <- map_m (fun p => do r <- seed_coin_with (fst (snd p)) (snd (snd p)) (fst p) (disc thi) (bounds thi) batch;
                           ret (fst (fst r), snd r)) (combine z (ito_normops reduce t vt thi));
  collect_coins rs.
Definition bridge_with (reduce disc : list R -> R -> R) (bounds : list R -> bounds_fun) (batch : nat) (pr_portkey : R) (max_flips : nat)
  (i : nat) (thi : list R) (z_nil z_prime : skel) (t vt : list R) : M skel :=
  do ts <- lift_opt IndexError (sub_t t i);
  let vs := sub_v vt i in
  let flip (first : bool) (s : skel * skel) : M ((bool * skel) * (skel * skel)) :=
    if first then do r <- flip_coins_with reduce disc bounds batch thi [fst s] ts vs; do q <- only (snd r); ret ((fst r, q), (q, snd s))
    else do r <- flip_coins_with reduce disc bounds batch thi [snd s] ts vs; do q <- only (snd r); ret ((fst r, q), (fst s, q)) in
  do w_nil <- eval_sde_weight reduce bounds thi [z_nil] ts vs;
  do w_prime <- eval_sde_weight reduce bounds thi [z_prime] ts vs;
  do r <- sample_twocoin flip w_prime w_nil pr_portkey z_nil max_flips (z_prime, z_nil);
  ret (snd (fst r)).
End With.

(** the probability that a Poisson number with mean lam exceeds n *)
Definition poisson_tail (lam : R) (n : nat) : R := 1 - exp (- lam) * fold_right Rplus 0 (map (fun k => lam ^ k / INR (fact k)) (seq 0 (S n))).
(** f stays between 0 and b on (0, T), has the integral v, and the share of the time it spends
    at or below a level h >= 0 is a continuous function of h *)
Definition regular (f : R -> R) (T b v : R) : Prop :=
  0 < T /\ 0 < b /\ (forall u, 0 <= u <= T -> 0 <= f u <= b) /\ is_RInt f 0 T v /\
  exists G : R -> R, (forall h, continuous G h) /\ forall h, 0 <= h -> is_RInt (fun u => ind (negb (Rltb h (f u)))) 0 T (T * G h).
(** the discrepancy has bounds le < ue where the path of the seed runs, respects them, and v is
    its integral along the path *)
Definition exact_on (path : skel -> R -> R) (disc : R -> R) (bounds : bounds_fun) (s : skel) (T scale x0 x1 v le ue : R) : Prop :=
  (exists inf, bounds (low_z s * scale + Rmin x0 x1) (high_z s * scale + Rmax x0 x1) = (inf, le, Fin ue)) /\
  regular (fun u => disc (segment_path path s T scale x0 x1 u) - le) T (ue - le) (v - T * le).
