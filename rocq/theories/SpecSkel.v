(** What a skeleton of a path must satisfy, and how two skeletons may differ. *)
From Coq Require Import Reals List Sorted.
From Verif Require Import Base Np Rng M_mjp M_hit M_path M_skel.
Import ListNotations.
Local Open Scope R_scope.

(** the path through the points (t_i, x_i) takes the value v at s *)
Definition stores (t x : list R) (s v : R) : Prop := In (s, v) (combine t x).
(** strictly increasing times, one value each, at least two *)
Definition path_points (t x : list R) : Prop := length x = length t /\ StronglySorted Rlt t /\ (2 <= length t)%nat /\ 0 <= nth 0 t 0.
(** an unset flag means that both ends of the segment are below the level *)
Definition flags_ok (K : R) (t x : list R) (h : list bool) : Prop :=
  S (length h) = length t /\ forall i, nth_error h i = Some false -> nth i x 0 < K /\ nth (S i) x 0 < K.
(** the flags of the finer path [t'] say the same as the flags of the coarser [t]: a segment is
    flagged iff one of its parts is *)
Definition flags_refine (t : list R) (h : list bool) (t' : list R) (h' : list bool) : Prop :=
  (forall j, nth_error h j = Some true -> exists i, nth_error h' i = Some true /\ nth j t 0 <= nth i t' 0 /\ nth (S i) t' 0 <= nth (S j) t 0) /\
  (forall i, nth_error h' i = Some true -> exists j, nth_error h j = Some true /\ nth j t 0 <= nth i t' 0 /\ nth (S i) t' 0 <= nth (S j) t 0).
(** [t'] [x'] refines [t] [x] by the times in [new], [pos] are the positions of [new] *)
Definition filled (t x new t' x' : list R) (pos : list nat) : Prop :=
  path_points t' x' /\ (forall s, In s t' <-> In s t \/ In s new) /\
  (forall s v, stores t x s v -> stores t' x' s v) /\
  map (fun i => nth i t' 0) pos = new /\ Forall (fun i => (i < length t')%nat) pos.

Record well_formed (s : skel) : Prop := {
  wf_len : length (k_x s) = length (k_t s);
  wf_sorted : StronglySorted Rlt (k_t s);
  wf_start : nth 0 (k_t s) 1 = 0;
  wf_two : (2 <= length (k_t s))%nat;
  wf_sides : k_tight s < k_hit s < k_loose s \/ k_loose s < k_hit s < k_tight s;
  wf_values : forall v, In v (k_x s) -> (k_tight s < k_loose s -> k_tight s <= v < k_loose s) /\ (k_loose s < k_tight s -> k_loose s < v <= k_tight s);
  wf_hits : forall h, k_hit_i s = Some h -> S (length h) = length (k_t s) /\
     forall i, nth_error h i = Some false ->
       (k_tight s < k_loose s -> nth i (k_x s) 0 < k_hit s /\ nth (S i) (k_x s) 0 < k_hit s) /\
       (k_loose s < k_tight s -> k_hit s < nth i (k_x s) 0 /\ k_hit s < nth (S i) (k_x s) 0) }.
Definition horizon (s : skel) : R := last (k_t s) 0.
(** [s'] is [s] with more points *)
Definition extends (s s' : skel) : Prop :=
  k_tight s' = k_tight s /\ k_loose s' = k_loose s /\ k_hit s' = k_hit s /\ horizon s' = horizon s /\
  nth 0 (k_x s') 0 = nth 0 (k_x s) 0 /\ last (k_x s') 0 = last (k_x s) 0 /\
  forall u v, stores (k_t s) (k_x s) u v -> stores (k_t s') (k_x s') u v.
(** the skeleton's path takes the value v at u *)
Definition at_time (s : skel) (u v : R) : Prop := stores (k_t s) (k_x s) u v.
(** the flags passed to fill_wiener_outer, and those it returns; [K] is the hitting level *)
Definition hits_given (t x : list R) (hit : option R) (hit_i : option (list bool)) : Prop :=
  match hit_i with None => True | Some h => exists K, hit = Some K /\ flags_ok K t x h end.
Definition hits_kept (t : list R) (hit : option R) (hit_i : option (list bool)) (t' x' : list R) (h' : option (list bool)) : Prop :=
  match hit_i with
  | None => h' = None
  | Some h => exists K h2, hit = Some K /\ h' = Some h2 /\ flags_ok K t' x' h2 /\ flags_refine t h t' h2
  end.
(** hit flags before and after interpolation at [new] *)
Definition hits_after (s s' : skel) (new : list R) : Prop :=
  match k_hit_i s with
  | None => k_hit_i s' = None
  | Some h => (forall u, In u new -> In u (k_t s)) /\ (new = [] /\ k_hit_i s' = Some h \/ new <> [] /\ k_hit_i s' = None) \/
              (exists u, In u new /\ ~ In u (k_t s)) /\ exists h', k_hit_i s' = Some h' /\ flags_refine (k_t s) h (k_t s') h'
  end.
(** the result of an interpolation at [new] *)
Definition interpolated (s : skel) (new : list R) (r : skel * list R) : Prop :=
  well_formed (fst r) /\ extends s (fst r) /\ (forall u, In u (k_t (fst r)) <-> In u (k_t s) \/ In u new) /\
  Forall2 (at_time (fst r)) new (snd r) /\ (forall u, In u new -> 0 <= u <= horizon s) /\ hits_after s (fst r) new.
(** duration and end points of the path *)
Definition ends (t a b : R) (s : skel) : Prop := horizon s = t /\ nth 0 (k_x s) 0 = a /\ last (k_x s) 0 = b.
(** a sequence of requests, one after the other *)
Fixpoint ask (fuel mp max_props : nat) (s : skel) (reqs : list (list R)) : M (skel * list (list R)) :=
  match reqs with
  | [] => Rng.ret (s, [])
  | r :: rs => Rng.bind (interpolate_skeleton fuel mp max_props s r) (fun q =>
               Rng.bind (ask fuel mp max_props (fst q) rs) (fun p => Rng.ret (fst p, snd q :: snd p)))
  end.

(** ** Poisson coins with a log

    The loop over Poisson batches shared by the coins of skeleton.py and seed.py, written once
    more, so that the points used are returned too: [step] interpolates a path at the times
    of a batch, [excess u v] is what the height of a point at time u with value v is compared
    with.  The log lists (height, time, value). *)
Section Logged.
Context {St V : Type} (step : St -> list R -> M (St * list V)) (excess : R -> V -> R) (bounds : list R).
Fixpoint logged (n : nat) (p : ppp_state) (s : St) : M (bool * St * list (R * R * V)) :=
  match n with
  | O => nofuel
  | S n' =>
      do r <- ppp_next bounds p;
      match r with
      | None => ret (true, s, [])
      | Some (batch, p') =>
          let rows := col1_sort batch in
          do q <- step s (map (fun r => nth 1 r 0) rows);
          let pts := combine (map (fun r => (nth 0 r 0, nth 1 r 0)) rows) (snd q) in
          if existsb (fun c => Rltb (fst (fst c)) (excess (snd (fst c)) (snd c))) pts
          then ret (false, fst q, pts)
          else do z <- logged n' p' (fst q); ret (fst z, pts ++ snd z)
      end
  end.
End Logged.
(** flip_poisson_coin of skeleton.py with the log *)
Definition logged_coin (fuel mp max_props : nat) (s : skel) (disc : R -> R) (bounds_disc : R -> R -> R * R * R) (batch_size : nat) : M (bool * skel * list (R * R * R)) :=
  let '(cent_phi, le_phi, ue_phi) := bounds_disc (Rmin (k_loose s) (k_tight s)) (Rmax (k_loose s) (k_tight s)) in
  do fin_t <- lift_opt IndexError (last_opt (k_t s));
  let bounds := [ue_phi - cent_phi; fin_t] in
  do p <- ppp_start 1 bounds batch_size;
  logged (interpolate_skeleton fuel mp max_props) (fun u v => disc v - cent_phi) bounds (S (length (pp_sizes p))) p s.
