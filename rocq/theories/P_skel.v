(** Property theorems C42 to C46, C55 and C71. *)
From Coq Require Import Reals List Bool Arith Lia Lra Psatz Sorted Permutation.
From Verif Require Import Base Np Rng L_rng M_hit SpecHit M_path M_skel SpecPath SpecSkel L_sde2 L_sde3 L_skel2 L_skel3 L_skel4 L_skel5 L_skel6 L_skel7 SpecCan L_can4.
Import ListNotations.
Local Open Scope R_scope.

(** a skeleton with hit flags, and the same one upside down *)
Definition demo : skel := mk_skel [0; 1; 2] [1; 0; 1] 0 3 2 (Some [false; true]).
Definition demo_flip : skel := mk_skel [0; 1; 2] [1; 2; 1] 2 (-1) 0 (Some [true; false]).
Lemma demo_wf : well_formed demo.
Proof.
  constructor; cbn; auto; try lra.
  - repeat constructor; lra.
  - intros v [<-|[<-|[<-|[]]]]; lra.
  - intros h [= <-]. split; auto. intros [|[|i]] E; cbn in *; try discriminate; [|destruct i; discriminate]. lra.
Qed.
Lemma demo_flip_wf : well_formed demo_flip.
Proof.
  constructor; cbn; auto; try lra.
  - repeat constructor; lra.
  - intros v [<-|[<-|[<-|[]]]]; lra.
  - intros h [= <-]. split; auto. intros [|[|i]] E; cbn in *; try discriminate; [|destruct i; discriminate]. lra.
Qed.

(** C42 *)
Theorem C42_fill : forall fuel mp n t x new min_x ue hit hit_i, path_points t x -> StronglySorted Rlt new -> hits_given t x hit hit_i ->
  returns_if anyo (fill_wiener_outer fuel mp n t x new min_x ue hit hit_i) (fun r => let '(t', x', pos, h') := r in
    filled t x new t' x' pos /\ (forall v, In v x' -> min_x <= v /\ below ue v) /\ (forall s, In s new -> nth 0 t 0 <= s <= last t 0) /\
    ((forall s, In s new -> In s t) /\ t' = t /\ x' = x /\ h' = None \/ (exists s, In s new /\ ~ In s t) /\ hits_kept t hit hit_i t' x' h')).
Proof. exact outer_returns. Qed.
Print Assumptions C42_fill.
Example C42_example : path_points [0; 1; 2] [1; 0; 1] /\ StronglySorted Rlt [1/2; 1] /\ hits_given [0; 1; 2] [1; 0; 1] (Some 2) (Some [false; true]).
Proof.
  split; [|split; [repeat constructor; lra|]].
  - repeat split; cbn; auto; try lra. repeat constructor; lra.
  - exists 2. split; auto. split; auto. intros [|[|i]] E; cbn in *; try discriminate; [|destruct i; discriminate]. lra.
Qed.

(** C43.  The flags survive a request with a new time ... *)
Theorem C43_kept : forall fuel mp n s new h, well_formed s -> StronglySorted Rlt new -> k_hit_i s = Some h -> (exists u, In u new /\ ~ In u (k_t s)) ->
  returns (interpolate_skeleton fuel mp n s new) (fun r => exists h', k_hit_i (fst r) = Some h' /\ flags_refine (k_t s) h (k_t (fst r)) h').
Proof. exact flags_kept. Qed.
Print Assumptions C43_kept.
(** ... and are lost in every request for stored times *)
Theorem C43_lost_refuted : forall fuel mp n s new o k, well_formed s -> StronglySorted Rlt new -> new <> [] -> (forall u, In u new -> In u (k_t s)) ->
  exists vs, interpolate_skeleton fuel mp n s new o k = (Ok (mk_skel (k_t s) (k_x s) (k_tight s) (k_loose s) (k_hit s) None, vs), k) /\ Forall2 (at_time s) new vs.
Proof. exact stored_request. Qed.
Print Assumptions C43_lost_refuted.
Example C43_example : well_formed demo /\ k_hit_i demo = Some [false; true] /\ well_formed demo_flip /\ In 1 (k_t demo) /\ ~ In (1/2) (k_t demo).
Proof. split; [exact demo_wf|]. split; [reflexivity|]. split; [exact demo_flip_wf|]. split; [cbn; auto|]. cbn. intros [E|[E|[E|[]]]]; lra. Qed.

(** C44 *)
Theorem C44_flip : forall s, well_formed s -> exists s', flip_skeleton s = Ok s' /\ flip_skeleton s' = Ok s /\ well_formed s' /\ horizon s' = horizon s /\
  nth 0 (k_x s') 0 = nth 0 (k_x s) 0 /\ last (k_x s') 0 = last (k_x s) 0 /\
  (let c := nth 0 (k_x s) 0 + last (k_x s) 0 in
   k_tight s + k_tight s' = c /\ k_loose s + k_loose s' = c /\ k_hit s + k_hit s' = c /\
   (forall u v, at_time s u v <-> at_time s' (horizon s - u) (c - v))) /\
  (k_tight s < k_loose s <-> k_loose s' < k_tight s') /\
  match k_hit_i s with None => k_hit_i s' = None | Some h => k_hit_i s' = Some (rev h) end.
Proof. exact flip_statement. Qed.
Print Assumptions C44_flip.
Example C44_example : well_formed demo.
Proof. exact demo_wf. Qed.

(** C45 *)
Theorem C45_one_request : forall fuel mp n s new, well_formed s -> StronglySorted Rlt new ->
  returns_if anyo (interpolate_skeleton fuel mp n s new) (interpolated s new).
Proof. exact interpolate_returns. Qed.
Print Assumptions C45_one_request.
Theorem C45_history : forall fuel mp n reqs s, well_formed s -> Forall (StronglySorted Rlt) reqs ->
  returns_if anyo (ask fuel mp n s reqs) (fun r => well_formed (fst r) /\ extends s (fst r) /\ Forall2 (Forall2 (at_time (fst r))) reqs (snd r) /\
    Forall (Forall (fun u => 0 <= u <= horizon s)) reqs).
Proof. exact ask_returns. Qed.
Print Assumptions C45_history.
(** the value at a time is unique: asking again returns the same value *)
Theorem C45_unique : forall s u v w, well_formed s -> at_time s u v -> at_time s u w -> v = w.
Proof. exact value_unique. Qed.
Print Assumptions C45_unique.
Theorem C45_bounds : forall s u v, well_formed s -> at_time s u v -> 0 <= u <= horizon s /\ Rmin (k_loose s) (k_tight s) <= v <= Rmax (k_loose s) (k_tight s).
Proof. exact value_bounds. Qed.
Print Assumptions C45_bounds.
(** and a request outside the duration raises *)
Theorem C45_call : forall fuel mp n s ts, well_formed s -> (exists u, In u ts /\ horizon s < u) -> forall o k, fst (skel_call fuel mp n s ts o k) = Raise ValueError.
Proof. exact call_outside. Qed.
Print Assumptions C45_call.
Example C45_example : well_formed demo /\ Forall (StronglySorted Rlt) [[1/2; 3/2]; [1/4; 1/2]].
Proof. split; [exact demo_wf|]. repeat constructor; lra. Qed.

(** C46 *)
Theorem C46_raw : forall fuel mp n t a b lb ub, 0 < t -> elt lb (Fin (Rmin a b)) -> elt (Fin (Rmax a b)) ub -> (0 < n)%nat ->
  holds_if uniform_pos (sample_raw_skeleton fuel mp n t a b lb ub) (outcome (fun s => well_formed s /\ ends t a b s /\
     exists l le ue, (1 <= l)%nat /\ compute_edges l t a b lb ub = Ok (Fin le, Fin ue) /\ elt lb (Fin le) /\ elt (Fin ue) ub /\
       ((le < k_tight s < Rmin a b /\ k_loose s = ue) \/ (le < a + b - k_tight s < Rmin a b /\ k_loose s = a + b - ue))) (fun e => e = BudgetConstraintError)).
Proof. exact raw_bounds. Qed.
Print Assumptions C46_raw.
Theorem C46_within : forall fuel mp n t a b lb ub, 0 < t -> elt lb (Fin (Rmin a b)) -> elt (Fin (Rmax a b)) ub -> (0 < n)%nat ->
  returns_if uniform_pos (sample_raw_skeleton fuel mp n t a b lb ub) (fun s => well_formed s /\ ends t a b s /\
    (k_tight s < k_loose s -> elt lb (Fin (k_tight s)) /\ elt (Fin (k_loose s)) ub) /\
    (forall l u, lb = Fin l -> ub = Fin u -> l + u = a + b -> l < k_tight s < u /\ l < k_loose s < u)).
Proof. exact raw_within. Qed.
Print Assumptions C46_within.
(** with a lower bound only, if the bridge reaches it with probability above 1/2, every
    flipped skeleton violates it *)
Theorem C46_one_sided_refuted : forall fuel mp n t a b l, 0 < t -> l < Rmin a b -> 1 / 2 < reach t a b (Fin l) -> (0 < n)%nat ->
  returns_if uniform_pos (sample_raw_skeleton fuel mp n t a b (Fin l) PosInf) (fun s => k_loose s < k_tight s -> k_loose s < l).
Proof. exact raw_one_sided. Qed.
Print Assumptions C46_one_sided_refuted.
(** and there are draws that give such a skeleton *)
Theorem C46_one_sided_reached : forall mp n t a b l, (0 < mp)%nat -> 0 < t -> l < Rmin a b -> 1 / 2 < reach t a b (Fin l) -> (0 < n)%nat ->
  feasible (fun fuel => sample_raw_skeleton fuel mp n t a b (Fin l) PosInf) (fun s => well_formed s /\ k_loose s < l).
Proof. exact raw_reaches. Qed.
Print Assumptions C46_one_sided_reached.
Example C46_example : elt (Fin 0) (Fin (Rmin 1 1)) /\ 1 / 2 < reach 8 1 1 (Fin 0).
Proof. exact reach_demo. Qed.

(** C55, for skeletons.  [logged_coin] is flip_poisson_coin returning also the points used. *)
Theorem C55_log : forall fuel mp n s disc bd m o k, flip_poisson_coin fuel mp n s disc bd m o k = (do r <- logged_coin fuel mp n s disc bd m; ret (fst r)) o k.
Proof. exact coin_logged. Qed.
Print Assumptions C55_log.
Theorem C55_decision : forall fuel mp n s disc bd m o k acc s' cent le ue, well_formed s -> valid o -> generic o ->
  bd (Rmin (k_loose s) (k_tight s)) (Rmax (k_loose s) (k_tight s)) = (cent, le, ue) ->
  fst (flip_poisson_coin fuel mp n s disc bd m o k) = Ok (acc, s') ->
  exists log, fst (logged_coin fuel mp n s disc bd m o k) = Ok (acc, s', log) /\ well_formed s' /\ extends s s' /\
    Forall (fun c => let '(h, u, v) := c in 0 <= h /\ 0 < u < horizon s /\ at_time s' u v) log /\
    (acc = false <-> Exists (fun c => let '(h, u, v) := c in h < disc v - cent) log) /\
    (acc = true -> length log = ora_n o k (DPoisson ((ue - cent) * horizon s))) /\
    ((forall x, Rmin (k_loose s) (k_tight s) <= x <= Rmax (k_loose s) (k_tight s) -> cent <= disc x <= ue) ->
     Forall (fun c => let '(h, u, v) := c in 0 <= disc v - cent <= ue - cent) log).
Proof. exact coin_statement. Qed.
Print Assumptions C55_decision.
Theorem C55_estimate : forall fuel mp n s disc bd o k r s' cent le ue, well_formed s -> valid o -> generic o ->
  bd (Rmin (k_loose s) (k_tight s)) (Rmax (k_loose s) (k_tight s)) = (cent, le, ue) ->
  fst (est_poisson_coin fuel mp n s disc bd o k) = Ok (r, s') ->
  exists us vs, let N := ora_n o k (DPoisson ((ue - le) * horizon s)) in
    Permutation us (map (fun j => ora_r o j (DUniform 0 (horizon s))) (seq (S k) N)) /\ Forall2 (at_time s') us vs /\
    le < ue /\ well_formed s' /\ extends s s' /\
    r = fold_right Rplus 0 (map (fun v => ln (ue - disc v)) vs) - INR N * ln (ue - le) + (cent - le) * horizon s.
Proof. exact estimate_statement. Qed.
Print Assumptions C55_estimate.
Example C55_example : well_formed demo /\ exists o, valid o /\ generic o.
Proof. split; [exact demo_wf|]. exact generic_exists. Qed.

(** C71 *)
Theorem C71_sampler : forall fuel mp n m T a lb ub endpoint disc bd (P : R -> Prop), 0 < T -> (0 < n)%nat ->
  (forall b, P b -> elt lb (Fin (Rmin a b)) /\ elt (Fin (Rmax a b)) ub) -> returns_if generic endpoint P ->
  returns_if generic (sample_skeleton fuel mp n m T a lb ub endpoint disc bd) (fun s => well_formed s /\ exists b, P b /\ ends T a b s).
Proof. exact sampler_returns. Qed.
Print Assumptions C71_sampler.
Example C71_example : returns_if generic (ret 2) (fun b => b = 2) /\ elt (Fin 0) (Fin (Rmin 1 2)) /\ elt (Fin (Rmax 1 2)) PosInf.
Proof. split; [apply returns_ret; auto|]. split; cbn; auto. rewrite Rmin_left; lra. Qed.
