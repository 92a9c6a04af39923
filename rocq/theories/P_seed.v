(** Property theorems C47, C48, C72 and the parts of C43, C45, C55 and C71 about seeds. *)
From Coq Require Import Reals List Bool Arith Lia Lra Psatz Sorted Permutation.
From Verif Require Import Base Np Rng L_rng M_hit SpecHit M_path M_skel SpecSkel L_skel7 M_seed SpecSeed L_seed L_seed2 L_seed3 L_seed4.
Import ListNotations.
Local Open Scope R_scope.

(** a seed with hit flags *)
Definition demo_seed : skel := mk_skel [0; 1/2; 1] [0; -1; 0] (-1) 2 1 (Some [false; true]).
Lemma demo_standard : standard demo_seed.
Proof.
  split; [|reflexivity]. constructor; cbn; auto; try lra.
  - repeat constructor; lra.
  - intros v [<-|[<-|[<-|[]]]]; lra.
  - intros h [= <-]. split; auto. intros [|[|i]] E; cbn in *; try discriminate; [|destruct i; discriminate]. lra.
Qed.
(** bounds of x^2 on an interval *)
Definition demo_bounds : bounds_fun := fun l u => (0, 0, Fin (Rmax (l * l) (u * u))).
Lemma demo_encloses : encloses demo_bounds (fun x => x * x).
Proof. intros l u H. cbn. intros x Hx. split; [nra|]. unfold Rmax. destruct (Rle_dec 0 x), (Rle_dec _ _); nra. Qed.

(** C48.  Both pairs of operators have the form used in the other theorems ... *)
Theorem C48_ito : forall T x0 x1, operators (ito_norm T x0 x1) (ito_denorm T x0 x1) T (sqrt T) x0 x1.
Proof. exact ito_operators. Qed.
Print Assumptions C48_ito.
Theorem C48_switching : forall vol T x0 x1, operators (sw_norm vol T x0 x1) (sw_denorm vol T x0 x1) T (sqrt T * vol) x0 x1.
Proof. exact sw_operators. Qed.
Print Assumptions C48_switching.
(** ... and are inverse to each other *)
Theorem C48_denorm_norm : forall norm denorm T c x0 x1, operators norm denorm T c x0 x1 -> 0 < T -> 0 < c ->
  forall t x, length x = length t -> let r := norm t (Some x) in denorm (fst r) (snd r) = (t, Some x).
Proof. exact denorm_norm. Qed.
Print Assumptions C48_denorm_norm.
Theorem C48_norm_denorm : forall norm denorm T c x0 x1, operators norm denorm T c x0 x1 -> 0 < T -> 0 < c ->
  forall s z, length z = length s -> let r := denorm s (Some z) in norm (fst r) (snd r) = (s, Some z).
Proof. exact norm_denorm. Qed.
Print Assumptions C48_norm_denorm.
Theorem C48_pinned : forall norm denorm T c x0 x1, operators norm denorm T c x0 x1 -> 0 < T -> 0 < c ->
  norm [0; T] (Some [x0; x1]) = ([0; 1], Some [0; 0]) /\ denorm [0; 1] (Some [0; 0]) = ([0; T], Some [x0; x1]).
Proof. exact pinned. Qed.
Print Assumptions C48_pinned.
Theorem C48_raw_inside : forall norm denorm T c x0 x1, operators norm denorm T c x0 x1 -> 0 < T -> forall fuel mp n lb ub, 0 < c ->
  elt lb (Fin (Rmin x0 x1)) -> elt (Fin (Rmax x0 x1)) ub -> (0 < n)%nat ->
  returns_if uniform_pos (sample_raw_seed fuel mp n lb ub norm denorm) (fun s => well_formed s /\ ends 1 0 0 s /\
    (k_tight s < k_loose s -> forall u z, 0 <= u <= 1 -> low_z s <= z <= high_z s -> inside lb ub (path_at c x0 x1 u z)) /\
    (forall l r, lb = Fin l -> ub = Fin r -> l + r = x0 + x1 -> forall u z, 0 <= u <= 1 -> low_z s <= z <= high_z s -> inside lb ub (path_at c x0 x1 u z))).
Proof. exact raw_seed_returns. Qed.
Print Assumptions C48_raw_inside.
(** a lower bound only, close to an end point: flipped seeds allow paths below it *)
Theorem C48_raw_outside_refuted : forall norm denorm T c x0 x1, operators norm denorm T c x0 x1 -> 0 < T -> forall fuel mp n l, 0 < c ->
  l < Rmin x0 x1 -> 2 * (Rmin x0 x1 - l) ^ 2 < ln 2 * c ^ 2 -> (0 < n)%nat ->
  returns_if uniform_pos (sample_raw_seed fuel mp n (Fin l) PosInf norm denorm) (fun s => k_loose s < k_tight s ->
    exists u z, 0 <= u <= 1 /\ low_z s < z <= high_z s /\ path_at c x0 x1 u z < l).
Proof. exact raw_seed_flipped. Qed.
Print Assumptions C48_raw_outside_refuted.
Example C48_example : operators (sw_norm 2 4 0 1) (sw_denorm 2 4 0 1) 4 (sqrt 4 * 2) 0 1 /\ 0 < sqrt 4 * 2 /\ inside (Fin (-1)) PosInf 0 /\ -1 < Rmin 0 1 /\ 2 * (Rmin 0 1 - -1) ^ 2 < ln 2 * (sqrt 4 * 2) ^ 2.
Proof.
  split; [apply sw_operators|]. replace 4 with (2 * 2) by ring. rewrite sqrt_square by lra. rewrite Rmin_left by lra. unfold inside; cbn [elt].
  assert (/ 2 < ln 2) by exact ln_lt_2. repeat split; auto; lra.
Qed.

(** C47 *)
Theorem C47_enclosed : forall norm denorm T c x0 x1, operators norm denorm T c x0 x1 -> 0 < T -> 0 < c -> forall bounds seed grid o k t le ue,
  fst (bound_disc_path norm denorm bounds seed grid o k) = Ok (t, le, ue) ->
  t = grid_times T grid /\ S (length le) = length t /\ length ue = length le /\
  forall i, (i < length le)%nat -> exists lx ux inf, bounds lx ux = (inf, nth i le 0, nth i ue PosInf) /\
    (exists u, between (nth i t 0) (nth (S i) t 0) u /\ path_at c x0 x1 (u / T) (low_z seed) = lx) /\
    (exists u, between (nth i t 0) (nth (S i) t 0) u /\ path_at c x0 x1 (u / T) (high_z seed) = ux) /\
    forall u z, between (nth i t 0) (nth (S i) t 0) u -> low_z seed <= z <= high_z seed -> lx <= path_at c x0 x1 (u / T) z <= ux.
Proof. exact disc_path_encloses. Qed.
Print Assumptions C47_enclosed.
Theorem C47_sound : forall norm denorm T c x0 x1, operators norm denorm T c x0 x1 -> 0 < T -> 0 < c -> forall bounds disc seed grid o k t le ue, encloses bounds disc ->
  fst (bound_disc_path norm denorm bounds seed grid o k) = Ok (t, le, ue) ->
  forall i u z, (i < length le)%nat -> between (nth i t 0) (nth (S i) t 0) u -> low_z seed <= z <= high_z seed ->
  nth i le 0 <= disc (path_at c x0 x1 (u / T) z) /\ ele (Fin (disc (path_at c x0 x1 (u / T) z))) (nth i ue PosInf).
Proof. exact disc_path_sound. Qed.
Print Assumptions C47_sound.
Theorem C47_total : forall norm denorm T c x0 x1, operators norm denorm T c x0 x1 -> 0 < T -> forall bounds seed grid o k,
  (2 <= length (grid_times T grid))%nat -> exists t le ue, bound_disc_path norm denorm bounds seed grid o k = (Ok (t, le, ue), k).
Proof. exact disc_path_total. Qed.
Print Assumptions C47_total.
Example C47_example : encloses demo_bounds (fun x => x * x) /\ (2 <= length (grid_times 4 (inl 3)))%nat /\ (2 <= length (grid_times 4 (inr [0; 1; 4]%R)))%nat.
Proof. split; [exact demo_encloses|]. cbn. lia. Qed.

(** C45 for seeds *)
Theorem C45_seed : forall norm denorm T c x0 x1, operators norm denorm T c x0 x1 -> 0 < T -> forall fuel mp n s new, standard s -> StronglySorted Rlt new ->
  returns_if anyo (interpolate_seed fuel mp n norm denorm s new) (fun r => standard (fst r) /\ extends s (fst r) /\
    Forall2 (seed_at T c x0 x1 (fst r)) new (snd r) /\ (forall u, In u (k_t (fst r)) <-> In u (k_t s) \/ In (u * T) new) /\
    (forall u, In u new -> 0 <= u <= T) /\ hits_after s (fst r) (map (fun u => u / T) new)).
Proof. exact seed_request. Qed.
Print Assumptions C45_seed.
Theorem C45_seed_unique : forall T c x0 x1 s u x y, well_formed s -> seed_at T c x0 x1 s u x -> seed_at T c x0 x1 s u y -> x = y.
Proof. exact seed_at_unique. Qed.
Print Assumptions C45_seed_unique.
Theorem C45_seed_kept : forall T c x0 x1 s s' u x, extends s s' -> seed_at T c x0 x1 s u x -> seed_at T c x0 x1 s' u x.
Proof. exact seed_at_extends. Qed.
Print Assumptions C45_seed_kept.
Theorem C45_seed_call : forall norm denorm T c x0 x1, operators norm denorm T c x0 x1 -> forall fuel mp n s ts o k,
  (exists u, In u ts /\ T < u) -> fst (seed_call fuel mp n norm denorm s ts o k) = Raise ValueError.
Proof. exact seed_call_outside. Qed.
Print Assumptions C45_seed_call.
Example C45_seed_example : standard demo_seed /\ StronglySorted Rlt [1; 2; 3] /\ seed_at 4 2 0 1 demo_seed 2 (- 3 / 2).
Proof.
  split; [exact demo_standard|]. split; [repeat constructor; lra|]. exists (-1). split; [|unfold path_at; lra].
  right. left. f_equal. lra.
Qed.

(** C55 for seeds *)
Theorem C55_seed_log : forall fuel mp n norm denorm s disc bd m o k,
  seed_poisson_coin fuel mp n norm denorm s disc bd m o k = (do r <- logged_seed_coin fuel mp n norm denorm s disc bd m; ret (fst r)) o k.
Proof. exact seed_coin_logged. Qed.
Print Assumptions C55_seed_log.
Theorem C55_seed_decision : forall norm denorm T c x0 x1, operators norm denorm T c x0 x1 -> 0 < T -> 0 < c ->
  forall fuel mp n s disc bounds m o k acc st s' inf le ue, standard s -> valid o -> generic o ->
  bounds (low_z s * c + Rmin x0 x1) (high_z s * c + Rmax x0 x1) = (inf, le, Fin ue) ->
  fst (seed_poisson_coin fuel mp n norm denorm s disc bounds m o k) = Ok (acc, st, s') ->
  exists log, fst (logged_seed_coin fuel mp n norm denorm s disc bounds m o k) = Ok (acc, st, s', log) /\ st = - T * le /\ standard s' /\ extends s s' /\
    Forall (fun q => let '(h, u, v) := q in 0 <= h /\ 0 < u < T /\ seed_at T c x0 x1 s' u (fst v) /\ snd v = le) log /\
    (acc = false <-> Exists (fun q => let '(h, u, v) := q in h < disc (fst v) - le) log) /\
    (acc = true -> length log = ora_n o k (DPoisson ((ue - le) * T))) /\
    (encloses bounds disc -> Forall (fun q => let '(h, u, v) := q in 0 <= disc (fst v) - le <= ue - le) log).
Proof. exact seed_coin_statement. Qed.
Print Assumptions C55_seed_decision.
(** an infinite upper bound rejects without drawing *)
Theorem C55_seed_infinite : forall norm denorm T c x0 x1, operators norm denorm T c x0 x1 -> forall fuel mp n s disc bounds m inf le ue o k,
  bounds (low_z s * c + Rmin x0 x1) (high_z s * c + Rmax x0 x1) = (inf, le, ue) -> is_fin ue = false ->
  seed_poisson_coin fuel mp n norm denorm s disc bounds m o k = (Ok (false, - T * le, s), k).
Proof. exact seed_coin_inf. Qed.
Print Assumptions C55_seed_infinite.
(** a discrepancy known to be constant makes the coin fail *)
Theorem C55_seed_flat_refuted : forall norm denorm T c x0 x1, operators norm denorm T c x0 x1 -> forall fuel mp n s disc bounds m inf le ue o k,
  bounds (low_z s * c + Rmin x0 x1) (high_z s * c + Rmax x0 x1) = (inf, le, Fin ue) -> ue <= le ->
  seed_poisson_coin fuel mp n norm denorm s disc bounds m o k = (Raise AssertionError, k).
Proof. exact seed_coin_flat. Qed.
Print Assumptions C55_seed_flat_refuted.
Theorem C55_seed_estimate : forall norm denorm T c x0 x1, operators norm denorm T c x0 x1 -> 0 < T -> forall fuel mp n s disc bounds o k r st s' inf le ue,
  standard s -> valid o -> generic o -> bounds (low_z s * c + Rmin x0 x1) (high_z s * c + Rmax x0 x1) = (inf, le, Fin ue) ->
  fst (seed_est_coin fuel mp n norm denorm s disc bounds o k) = Ok (r, st, s') ->
  exists us vs, let N := ora_n o k (DPoisson ((ue - le) * T)) in
    Permutation us (map (fun j => ora_r o j (DUniform 0 T)) (seq (S k) N)) /\ Forall2 (seed_at T c x0 x1 s') us vs /\
    le < ue /\ standard s' /\ extends s s' /\ st = - T * le /\
    r = Some (fold_right Rplus 0 (map (fun v => ln (ue - disc v)) vs) - INR N * ln (ue - le)).
Proof. exact seed_estimate_statement. Qed.
Print Assumptions C55_seed_estimate.
Example C55_seed_example : standard demo_seed /\ (exists o, valid o /\ generic o) /\ encloses demo_bounds (fun x => x * x) /\
  demo_bounds (low_z demo_seed * 2 + Rmin 0 1) (high_z demo_seed * 2 + Rmax 0 1) = (0, 0, Fin 25).
Proof.
  split; [exact demo_standard|]. split; [exact generic_exists|]. split; [exact demo_encloses|].
  unfold demo_bounds, low_z, high_z, demo_seed. cbn [k_loose k_tight]. repeat f_equal. rewrite (Rmin_right 2), (Rmin_left 0), (Rmax_left 2), (Rmax_right 0) by lra. rewrite Rmax_right; lra.
Qed.

(** C71 for seeds *)
Theorem C71_seed : forall norm denorm T c x0 x1, operators norm denorm T c x0 x1 -> 0 < T -> 0 < c -> forall fuel mp n lb ub disc bounds m,
  elt lb (Fin (Rmin x0 x1)) -> elt (Fin (Rmax x0 x1)) ub -> (0 < n)%nat ->
  returns_if generic (sample_seed_bridge fuel mp n m lb ub norm denorm disc bounds) (fun s => standard s /\ ends 1 0 0 s /\
    (k_tight s < k_loose s -> forall u x, seed_at T c x0 x1 s u x -> inside lb ub x)).
Proof. exact bridge_returns. Qed.
Print Assumptions C71_seed.
Example C71_seed_example : elt NegInf (Fin (Rmin 0 1)) /\ elt (Fin (Rmax 0 1)) PosInf.
Proof. split; exact I. Qed.

(** C72 *)
Theorem C72_decision : forall nn dn np dp T c x0 x1 c' y0 y1, operators nn dn T c x0 x1 -> operators np dp T c' y0 y1 -> 0 < T ->
  forall fuel mp n s C f g up m o k acc s', standard s -> valid o -> generic o ->
  fst (flip_dual_coin fuel mp n s C nn dn f np dp g up m o k) = Ok (acc, s') ->
  exists log, fst (logged_dual_coin fuel mp n s C nn dn f np dp g up m o k) = Ok (acc, s', log) /\ 0 < C /\ standard s' /\ extends s s' /\
    Forall (fun q => let '(h, u, v) := q in 0 <= h /\ 0 < u < T /\ dual_at T c x0 x1 c' y0 y1 s' u v) log /\
    (acc = false <-> Exists (fun q => let '(h, u, v) := q in h < if up then g (snd v) - f (fst v) else f (fst v) - g (snd v)) log) /\
    (acc = true -> length log = ora_n o k (DPoisson (C * T))).
Proof. exact dual_statement. Qed.
Print Assumptions C72_decision.
(** if the intensity dominates, the coin is the one without the assertion *)
Theorem C72_assertion : forall nn dn np dp T c x0 x1 c' y0 y1, operators nn dn T c x0 x1 -> operators np dp T c' y0 y1 -> 0 < T ->
  forall fuel mp n s C f g up m o k, standard s -> dominated c x0 x1 c' y0 y1 s f g up C -> valid o -> generic o ->
  flip_dual_coin fuel mp n s C nn dn f np dp g up m o k = (do r <- logged_dual_coin fuel mp n s C nn dn f np dp g up m; ret (fst r)) o k.
Proof. exact dual_never_asserts. Qed.
Print Assumptions C72_assertion.
(** every round of the coin forgets the hit flags, because it asks twice for the same times *)
Theorem C43_dual_refuted : forall nn dn np dp T c x0 x1 c' y0 y1, operators nn dn T c x0 x1 -> operators np dp T c' y0 y1 -> 0 < T ->
  forall fuel mp n s new, standard s -> StronglySorted Rlt new -> new <> [] ->
  returns_if generic (dual_step fuel mp n nn dn np dp s new) (fun q => k_hit_i (fst q) = None).
Proof. exact dual_step_flags. Qed.
Print Assumptions C43_dual_refuted.
Example C72_example : dominated 2 0 1 2 0 1 demo_seed (fun x => x) (fun x => x + 1) true 1 /\ k_hit_i demo_seed = Some [false; true].
Proof. split; [|reflexivity]. intros u z _ _. lra. Qed.
