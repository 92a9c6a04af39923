(** Lemmas: raw seeds, interpolation of seeds, bound_disc_path. *)
From Coq Require Import Reals List Bool Arith ZArith Lia Lra Psatz Sorted Permutation.
From Verif Require Import Base Np Rng L_list L_rng L_prop M_mjp M_hit SpecHit M_path SpecPath L_sde2 L_sde3 M_skel SpecSkel L_skel2 L_skel3 L_skel4 L_skel5 L_skel6 L_skel7 M_seed SpecSeed L_seed.
Import ListNotations.
Local Open Scope R_scope.
Section Ops.
Context (norm denorm : normop) (T scale x0 x1 : R) (OP : operators norm denorm T scale x0 x1) (HT : 0 < T).

Lemma raw_seed_run fuel mp n lb ub (HC : 0 < scale) o k : exists lz uz, sample_raw_seed fuel mp n lb ub norm denorm o k = sample_raw_skeleton fuel mp n 1 0 0 lz uz o k /\
  (forall s z, 0 <= s <= 1 -> elt lz (Fin z) -> elt lb (Fin (path_at scale x0 x1 s z))) /\ (forall s z, 0 <= s <= 1 -> elt (Fin z) uz -> elt (Fin (path_at scale x0 x1 s z)) ub) /\
  (elt lb (Fin (Rmin x0 x1)) -> elt lz (Fin 0)) /\ (elt (Fin (Rmax x0 x1)) ub -> elt (Fin 0) uz) /\
  (forall l, lb = Fin l -> lz = Fin ((l - Rmin x0 x1) / scale)) /\ (forall u, ub = Fin u -> uz = Fin ((u - Rmax x0 x1) / scale)) /\ (ub = PosInf -> uz = PosInf).
Proof.
  destruct (bound_lo norm denorm T scale x0 x1 OP HT HC lb o k) as (lz & E1 & A1 & B1 & C1 & _).
  destruct (bound_hi norm denorm T scale x0 x1 OP HT HC ub o k) as (uz & E2 & A2 & B2 & C2).
  exists lz, uz. split.
  - unfold sample_raw_seed. rewrite (op_denorm_none _ _ _ _ _ _ OP). cbn [fst map]. replace (0 * T) with 0 by ring. replace (1 * T) with T by ring.
    erewrite run_bind by exact E1. erewrite run_bind by exact E2. reflexivity.
  - repeat split; auto. intros ->. cbn in E2. unfold ret in E2. congruence.
Qed.
Lemma raw_seed_returns fuel mp n lb ub (HC : 0 < scale) : elt lb (Fin (Rmin x0 x1)) -> elt (Fin (Rmax x0 x1)) ub -> (0 < n)%nat ->
  returns_if uniform_pos (sample_raw_seed fuel mp n lb ub norm denorm) (fun s => well_formed s /\ ends 1 0 0 s /\
    (k_tight s < k_loose s -> forall u z, 0 <= u <= 1 -> low_z s <= z <= high_z s -> inside lb ub (path_at scale x0 x1 u z)) /\
    (forall l r, lb = Fin l -> ub = Fin r -> l + r = x0 + x1 -> forall u z, 0 <= u <= 1 -> low_z s <= z <= high_z s -> inside lb ub (path_at scale x0 x1 u z))).
Proof.
  intros L U Hn o k V G. destruct (raw_seed_run fuel mp n lb ub HC o k) as (lz & uz & -> & A1 & A2 & B1 & B2 & C1 & C2 & _).
  assert (R0 : Rmin 0 0 = 0) by (apply Rmin_left; lra). assert (R1 : Rmax 0 0 = 0) by (apply Rmax_left; lra).
  assert (H := raw_within fuel mp n 1 0 0 lz uz Rlt_0_1). rewrite R0, R1 in H. specialize (H (B1 L) (B2 U) Hn o k V G).
  destruct (fst _) as [s|e|]; auto. destruct H as (W & E & H1 & H2). split; auto. split; auto.
  unfold low_z, high_z, inside. split.
  - intros TL u z Hu Hz. destruct (H1 TL) as [K1 K2]. rewrite Rmin_right, Rmax_left in Hz by lra. split.
    + apply A1; auto. destruct lz; cbn in *; auto; lra.
    + apply A2; auto. destruct uz; cbn in *; auto; lra.
  - intros l r -> -> LR u z Hu Hz. specialize (C1 l eq_refl). specialize (C2 r eq_refl). subst lz uz.
    destruct (H2 _ _ eq_refl eq_refl) as [K1 K2].
    { assert (Rmin x0 x1 + Rmax x0 x1 = x0 + x1) by (unfold Rmin, Rmax; destruct (Rle_dec x0 x1); lra).
      replace ((l - Rmin x0 x1) / scale + (r - Rmax x0 x1) / scale) with ((l + r - (Rmin x0 x1 + Rmax x0 x1)) / scale) by (field; lra). rewrite H, LR. field. lra. }
    assert (Z : (l - Rmin x0 x1) / scale < z < (r - Rmax x0 x1) / scale) by (revert Hz; unfold Rmin at 1, Rmax at 1; destruct (Rle_dec (k_loose s) (k_tight s)); lra).
    split; [apply A1|apply A2]; auto; cbn; lra.
Qed.
(** a lower bound only: every flipped seed has points below it *)
Lemma raw_seed_flipped fuel mp n l (HC : 0 < scale) : l < Rmin x0 x1 -> 2 * (Rmin x0 x1 - l) ^ 2 < ln 2 * scale ^ 2 -> (0 < n)%nat ->
  returns_if uniform_pos (sample_raw_seed fuel mp n (Fin l) PosInf norm denorm) (fun s => k_loose s < k_tight s ->
    exists u z, 0 <= u <= 1 /\ low_z s < z <= high_z s /\ path_at scale x0 x1 u z < l).
Proof.
  intros L HE Hn o k V G. destruct (raw_seed_run fuel mp n (Fin l) PosInf HC o k) as (lz & uz & -> & A1 & A2 & B1 & B2 & C1 & C2 & C3).
  specialize (C1 l eq_refl). specialize (C3 eq_refl). subst lz uz.
  assert (R0 : Rmin 0 0 = 0) by (apply Rmin_left; lra).
  assert (I : 0 < / scale) by now apply Rinv_0_lt_compat.
  set (lz := (l - Rmin x0 x1) / scale) in *. assert (LZ : lz < 0) by (unfold lz, Rdiv; nra).
  assert (H := raw_one_sided fuel mp n 1 0 0 lz Rlt_0_1). rewrite R0 in H.
  assert (RE : 1 / 2 < reach 1 0 0 (Fin lz)).
  { cbn [reach]. rewrite <- (exp_ln (1 / 2)) by lra. apply exp_increasing. replace (1 / 2) with (/ 2) by lra. rewrite ln_Rinv by lra.
    replace (2 * (0 - lz) * (0 - lz) / 1) with (2 * (lz * lz)) by field.
    assert (2 * (lz * lz) * scale ^ 2 < ln 2 * scale ^ 2). { replace (2 * (lz * lz) * scale ^ 2) with (2 * (Rmin x0 x1 - l) ^ 2) by (unfold lz; field; lra). auto. }
    assert (0 < scale ^ 2) by nra. nra. }
  specialize (H LZ RE Hn o k V G). destruct (fst _) as [s|e|]; auto. intros F. specialize (H F).
  exists (if Rle_dec x0 x1 then 0 else 1), (Rmin ((k_loose s + lz) / 2) (k_tight s)).
  split; [destruct (Rle_dec x0 x1); lra|]. unfold low_z, high_z. rewrite Rmin_left, Rmax_right by lra.
  split; [unfold Rmin; destruct (Rle_dec ((k_loose s + lz) / 2) (k_tight s)); lra|].
  assert (Z : Rmin ((k_loose s + lz) / 2) (k_tight s) < lz) by (assert (Y := Rmin_l ((k_loose s + lz) / 2) (k_tight s)); lra).
  apply Rmult_lt_compat_r with (r := scale) in Z; auto. unfold lz at 2, Rdiv in Z. rewrite Rmult_assoc, Rinv_l, Rmult_1_r in Z by lra.
  unfold path_at. unfold Rmin in Z at 2. destruct (Rle_dec x0 x1); cbn; lra.
Qed.

(** ** interpolation *)
Lemma times_sorted new : StronglySorted Rlt new -> StronglySorted Rlt (map (fun u => u / T) new).
Proof.
  assert (I : 0 < / T) by now apply Rinv_0_lt_compat.
  induction 1; cbn; constructor; auto. rewrite Forall_map. eapply Forall_impl; [|exact H0]. cbn. unfold Rdiv. intros; nra.
Qed.
Lemma values_at s new vs : Forall2 (at_time s) (map (fun u => u / T) new) vs ->
  Forall2 (seed_at T scale x0 x1 s) new (map (fun p => path_at scale x0 x1 (fst p) (snd p)) (combine (map (fun u => u / T) new) vs)).
Proof.
  revert vs. induction new as [|u new IH]; intros vs F; inversion F; subst; cbn; constructor; auto. exists y. auto.
Qed.
Lemma interpolate_seed_run fuel mp n s new o k : interpolate_seed fuel mp n norm denorm s new o k =
  match interpolate_skeleton fuel mp n s (map (fun u => u / T) new) o k with
  | (Ok r, k') => (Ok (fst r, map (fun p => path_at scale x0 x1 (fst p) (snd p)) (combine (map (fun u => u / T) new) (snd r))), k')
  | (Raise e, k') => (Raise e, k')
  | (NoFuel, k') => (NoFuel, k')
  end.
Proof.
  unfold interpolate_seed. rewrite (op_norm_none _ _ _ _ _ _ OP). cbn [fst]. unfold bind.
  destruct (interpolate_skeleton _ _ _ _ _ o k) as [[[s' vs]|e|] k']; auto. rewrite (op_denorm_some _ _ _ _ _ _ OP). reflexivity.
Qed.
Lemma seed_request fuel mp n s new : standard s -> StronglySorted Rlt new ->
  returns_if anyo (interpolate_seed fuel mp n norm denorm s new) (fun r => standard (fst r) /\ extends s (fst r) /\
    Forall2 (seed_at T scale x0 x1 (fst r)) new (snd r) /\ (forall u, In u (k_t (fst r)) <-> In u (k_t s) \/ In (u * T) new) /\
    (forall u, In u new -> 0 <= u <= T) /\ hits_after s (fst r) (map (fun u => u / T) new)).
Proof.
  intros [W HZ] SN o k V G. rewrite interpolate_seed_run.
  assert (H := interpolate_returns fuel mp n s _ W (times_sorted _ SN) o k V G).
  destruct (interpolate_skeleton _ _ _ _ _ o k) as [[[s' vs]|e|] k']; auto. cbn [fst snd] in *. destruct H as (W' & X & IN & F & RG & HI). cbn [fst snd] in *.
  assert (I : 0 < / T) by now apply Rinv_0_lt_compat.
  split; [split; auto; destruct X as (_ & _ & _ & X & _); congruence|]. split; auto. split; [now apply values_at|]. split; [|split; auto].
  - intros u. rewrite IN, in_map_iff. split; intros [A|A]; auto; right.
    + destruct A as (v & <- & A). replace (v / T * T) with v by (field; lra). auto.
    + exists (u * T). split; auto. field. lra.
  - intros u Hu. specialize (RG (u / T)). rewrite HZ in RG.
    assert (B : 0 <= u / T <= 1) by (apply RG, in_map_iff; eauto). assert (E : u = u / T * T) by (field; lra). nra.
Qed.
(** the path at a time is unique and inside the bounds *)
Lemma seed_at_unique s u x y : well_formed s -> seed_at T scale x0 x1 s u x -> seed_at T scale x0 x1 s u y -> x = y.
Proof. intros W (z & A & ->) (w & B & ->). now rewrite (value_unique s (u / T) z w W A B). Qed.
Lemma seed_at_extends s s' u x : extends s s' -> seed_at T scale x0 x1 s u x -> seed_at T scale x0 x1 s' u x.
Proof. intros (_ & _ & _ & _ & _ & _ & X) (z & A & ->). exists z. split; auto. now apply X. Qed.
Lemma seed_call_outside fuel mp n s ts o k : (exists u, In u ts /\ T < u) -> fst (seed_call fuel mp n norm denorm s ts o k) = Raise ValueError.
Proof.
  intros (u & Hu & Lu). unfold seed_call. rewrite (op_denorm_none _ _ _ _ _ _ OP). cbn [fst map hd_error]. unfold bind, lift_opt, ret.
  replace (existsb _ ts) with true; auto. symmetry. apply existsb_exists. exists u. split; auto. apply Rltb_true. lra.
Qed.

(** ** bound_disc_path *)
Definition grid_s (grid : nat + list R) : list R := match grid with inl n => linspace01 n | inr t => map (fun u => u / T) t end.
Lemma nth_pair_min x i : (S i < length x)%nat -> nth i (pair_min x) 0 = Rmin (nth (S i) x 0) (nth i x 0).
Proof.
  unfold pair_min. revert i. induction x as [|a [|b x] IH]; cbn [length]; intros i L; try lia.
  destruct i as [|i]; [reflexivity|]. cbn [tl removelast combine map nth]. specialize (IH i). cbn [tl] in IH. apply IH. cbn [length]. lia.
Qed.
Lemma nth_pair_max x i : (S i < length x)%nat -> nth i (pair_max x) 0 = Rmax (nth (S i) x 0) (nth i x 0).
Proof.
  unfold pair_max. revert i. induction x as [|a [|b x] IH]; cbn [length]; intros i L; try lia.
  destruct i as [|i]; [reflexivity|]. cbn [tl removelast combine map nth]. specialize (IH i). cbn [tl] in IH. apply IH. cbn [length]. lia.
Qed.
Lemma len_pair_min x : length (pair_min x) = (length x - 1)%nat.
Proof.
  unfold pair_min. rewrite map_length, combine_length. destruct x as [|a x]; [reflexivity|]. cbn [tl length].
  assert (length (removelast (a :: x)) = length x). { clear. revert a. induction x as [|b x IH]; intros a; [reflexivity|]. cbn [removelast length] in *. now rewrite IH. } lia.
Qed.
Lemma len_pair_max x : length (pair_max x) = (length x - 1)%nat.
Proof. rewrite <- len_pair_min. unfold pair_min, pair_max. now rewrite !map_length. Qed.
Lemma combine_repeat {A B} (l : list A) (b : B) : combine l (repeat b (length l)) = map (fun a => (a, b)) l.
Proof. induction l; cbn; auto. now rewrite IHl. Qed.
Lemma low_of s : (if Rltb (k_tight s) (k_loose s) then k_tight s else k_loose s) = low_z s.
Proof. unfold low_z. destruct (Rltb_dec (k_tight s) (k_loose s)) as [[L ->]|[L ->]]; [now rewrite Rmin_right by lra|now rewrite Rmin_left by lra]. Qed.
Lemma high_of s : (if Rltb (k_tight s) (k_loose s) then k_loose s else k_tight s) = high_z s.
Proof. unfold high_z. destruct (Rltb_dec (k_tight s) (k_loose s)) as [[L ->]|[L ->]]; [now rewrite Rmax_left by lra|now rewrite Rmax_right by lra]. Qed.
Lemma disc_path_run bounds seed grid o k :
  let s := grid_s grid in
  let phi := map (fun p => bounds (fst p) (snd p)) (combine (pair_min (map (fun u => path_at scale x0 x1 u (low_z seed)) s)) (pair_max (map (fun u => path_at scale x0 x1 u (high_z seed)) s))) in
  bound_disc_path norm denorm bounds seed grid o k =
  (match phi with [] => Raise ValueError | _ => Ok (map (fun u => u * T) s, map (fun q => snd (fst q)) phi, map (fun q => snd q) phi) end, k).
Proof.
  cbv zeta. unfold bound_disc_path. rewrite low_of, high_of.
  assert (G : (match grid with inl n => linspace01 n | inr t => fst (norm t None) end) = grid_s grid) by (destruct grid; cbn [grid_s]; auto; now rewrite (op_norm_none _ _ _ _ _ _ OP)).
  rewrite G. rewrite !(op_denorm_some _ _ _ _ _ _ OP), (op_denorm_none _ _ _ _ _ _ OP). unfold bind, values_of, lift_opt, ret, raise. cbn [fst snd].
  rewrite !combine_repeat, !map_map. cbn [fst snd]. destruct (map (fun p => bounds (fst p) (snd p)) _); reflexivity.
Qed.
Lemma grid_times_eq grid : map (fun u => u * T) (grid_s grid) = grid_times T grid.
Proof.
  destruct grid as [n|t]; cbn [grid_s grid_times]; [unfold linspace01|]; rewrite map_map.
  - apply map_ext. intros. ring.
  - rewrite <- (map_id t) at 2. apply map_ext. intros. field. lra.
Qed.
Lemma disc_path_encloses (HC : 0 < scale) bounds seed grid o k t le ue :
  fst (bound_disc_path norm denorm bounds seed grid o k) = Ok (t, le, ue) ->
  t = grid_times T grid /\ S (length le) = length t /\ length ue = length le /\
  forall i, (i < length le)%nat -> exists lx ux inf, bounds lx ux = (inf, nth i le 0, nth i ue PosInf) /\
    (exists u, between (nth i t 0) (nth (S i) t 0) u /\ path_at scale x0 x1 (u / T) (low_z seed) = lx) /\
    (exists u, between (nth i t 0) (nth (S i) t 0) u /\ path_at scale x0 x1 (u / T) (high_z seed) = ux) /\
    forall u z, between (nth i t 0) (nth (S i) t 0) u -> low_z seed <= z <= high_z seed -> lx <= path_at scale x0 x1 (u / T) z <= ux.
Proof.
  rewrite disc_path_run. cbn [fst]. set (s := grid_s grid).
  set (lo := map (fun u => path_at scale x0 x1 u (low_z seed)) s). set (hi := map (fun u => path_at scale x0 x1 u (high_z seed)) s).
  set (phi := map _ (combine (pair_min lo) (pair_max hi))). intros E.
  assert (LP : length phi = (length s - 1)%nat).
  { unfold phi. rewrite map_length, combine_length, len_pair_min, len_pair_max. unfold lo, hi. rewrite !map_length. lia. }
  assert (E' : t = map (fun u => u * T) s /\ le = map (fun q => snd (fst q)) phi /\ ue = map (fun q => snd q) phi /\ phi <> []) by (destruct phi; try discriminate; injection E as <- <- <-; easy).
  clear E. destruct E' as (Et & El & Eu & NE). assert (P0 : (0 < length phi)%nat) by (destruct phi; [easy|cbn; lia]).
  split; [rewrite Et; apply grid_times_eq|]. split; [subst; rewrite !map_length; lia|]. split; [subst; now rewrite !map_length|].
  intros i Hi. assert (Hi2 : (i < length phi)%nat) by (subst le; rewrite map_length in Hi; auto). clear Hi.
  exists (Rmin (nth (S i) lo 0) (nth i lo 0)), (Rmax (nth (S i) hi 0) (nth i hi 0)).
  assert (LL : length lo = length s) by apply map_length. assert (LH : length hi = length s) by apply map_length.
  assert (Q : nth i phi (0, 0, PosInf) = bounds (Rmin (nth (S i) lo 0) (nth i lo 0)) (Rmax (nth (S i) hi 0) (nth i hi 0))).
  { unfold phi. rewrite (nth_indep _ _ (bounds 0 0)) by (fold phi; auto).
    change (bounds 0 0) with ((fun p => bounds (fst p) (snd p)) (0, 0)). rewrite map_nth, combine_nth by (rewrite len_pair_min, len_pair_max; lia). cbn [fst snd].
    now rewrite nth_pair_min, nth_pair_max by lia. }
  exists (fst (fst (nth i phi (0, 0, PosInf)))). split.
  { rewrite <- Q. subst le ue.
    assert (M1 := map_nth (fun q : R * R * ext => snd (fst q)) phi (0, 0, PosInf) i). assert (M2 := map_nth (fun q : R * R * ext => snd q) phi (0, 0, PosInf) i).
    cbv beta in M1, M2. change (snd (fst (0, 0, PosInf))) with 0 in M1. change (snd (0, 0, PosInf)) with PosInf in M2. rewrite M1, M2. destruct (nth i phi _) as [[? ?] ?]. reflexivity. }
  assert (TS : forall j, (j < length s)%nat -> nth j t 0 / T = nth j s 0).
  { intros j Hj. subst t. rewrite (nth_indep _ 0 (0 * T)) by now rewrite map_length. rewrite map_nth with (f := fun u => u * T). field. lra. }
  assert (LO : forall j, (j < length s)%nat -> nth j lo 0 = path_at scale x0 x1 (nth j s 0) (low_z seed)).
  { intros j Hj. unfold lo. rewrite (nth_indep _ 0 (path_at scale x0 x1 0 (low_z seed))) by now rewrite map_length. now rewrite map_nth with (f := fun u => path_at scale x0 x1 u (low_z seed)). }
  assert (HI : forall j, (j < length s)%nat -> nth j hi 0 = path_at scale x0 x1 (nth j s 0) (high_z seed)).
  { intros j Hj. unfold hi. rewrite (nth_indep _ 0 (path_at scale x0 x1 0 (high_z seed))) by now rewrite map_length. now rewrite map_nth with (f := fun u => path_at scale x0 x1 u (high_z seed)). }
  rewrite !LO, !HI, <- !TS by lia. set (a := nth i t 0). set (b := nth (S i) t 0).
  assert (I : 0 < / T) by now apply Rinv_0_lt_compat.
  assert (BA : between a b a) by (unfold between; split; [apply Rmin_l|apply Rmax_l]). assert (BB : between a b b) by (unfold between; split; [apply Rmin_r|apply Rmax_r]).
  split; [|split].
  - unfold Rmin. destruct (Rle_dec _ _); [exists b|exists a]; auto.
  - unfold Rmax. destruct (Rle_dec _ _); [exists a|exists b]; auto.
  - intros u z Hu Hz. unfold path_at.
    assert (K : forall d, Rmin (b / T * d) (a / T * d) <= u / T * d <= Rmax (b / T * d) (a / T * d)).
    { intros d. unfold Rdiv. replace (u * / T * d) with (u * (/ T * d)) by ring. replace (b * / T * d) with (b * (/ T * d)) by ring. replace (a * / T * d) with (a * (/ T * d)) by ring.
      generalize (/ T * d). intros e. unfold between, Rmin, Rmax in *. destruct (Rle_dec 0 e), (Rle_dec a b), (Rle_dec (b * e) (a * e)); split; nra. }
    specialize (K (x1 - x0)). assert (K1 : low_z seed * scale <= z * scale <= high_z seed * scale) by nra.
    revert K. unfold Rmin, Rmax. repeat destruct (Rle_dec _ _); lra.
Qed.
Lemma disc_path_sound (HC : 0 < scale) bounds disc seed grid o k t le ue : encloses bounds disc ->
  fst (bound_disc_path norm denorm bounds seed grid o k) = Ok (t, le, ue) ->
  forall i u z, (i < length le)%nat -> between (nth i t 0) (nth (S i) t 0) u -> low_z seed <= z <= high_z seed ->
  nth i le 0 <= disc (path_at scale x0 x1 (u / T) z) /\ ele (Fin (disc (path_at scale x0 x1 (u / T) z))) (nth i ue PosInf).
Proof.
  intros EN E i u z Hi Hu Hz. destruct (disc_path_encloses HC _ _ _ _ _ _ _ _ E) as (_ & _ & _ & H). destruct (H i Hi) as (lx & ux & inf & B & _ & _ & C).
  specialize (C u z Hu Hz). specialize (EN lx ux). rewrite B in EN. apply EN; auto. lra.
Qed.
(** it returns for every grid of at least two times *)
Lemma disc_path_total bounds seed grid o k : (2 <= length (grid_times T grid))%nat -> exists t le ue, bound_disc_path norm denorm bounds seed grid o k = (Ok (t, le, ue), k).
Proof.
  intros L. rewrite disc_path_run. set (phi := map _ _). assert (LP : length phi = (length (grid_s grid) - 1)%nat).
  { unfold phi. rewrite map_length, combine_length, len_pair_min, len_pair_max, !map_length. lia. }
  rewrite <- grid_times_eq, map_length in L. destruct phi; [cbn in LP; lia|]. eauto.
Qed.
End Ops.
