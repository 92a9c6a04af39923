(** The objectives of the regimes add up to the joint objective. *)
From Coq Require Import Reals List Bool Arith ZArith Lia Lra Sorted.
From Verif Require Import Base Np Rng L_list L_rng L_mat L_occ M_mjp M_inf M_adapt M_path M_skel M_seed M_models M_sw M_chain M_mcem SpecSkel SpecSeed SpecSw SpecEm L_sw11 L_em5.
Import ListNotations.
Local Open Scope R_scope.

Notation quad := (list R * nat * M_skel.skel * (normop * normop))%type.
Definition y_of (p : quad) : nat := snd (fst (fst p)).
Definition z_of (p : quad) : M_skel.skel := snd (fst p).
Definition o0 : oracle := {| ora_r := fun _ _ => 0; ora_n := fun _ _ => 0%nat |}.
Definition value (fuel mp maxp : nat) (p : quad) : M_skel.skel * list R :=
  let '(t_, y0, z_, n) := p in match fst (interpolate_seed fuel mp maxp (fst n) (snd n) z_ t_ o0 0%nat) with Ok a => a | _ => (z_, []) end.
Lemma det_map_m_val {A B} (f : A -> M B) (v : A -> B) l : (forall a, In a l -> det (f a) (v a)) -> det (map_m f l) (map v l).
Proof.
  induction l as [|a l IH]; intros H o k; [reflexivity|]. cbn [map_m map]. erewrite L_sde3.run_bind by (apply H; now left). erewrite L_sde3.run_bind by (apply IH; intros; apply H; now right). reflexivity.
Qed.
(** the sum over the selected intervals *)
Definition contribution (disc : nat -> R -> R) (q : R * nat * list R) : R := let '(dt, y0, x_) := q in - dt * np_mean (map (disc y0) x_).
Fixpoint picked (f : nat -> bool) (g : R * nat * list R -> R) (l : list (R * nat * list R)) : R :=
  match l with [] => 0 | q :: r => (if f (snd (fst q)) then g q else 0) + picked f g r end.
Lemma rsum_filter f g l : M_models.rsum (map g (filter (fun q => f (snd (fst q))) l)) = picked f g l.
Proof. induction l as [|q l IH]; [reflexivity|]. cbn [filter picked]. destruct (f (snd (fst q))); unfold M_models.rsum in *; cbn [map fold_right]; rewrite IH; ring. Qed.
Lemma combine_first {A B} (l : list A) (m n : list B) : (length l <= length m)%nat -> combine l (m ++ n) = combine l m.
Proof. revert m. induction l as [|a l IH]; intros [|b m] H; cbn in *; try lia; auto. f_equal. apply IH. lia. Qed.
Lemma zip4_y {A C D} (l : list A) (m : list nat) (n : list C) (q : list D) : length n = length l -> length q = length l -> (length l <= length m)%nat -> map (fun p => snd (fst (fst p))) (zip4 l m n q) = firstn (length l) m.
Proof.
  unfold zip4. revert m n q. induction l as [|a l IH]; intros m [|c n] [|d q] H1 H2 H3; cbn in *; try discriminate; [reflexivity|]. destruct m as [|b m]; cbn in H3; [lia|]. cbn. f_equal. apply IH; lia.
Qed.
Lemma picked_swap f g (dts : list R) (ys : list nat) (xs xs' : list (list R)) : length ys = length dts -> length xs = length dts -> length xs' = length dts ->
  (forall i y, nth_error ys i = Some y -> f y = true -> nth_error xs i = nth_error xs' i) -> picked f g (zip3 dts ys xs) = picked f g (zip3 dts ys xs').
Proof.
  unfold zip3. revert ys xs xs'. induction dts as [|d dts IH]; intros [|y ys] [|x xs] [|x' xs'] H1 H2 H3 H; cbn in *; try discriminate; [reflexivity|]. f_equal.
  - destruct (f y) eqn:E; [|reflexivity]. specialize (H 0%nat y eq_refl E). cbn in H. injection H as ->. reflexivity.
  - apply IH; auto. intros i. apply (H (S i)).
Qed.
Lemma picked_total dim g l : Forall (fun q => (snd (fst q) < dim)%nat) l -> Mat.rsum dim (fun r => picked (fun y => Nat.eqb y r) g l) = picked (fun _ => true) g l.
Proof.
  induction 1 as [|q l H _ IH]; cbn [picked]; [apply rsum_0; auto|]. rewrite rsum_plus, IH. f_equal. apply (rsum_delta dim (fun _ => g q)). exact H.
Qed.
Section Sw.
Context (fuel mp maxp : nat) (vol : list (list R) -> nat -> R) (disc : list (list R) -> nat -> R -> R) (loglik : list (list R) -> anchorage -> option nat -> R * R).
Notation est := (sw_est_log_aug_lik fuel mp maxp vol disc loglik).
Notation items thi z h supp := (zip4 supp (a_y h) z (sw_normops (vol thi) h)).
Definition xs_of thi z h supp : list (list R) := map (fun p => snd (value fuel mp maxp p)) (items thi z h supp).
Lemma est_value thi z h supp restrict : anch_ok h -> all_prepared (np_diff (a_t h)) supp z -> exists r, det (est thi z h supp restrict) r /\
  fst r = fst (loglik thi h restrict) + picked (selected restrict) (contribution (disc thi)) (zip3 (np_diff (a_t h)) (removelast (a_y h)) (xs_of thi z h supp)).
Proof.
  intros HA HP. assert (HP0 := HP). destruct HP0 as (LZ & LS & HPP).
  assert (LI := zip4_len vol thi h supp z HA LZ LS). assert (LO := sw_ops_len vol thi h HA). assert (HA0 := HA). destruct HA0 as (_ & H2 & HY & HV).
  set (v := fun p : quad => if selected restrict (y_of p) then value fuel mp maxp p else (z_of p, [])).
  assert (HD : det (map_m (fun p : quad => let '(t_, y0, z_, n) := p in if selected restrict y0 then interpolate_seed fuel mp maxp (fst n) (snd n) z_ t_ else ret (z_, [])) (items thi z h supp)) (map v (items thi z h supp))).
  { apply det_map_m_val. intros [[[u y] s] n] Hin. unfold v, y_of, z_of. cbn [fst snd]. destruct (selected restrict y); [|intros o k; reflexivity].
    destruct (in_zip4 _ _ _ _ _ _ _ _ Hin) as (i & E1 & E0 & E2 & E3). destruct (sw_ops_at vol thi h i n HA E3) as (dt & c & x0 & x1 & E4 & HT & OP).
    destruct (prepared_det (fst n) (snd n) dt c x0 x1 fuel mp maxp u s OP) as (r & Hr); [eapply HPP; eauto|]. unfold value. rewrite Hr. cbn [fst]. exact Hr. }
  unfold sw_est_log_aug_lik. destruct (map v (items thi z h supp)) as [|r0 rs] eqn:E.
  { exfalso. apply (f_equal (@length _)) in E. rewrite map_length, LI in E. cbn in E. exact (sdiff_ne h HA E). }
  eexists. split; [eapply det_bind; [exact HD|]; intros o k; reflexivity|].
  cbn [fst]. f_equal. rewrite <- E. clear E HD. rewrite (map_ext _ (contribution (disc thi))) by (intros [[? ?] ?]; reflexivity). rewrite (rsum_filter (selected restrict)).
  assert (EY : a_y h = removelast (a_y h) ++ [last (a_y h) 0%nat]) by (apply app_removelast_last; destruct (a_y h); [cbn in HY; lia|discriminate]).
  assert (LRY : length (removelast (a_y h)) = length (np_diff (a_t h))) by (rewrite removelast_length, np_diff_length; lia).
  unfold zip3 at 1. rewrite EY at 1. rewrite combine_first by lia. change (combine (combine (np_diff (a_t h)) (removelast (a_y h))) (map snd (map v (items thi z h supp)))) with (zip3 (np_diff (a_t h)) (removelast (a_y h)) (map snd (map v (items thi z h supp)))).
  apply picked_swap; auto; [now rewrite !map_length|unfold xs_of; now rewrite map_length|].
  intros i y Ey Sy. unfold xs_of. rewrite map_map, !nth_error_map. destruct (nth_error (items thi z h supp) i) as [p|] eqn:Ep; [|reflexivity]. cbn [option_map]. f_equal. unfold v.
  replace (y_of p) with y; [now rewrite Sy|]. unfold zip4 in Ep. rewrite !nth_error_combine in Ep. destruct (nth_error supp i); [|discriminate]. destruct (nth_error (a_y h) i) as [y'|] eqn:Ey'; [|discriminate]. destruct (nth_error z i); [|discriminate].
  destruct (nth_error (sw_normops (vol thi) h) i); [|discriminate]. injection Ep as <-. cbn. rewrite EY in Ey'. rewrite nth_error_app1 in Ey' by (apply nth_error_Some; congruence). congruence.
Qed.
Lemma est_sum dim dv f thi z h supp : anch_ok h -> all_prepared (np_diff (a_t h)) supp z -> Forall (fun y => (y < dim)%nat) (a_y h) ->
  (forall r, fst (loglik thi h r) = fst (eval_biased_log_lik (vol thi) dv (pointwise f) h r)) ->
  exists v vr, det (est thi z h supp None) v /\ (forall r, det (est thi z h supp (Some r)) (vr r)) /\ Mat.rsum dim (fun r => fst (vr r)) = fst v.
Proof.
  intros HA HP HD HL. destruct (est_value thi z h supp None HA HP) as (v & Hv & Ev).
  assert (EX : forall r, exists w, det (est thi z h supp (Some r)) w /\ fst w = fst (loglik thi h (Some r)) + picked (selected (Some r)) (contribution (disc thi)) (zip3 (np_diff (a_t h)) (removelast (a_y h)) (xs_of thi z h supp))) by (intros r; apply est_value; auto).
  set (vr := fun r => match fst (est thi z h supp (Some r) o0 0%nat) with Ok a => a | _ => v end). exists v, vr. split; [exact Hv|].
  assert (HV : forall r, det (est thi z h supp (Some r)) (vr r) /\ fst (vr r) = fst (loglik thi h (Some r)) + picked (selected (Some r)) (contribution (disc thi)) (zip3 (np_diff (a_t h)) (removelast (a_y h)) (xs_of thi z h supp))).
  { intros r. destruct (EX r) as (w & Hw & Ew). unfold vr. rewrite Hw. cbn [fst]. auto. }
  split; [intros r; apply HV|]. destruct HA as (HS & H2 & HY & HVV).
  transitivity (Mat.rsum dim (fun r => fst (eval_biased_log_lik (vol thi) dv (pointwise f) h (Some r)) + picked (fun y => Nat.eqb y r) (contribution (disc thi)) (zip3 (np_diff (a_t h)) (removelast (a_y h)) (xs_of thi z h supp)))).
  { apply rsum_ext. intros r _. rewrite (proj2 (HV r)), HL. reflexivity. }
  rewrite rsum_plus, Ev. f_equal.
  - rewrite (HL None). apply (lik_decomposes _ _ _ dim h (length (a_t h) - 1)); auto; lia.
  - apply picked_total. apply Forall_forall. intros [[d y] x] Hin. cbn [fst snd]. apply in_combine_l in Hin. apply in_combine_r in Hin. rewrite Forall_forall in HD. apply HD. clear - Hin.
    induction (a_y h) as [|b [|c l] IH]; cbn in *; [easy|easy|]. destruct Hin as [->|Hin]; [now left|right; apply IH; exact Hin].
Qed.
Lemma picked_ext f g g' l : (forall q, f (snd (fst q)) = true -> g q = g' q) -> picked f g l = picked f g' l.
Proof. intros H. induction l as [|q l IH]; cbn [picked]; [reflexivity|]. rewrite IH. destruct (f (snd (fst q))) eqn:E; [now rewrite H|reflexivity]. Qed.
Lemma ops_local thi thi' h i y n : anch_ok h -> vol thi y = vol thi' y -> nth_error (removelast (a_y h)) i = Some y -> nth_error (sw_normops (vol thi) h) i = Some n -> nth_error (sw_normops (vol thi') h) i = Some n.
Proof.
  intros HA HV Ey. unfold sw_normops. rewrite !nth_error_map. unfold zip4. rewrite !nth_error_combine, Ey. destruct (nth_error (np_diff (a_t h)) i); [|discriminate]. destruct (nth_error (a_v h) i); [|discriminate]. destruct (nth_error (tl (a_v h)) i); [|discriminate].
  cbn [option_map]. now rewrite HV.
Qed.
Lemma est_local thi thi' z h supp r : anch_ok h -> all_prepared (np_diff (a_t h)) supp z -> vol thi r = vol thi' r -> (forall x, disc thi r x = disc thi' r x) -> fst (loglik thi h (Some r)) = fst (loglik thi' h (Some r)) ->
  exists v v', det (est thi z h supp (Some r)) v /\ det (est thi' z h supp (Some r)) v' /\ fst v = fst v'.
Proof.
  intros HA HP HV HD HL. destruct (est_value thi z h supp (Some r) HA HP) as (v & Hv & Ev). destruct (est_value thi' z h supp (Some r) HA HP) as (v' & Hv' & Ev'). exists v, v'. split; [exact Hv|]. split; [exact Hv'|].
  rewrite Ev, Ev', HL. f_equal. destruct HP as (LZ & LS & HPP). assert (HA0 := HA). destruct HA0 as (_ & H2 & HY & HVV).
  assert (LRY : length (removelast (a_y h)) = length (np_diff (a_t h))) by (rewrite removelast_length, np_diff_length; lia).
  assert (EY : a_y h = removelast (a_y h) ++ [last (a_y h) 0%nat]) by (apply app_removelast_last; destruct (a_y h); [cbn in HY; lia|discriminate]).
  rewrite (picked_ext _ _ (contribution (disc thi'))).
  - apply picked_swap; auto; [unfold xs_of; rewrite map_length; now apply zip4_len|unfold xs_of; rewrite map_length; now apply zip4_len|].
    intros i y Ey Sy. cbn [selected] in Sy. apply Nat.eqb_eq in Sy. subst y. unfold xs_of. rewrite !nth_error_map. unfold zip4. rewrite !nth_error_combine.
    assert (Ey' : nth_error (a_y h) i = Some r) by (rewrite EY; rewrite nth_error_app1; [exact Ey|apply nth_error_Some; congruence]). rewrite Ey'.
    assert (EO : nth_error (sw_normops (vol thi) h) i = nth_error (sw_normops (vol thi') h) i).
    { destruct (nth_error (sw_normops (vol thi) h) i) as [n|] eqn:E1; [symmetry; eapply ops_local; eauto|]. destruct (nth_error (sw_normops (vol thi') h) i) as [n|] eqn:E2; [|reflexivity].
      apply (ops_local thi' thi) with (y := r) in E2; auto. congruence. }
    rewrite EO. reflexivity.
  - intros [[d y] x] Sy. cbn [selected fst snd] in Sy. apply Nat.eqb_eq in Sy. subst y. unfold contribution. do 2 f_equal. apply map_ext. exact HD.
Qed.
End Sw.
