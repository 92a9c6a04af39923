(** The function returned by update_objective: its values by regime. *)
From Coq Require Import Reals List Bool Arith ZArith Lia Lra Sorted.
From Verif Require Import Base Np Rng L_list L_rng L_prop L_occ L_bridge M_mjp M_inf M_adapt M_path M_skel M_seed M_models M_sw M_chain M_mcem SpecSkel SpecSeed SpecSw SpecEm
  L_sde2 L_sde3 L_skel7 L_seed L_seed2 L_sw4 L_sw6 L_sw7 L_em5 L_em6.
Import ListNotations.
Local Open Scope R_scope.

Section Sw.
Context (fuel mp maxp : nat) (vol : list (list R) -> nat -> R) (disc : list (list R) -> nat -> R -> R) (loglik : list (list R) -> anchorage -> option nat -> R * R) (log_prior : list (list R) -> R).
Notation est := (sw_est_log_aug_lik fuel mp maxp vol disc loglik).
Definition job_of := (partition * anchorage * list (list R))%type.
Definition job_ok (q : job_of) : Prop := let '(z, h, u) := q in anch_ok h /\ all_prepared (np_diff (a_t h)) u z.
Definition restricted (thi : list (list R)) (r : nat) (q : job_of) (x : R) : Prop := let '(z, h, u) := q in exists w, det (est thi z h u (Some r)) w /\ x = fst w + log_prior thi.
Lemma map_zip3_mid {A B C} (l : list A) (m : list B) (n : list C) : length l = length m -> length n = length m -> map (fun q => snd (fst q)) (zip3 l m n) = m.
Proof.
  revert l n. induction m as [|b m IH]; intros [|a l] [|c n] H1 H2; cbn in *; try lia; auto. f_equal. apply IH; lia.
Qed.
Lemma Forall2_len {A B} (P : A -> B -> Prop) l r : Forall2 P l r -> length l = length r.
Proof. intros F. induction F; cbn; auto. Qed.
Lemma sw_objective_parts n omes thi zz hh : (1 <= n)%nat -> (forall i, valid (omes i)) -> Forall2 (fun z h => anch_ok h /\ length (a_t h) = S (length z) /\ Forall standard z) zz hh ->
  returns_if generic (sw_update_objective fuel mp maxp vol disc loglik log_prior n omes thi zz hh) (fun f => exists jobs, map (fun q => snd (fst q)) jobs = hh /\ Forall job_ok jobs /\
    forall thi' r, exists v, det (f thi' r) v /\ Forall2 (restricted thi' r) jobs v).
Proof.
  intros Hn HO FZ. unfold sw_update_objective. eapply returns_bind.
  { apply (returns_map_m generic) with (P := fun h s => supp_ok (np_diff (a_t h)) s). intros h Hh. apply supports_all; auto. intros d Hd. destruct (In_nth_error _ _ Hh) as (i & Hi); destruct (Forall2_nth_r _ _ _ _ _ FZ Hi) as (z & _ & (HA & _)). now apply (diff_pos (a_t h)); [apply HA|]. }
  intros supp SU. eapply returns_bind; [apply returns_lift; intros r Hr; exact Hr|]. intros r Er.
  assert (F : Forall2 (fun p q => all_prepared (np_diff (a_t (snd (fst p)))) (snd p) (snd q)) (zip3 zz hh supp) r).
  { eapply (run_jobs_ok anyo omes (fun p => let '(z, h, t) := p in est thi z h t None)); [intros i; split; [apply HO|exact I]|exact Er|].
    intros [[z h] u] Hin. destruct (in_zip3 _ _ _ _ _ _ Hin) as (i & E1 & E2 & E3). destruct (Forall2_nth_l _ _ _ _ _ FZ E1) as (h' & E4 & HA & HL & HZ). rewrite E2 in E4. injection E4 as <-.
    destruct (Forall2_nth_l _ _ _ _ _ SU E2) as (u' & E5 & HU). rewrite E3 in E5. injection E5 as <-. cbn [fst snd]. apply sw_est_prepares; auto. rewrite np_diff_length. lia. }
  pose proof (Forall2_len _ _ _ FZ) as LH. pose proof (Forall2_len _ _ _ SU) as LS.
  assert (LZ : length (zip3 zz hh supp) = length zz) by (apply zip3_len; auto; lia).
  assert (LR : length r = length zz) by (rewrite <- LZ; symmetry; apply (Forall2_len _ _ _ F)).
  assert (JO : forall q, In q (zip3 (map snd r) hh supp) -> job_ok q).
  { intros [[z h] u] Hin. destruct (in_zip3 _ _ _ _ _ _ Hin) as (i & E1 & E2 & E3). rewrite nth_error_map in E1. destruct (nth_error r i) as [q|] eqn:Eq; [|discriminate]. cbn in E1. injection E1 as <-.
    destruct (Forall2_nth_r _ _ _ _ _ F Eq) as ([[z0 h0] u0] & E4 & HP). cbn [fst snd] in HP. unfold zip3 in E4. rewrite !nth_error_combine, E2, E3 in E4.
    destruct (nth_error zz i) as [z1|] eqn:E6; [|discriminate]. injection E4 as <- <- <-. destruct (Forall2_nth_l _ _ _ _ _ FZ E6) as (h1 & E7 & HA & _). rewrite E2 in E7. injection E7 as <-. split; auto. }
  destruct r as [|r0 rs] eqn:ER; [intros o k V _; exact I|]. rewrite <- ER in *. apply returns_ret.
  exists (zip3 (map snd r) hh supp). split; [apply map_zip3_mid; rewrite ?map_length; lia|]. split; [apply Forall_forall; exact JO|]. intros thi' r'.
  destruct (det_map_m (fun p => let '(z, h, t) := p in est thi' z h t (Some r')) (fun p b => det (let '(z, h, t) := p in est thi' z h t (Some r')) b) (zip3 (map snd r) hh supp)) as (bs & HB & FB).
  - intros [[z h] u] Hin. destruct (JO _ Hin) as (HA & HP). destruct (sw_est_det fuel mp maxp vol disc loglik thi' z h u (Some r') HA HP) as (b & Hb). eauto.
  - eexists. split; [intros o k; apply (det_bind _ _ bs _ HB); intros o' k'; reflexivity|].
    clear - FB. induction FB as [|[[z h] u] b l l' Hb FB IH]; cbn [map]; constructor; auto. exists b. auto.
Qed.
Lemma det_one {A} (m : M A) a b : det m a -> det m b -> a = b.
Proof. intros H1 H2. specialize (H1 o0 0%nat). specialize (H2 o0 0%nat). rewrite H1 in H2. now injection H2. Qed.

(** the values for one regime depend on the parameters of that regime only *)
Lemma objective_local n omes thi zz hh : (1 <= n)%nat -> (forall i, valid (omes i)) -> Forall2 (fun z h => anch_ok h /\ length (a_t h) = S (length z) /\ Forall standard z) zz hh ->
  returns_if generic (sw_update_objective fuel mp maxp vol disc loglik log_prior n omes thi zz hh) (fun f => forall thi1 thi2 r,
    vol thi1 r = vol thi2 r -> (forall x, disc thi1 r x = disc thi2 r x) -> (forall h, In h hh -> fst (loglik thi1 h (Some r)) = fst (loglik thi2 h (Some r))) ->
    exists v1 v2, det (f thi1 r) v1 /\ det (f thi2 r) v2 /\ Forall2 (fun x1 x2 => x1 - log_prior thi1 = x2 - log_prior thi2) v1 v2).
Proof.
  intros Hn HO FZ. intros o k V G. generalize (sw_objective_parts n omes thi zz hh Hn HO FZ o k V G).
  destruct (fst (sw_update_objective fuel mp maxp vol disc loglik log_prior n omes thi zz hh o k)) as [f| |]; auto. intros (jobs & EJ & FJ & HF) thi1 thi2 r HV HD HL.
  destruct (HF thi1 r) as (v1 & D1 & F1). destruct (HF thi2 r) as (v2 & D2 & F2). exists v1, v2. split; [exact D1|]. split; [exact D2|].
  assert (HL' : forall q, In q jobs -> fst (loglik thi1 (snd (fst q)) (Some r)) = fst (loglik thi2 (snd (fst q)) (Some r))) by (intros q Hq; apply HL; rewrite <- EJ; apply (in_map (fun q => snd (fst q))); exact Hq).
  clear - F1 F2 FJ HL' HV HD. revert v2 F2. induction F1 as [|[[z h] u] x1 jobs v1 R1 F1 IH]; intros v2 F2; inversion F2 as [|? x2 ? v2' R2 F2']; subst; constructor.
  - inversion FJ as [|? ? HJ FJ']; subst. unfold job_ok in HJ. destruct HJ as (HA & HP). unfold restricted in R1, R2. destruct R1 as (w1 & W1 & ->). destruct R2 as (w2 & W2 & ->).
    destruct (est_local fuel mp maxp vol disc loglik thi1 thi2 z h u r HA HP HV HD) as (a & b & A & B & E); [apply (HL' (z, h, u)); left; reflexivity|].
    rewrite (det_one _ _ _ W1 A), (det_one _ _ _ W2 B), E. lra.
  - apply IH; auto; [inversion FJ; auto|]. intros q Hq. apply HL'. now right.
Qed.

Lemma rsum_plus_const dim (g : nat -> R) c : Mat.rsum dim (fun r => g r + c) = Mat.rsum dim g + INR dim * c.
Proof. induction dim as [|dim IH]; [cbn; lra|]. rewrite S_INR. cbn [Mat.rsum]. rewrite IH. lra. Qed.
(** and add up to the joint ones plus one prior per regime *)
Lemma objective_sum dim dv g n omes thi zz hh : (1 <= n)%nat -> (forall i, valid (omes i)) -> Forall2 (fun z h => anch_ok h /\ length (a_t h) = S (length z) /\ Forall standard z) zz hh ->
  Forall (fun h => Forall (fun y => (y < dim)%nat) (a_y h)) hh ->
  (forall thi' h r, fst (loglik thi' h r) = fst (eval_biased_log_lik (vol thi') dv (pointwise g) h r)) ->
  returns_if generic (sw_update_objective fuel mp maxp vol disc loglik log_prior n omes thi zz hh) (fun f => exists jobs, map (fun q => snd (fst q)) jobs = hh /\
    forall thi', exists v joint, (forall r, det (f thi' r) (v r) /\ length (v r) = length hh) /\
      Forall2 (fun q x => let '(z, h, u) := q in exists w, det (est thi' z h u None) w /\ x = fst w) jobs joint /\
      forall i, (i < length hh)%nat -> Mat.rsum dim (fun r => nth i (v r) 0) = nth i joint 0 + INR dim * log_prior thi').
Proof.
  intros Hn HO FZ FY HL. intros o k V G. generalize (sw_objective_parts n omes thi zz hh Hn HO FZ o k V G).
  destruct (fst (sw_update_objective fuel mp maxp vol disc loglik log_prior n omes thi zz hh o k)) as [f| |]; auto. intros (jobs & EJ & FJ & HF). exists jobs. split; [exact EJ|]. intros thi'.
  assert (X : exists v joint, (forall r, Forall2 (restricted thi' r) jobs (v r)) /\ Forall2 (fun q x => let '(z, h, u) := q in exists w, det (est thi' z h u None) w /\ x = fst w) jobs joint /\
      forall i, (i < length jobs)%nat -> Mat.rsum dim (fun r => nth i (v r) 0) = nth i joint 0 + INR dim * log_prior thi').
  { assert (FY' : Forall (fun q : job_of => Forall (fun y => (y < dim)%nat) (a_y (snd (fst q)))) jobs).
    { rewrite <- EJ in FY. rewrite Forall_forall in FY |- *. intros q Hq. apply FY. apply (in_map (fun q => snd (fst q))). exact Hq. }
    clear - FJ FY' HL. induction FJ as [|[[z h] u] jobs HJ FJ IH].
    - exists (fun _ => []), []. repeat split; try constructor. cbn. intros; lia.
    - unfold job_ok in HJ. destruct HJ as (HA & HP). inversion FY' as [|? ? FY1 FY2]; subst. destruct (IH FY2) as (v & joint & H1 & H2 & H3).
      destruct (est_sum fuel mp maxp vol disc loglik dim dv g thi' z h u HA HP FY1 (HL thi' h)) as (w & vr & D1 & D2 & ES).
      exists (fun r => fst (vr r) + log_prior thi' :: v r), (fst w :: joint). split; [|split].
      + intros r. constructor; auto. exists (vr r). auto.
      + constructor; auto. exists w. auto.
      + intros [|i] Hi; cbn [nth length] in *; [rewrite rsum_plus_const, ES; reflexivity|apply H3; lia]. }
  destruct X as (v & joint & H1 & H2 & H3). exists v, joint. split; [|split; [exact H2|]].
  - intros r. destruct (HF thi' r) as (v' & D & F').
    assert (E : v' = v r). { specialize (H1 r). clear - F' H1. revert F' H1. generalize (v r). intros vr F2 F1. revert v' F2. induction F1 as [|[[z h] u] x jobs vr R1 F1 IH]; intros v' F2; inversion F2 as [|? x' ? v'' R2 F2']; subst; [reflexivity|].
      unfold restricted in R1, R2. destruct R1 as (w1 & W1 & ->). destruct R2 as (w2 & W2 & ->). rewrite (det_one _ _ _ W1 W2). f_equal. apply IH; auto. }
    subst v'. split; [exact D|]. rewrite <- (Forall2_len _ _ _ (H1 r)), <- EJ, map_length. reflexivity.
  - intros i Hi. apply H3. rewrite <- EJ, map_length in Hi. exact Hi.
Qed.
End Sw.
