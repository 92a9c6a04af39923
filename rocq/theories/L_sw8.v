(** update_params: each section touches its own regime only. *)
From Coq Require Import Reals List Bool Arith ZArith Lia Lra Sorted.
From Verif Require Import Base Np Rng Mat M_mjp M_bf M_adapt M_path M_skel M_seed M_models M_sw SpecMjp SpecLin SpecSw.
From Verif Require Import L_rng L_list L_path L_path2 L_part L_prop L_occ L_adapt2 L_sde2 L_sw L_sw2 L_sw3 L_sw4 L_sw5 L_sw6 L_sw7 L_step2.
Import ListNotations.
Local Open Scope R_scope.

Definition sized3 {Z} (z : list Z) (h : anch R) : Prop := length (a_t h) = S (length z) /\ length (a_y h) = S (length z) /\ length (a_v h) = S (length z).
Notation ivals h z := (combine (zip4 (np_diff (a_t h)) (a_y h) (a_v h) (tl (a_v h))) z).
Lemma ivals_len {Z} (z : list Z) (h : anch R) : sized3 z h -> length (ivals h z) = length z.
Proof. intros (A & B & C). unfold zip4. rewrite !combine_length, tl_len, np_diff_length. lia. Qed.
Lemma ivals_nth {Z} (z : list Z) (h : anch R) j q : nth_error (ivals h z) j = Some q ->
  let '((dt, y, v0, v1), s) := q in In dt (np_diff (a_t h)) /\ nth_error (a_y h) j = Some y /\ nth_error z j = Some s.
Proof.
  destruct q as [[[[dt y] v0] v1] s]. intros H. unfold zip4 in H. do 4 (apply nth_combine_some in H as [H ?]). simpl in *. apply nth_error_In in H. auto.
Qed.
Lemma Forall2_nth {A B} (Q : A -> B -> Prop) l m : Forall2 Q l m -> forall j a b, nth_error l j = Some a -> nth_error m j = Some b -> Q a b.
Proof. induction 1; intros [|j] a b Ha Hb; simpl in *; try discriminate; eauto. inversion Ha; inversion Hb; subst; auto. Qed.

Lemma returns_and {A} G (m : M A) P Q : returns_if G m P -> returns_if G m Q -> returns_if G m (fun a => P a /\ Q a).
Proof. intros H1 H2 o k V g. specialize (H1 o k V g). specialize (H2 o k V g). cbv beta in *. destruct (fst (m o k)); auto. Qed.
Section Params.
Context (G : oracle -> Prop) (P : M_skel.skel -> Prop) (dim fuel mp maxp : nat) (vol : list (list R) -> nat -> R) (disc : list (list R) -> nat -> R -> R)
  (grad : list R -> list R -> R -> R -> R -> R -> R -> list R) (log_prior : list (list R) -> R) (loglik : list (list R) -> anchorage -> option nat -> R * R)
  (batch : nat) (precoin : bool) (pr : R) (maxf : nat).
Definition dual_keeps (thi thi' : list (list R)) : Prop := forall dt y v0 v1 s up, 0 < dt -> (y < dim)%nat -> P s ->
  returns_if G (sw_param_coin fuel mp maxp vol disc grad thi thi' dt y v0 v1 s up batch) (fun r => P (snd r)).
(** what a section leaves alone *)
Definition kept (h : anchorage) (state : nat) (z z' : partition) : Prop :=
  length z' = length z /\ forall j, nth_error (a_y h) j <> Some state -> nth_error z' j = nth_error z j.
Lemma kept_trans h i z1 z2 z3 : kept h i z1 z2 -> kept h i z2 z3 -> kept h i z1 z3.
Proof. intros [A B] [C D]. split; [congruence|]. intros j Hj. rewrite D, B; auto. Qed.
Lemma flip_param_ok thi thi' z h up state : sized3 z h -> returns_if G (flip_param_coins fuel mp maxp vol disc grad batch thi thi' z h up state) (fun r => kept h state z (snd r)).
Proof.
  intros HS. unfold flip_param_coins. eapply returns_bind.
  - apply returns_map_m with (P := fun q r => snd (fst (fst (fst q))) <> state -> snd r = snd q). intros [[[[dt y0] v0] v1] s] Hin. cbn [fst snd].
    destruct (Nat.eqb_spec y0 state); [eapply returns_weaken; [apply returns_triv|]; intros; congruence|apply returns_ret; auto].
  - intros rs Hrs. unfold collect_coins. destruct rs as [|r0 rs0]; [apply returns_raise|]. apply returns_ret. cbn [snd]. remember (r0 :: rs0) as rs. clear Heqrs.
    assert (L : length rs = length z). { apply Forall2_length in Hrs. rewrite <- Hrs. apply ivals_len; auto. }
    split; [rewrite map_length; auto|]. intros j Hj. destruct (nth_error z j) as [s|] eqn:Ez.
    + assert (Hl : (j < length z)%nat) by (apply nth_error_Some; congruence).
      destruct (nth_error rs j) as [r|] eqn:Er; [|apply nth_error_None in Er; lia]. erewrite map_nth_error by eauto.
      destruct (nth_error (ivals h z) j) as [q|] eqn:Eq; [|apply nth_error_None in Eq; rewrite ivals_len in Eq; auto; lia].
      pose proof (Forall2_nth _ _ _ Hrs j q r Eq Er) as HQ. apply ivals_nth in Eq. destruct q as [[[[dt y0] v0] v1] s']. destruct Eq as (_ & Ey & Es). cbn [fst snd] in HQ. rewrite HQ; congruence.
    + apply nth_error_None. rewrite map_length, L. apply nth_error_None. auto.
Qed.
Lemma flip_param_P thi thi' z h up state : sized3 z h -> StronglySorted Rlt (a_t h) -> Forall (fun s => (s < dim)%nat) (a_y h) -> dual_keeps thi thi' -> Forall P z ->
  returns_if G (flip_param_coins fuel mp maxp vol disc grad batch thi thi' z h up state) (fun r => Forall P (snd r)).
Proof.
  intros HS HT HD HK HP. rewrite Forall_forall in HD, HP. unfold flip_param_coins. eapply returns_bind.
  - apply returns_map_m with (P := fun q r => P (snd r)). intros q Hin. destruct (In_nth_error _ _ Hin) as [j Hj]. apply ivals_nth in Hj. destruct q as [[[[dt y0] v0] v1] s]. destruct Hj as (Hd & Hy & Hz).
    destruct (Nat.eqb_spec y0 state); [apply HK|apply returns_ret; apply HP]; try (eapply nth_error_In; eauto). eapply diff_pos; eauto. apply HD; eapply nth_error_In; eauto. apply HP; eapply nth_error_In; eauto.
  - intros rs Hrs. unfold collect_coins. destruct rs as [|r0 rs0]; [apply returns_raise|]. apply returns_ret. cbn [snd]. revert Hrs. generalize (r0 :: rs0), (ivals h z). clear. intros l m H. induction H; simpl; constructor; auto.
Qed.
Definition sec_ok thi z h state (prop : list R -> Prop) (r : bool * list (list R) * partition) : Prop :=
  let '(acc, thi', z') := r in kept h state z z' /\ if acc : bool then exists q, prop q /\ thi' = list_set thi state q else thi' = thi.
Lemma param_section_ok propose thi z h state (Q : list R -> Prop) : sized3 z h -> returns_if G propose (fun p => Q (fst (fst p))) ->
  returns_if G (update_params_section fuel mp maxp vol disc grad log_prior loglik batch precoin pr maxf propose thi z h state) (sec_ok thi z h state Q).
Proof.
  intros HS HP. rewrite param_section_old. eapply returns_bind; [exact HP|]. intros [[q lf] lb] HQ. cbn [fst] in HQ. cbv zeta.
  set (flip := fun (first : bool) (s : partition) => _).
  assert (HR : forall w1 w2 : R, returns_if G (do r <- sample_twocoin_joint flip (fun s => ret s) w1 w2 pr maxf z; let '((accept, _, z_acc), _) := r in ret (accept, if (accept : bool) then list_set thi state q else thi, z_acc)) (sec_ok thi z h state Q)).
  { intros w1 w2. eapply returns_bind.
    - apply twocoin_joint_inv with (I := kept h state z) (Q := kept h state z); [|apply returns_ret; split; auto].
      intros b s Hs. unfold flip. eapply returns_bind; [apply flip_param_ok|]. { destruct Hs as [E _]. unfold sized3 in *. rewrite E. exact HS. }
      intros r Hr. apply returns_ret. cbn [fst snd]. split; eapply kept_trans; eauto.
    - intros [[[acc e] a] s] H. cbn [fst snd] in H. apply returns_ret. unfold sec_ok. split; auto. destruct acc; eauto. }
  destruct precoin; [|apply HR]. eapply returns_bind; [apply returns_triv|]. intros b _. destruct b; [apply HR|]. apply returns_ret. unfold sec_ok, kept. auto.
Qed.
Lemma param_section_P propose thi z h state (Q : list R -> Prop) : sized3 z h -> StronglySorted Rlt (a_t h) -> Forall (fun s => (s < dim)%nat) (a_y h) -> Forall P z ->
  returns_if G propose (fun p => Q (fst (fst p))) -> (forall q, Q q -> dual_keeps thi (list_set thi state q)) ->
  returns_if G (update_params_section fuel mp maxp vol disc grad log_prior loglik batch precoin pr maxf propose thi z h state) (fun r => Forall P (snd r)).
Proof.
  intros HS HT HD HZ HP HK. rewrite param_section_old. eapply returns_bind; [exact HP|]. intros [[q lf] lb] HQ. cbn [fst] in HQ. cbv zeta.
  set (flip := fun (first : bool) (s : partition) => _).
  assert (HR : forall w1 w2 : R, returns_if G (do r <- sample_twocoin_joint flip (fun s => ret s) w1 w2 pr maxf z; let '((accept, _, z_acc), _) := r in ret (accept, if (accept : bool) then list_set thi state q else thi, z_acc)) (fun r => Forall P (snd r))).
  { intros w1 w2. eapply returns_bind.
    - apply twocoin_joint_inv with (I := fun s => sized3 s h /\ Forall P s) (Q := Forall P); [|apply returns_ret; split; auto].
      intros b s [Hs Ps]. unfold flip. eapply returns_bind; [apply (returns_and G _ _ _ (flip_param_ok thi (list_set thi state q) s h b state Hs) (flip_param_P thi (list_set thi state q) s h b state Hs HT HD (HK q HQ) Ps))|].
      intros r [[E _] Hr]. apply returns_ret. cbn [fst snd]. unfold sized3 in *. rewrite E. auto.
    - intros [[[acc e] a] s] H. cbn [fst snd] in H. apply returns_ret. exact H. }
  destruct precoin; [|apply HR]. eapply returns_bind; [apply returns_triv|]. intros b _. destruct b; [apply HR|]. apply returns_ret. auto.
Qed.
End Params.
