(** The sampler of ito/mcmc.py: seeds, parameters, locality. *)
From Coq Require Import Reals List Bool Arith ZArith Lia Lra Sorted FunctionalExtensionality.
From Verif Require Import Base Np Rng L_list L_rng L_prop L_occ M_mjp M_bf M_path M_skel M_seed M_models M_sw M_mcem M_ito SpecSkel SpecSeed SpecIto
  L_sde2 L_sde3 L_skel L_skel4 L_seed L_seed2 L_seed3 L_seed4 L_sw L_sw4 L_sw6 L_sw7 L_sw8 L_sw10 L_sw11 L_sw13 L_em5 L_step.
Import ListNotations.
Local Open Scope R_scope.

Notation okseed := (fun s : M_skel.skel => standard s /\ ends 1 0 0 s).
Lemma Forall2_refl {A} (P : A -> A -> Prop) l : (forall a, P a a) -> Forall2 P l l.
Proof. intros H. induction l; constructor; auto. Qed.
Lemma Forall2_trans {A} (P : A -> A -> Prop) l m n : (forall a b c, P a b -> P b c -> P a c) -> Forall2 P l m -> Forall2 P m n -> Forall2 P l n.
Proof. intros HT H. revert n. induction H; intros n Hn; inversion Hn; subst; constructor; eauto. Qed.

(** ** intervals *)
Lemma normops_nth reduce t vt thi j n : nth_error (ito_normops reduce t vt thi) j = Some n -> exists a b v0 v1,
  nth_error t j = Some a /\ nth_error t (S j) = Some b /\ nth_error vt j = Some v0 /\ nth_error vt (S j) = Some v1 /\
  n = (ito_norm (b - a) (reduce thi v0) (reduce thi v1), ito_denorm (b - a) (reduce thi v0) (reduce thi v1)).
Proof.
  unfold ito_normops. cbv zeta. rewrite nth_error_map. unfold zip3. rewrite !nth_error_combine. intros H.
  destruct (nth_error (np_diff t) j) as [d|] eqn:E1; [|discriminate]. destruct (nth_error (map (reduce thi) vt) j) as [x0|] eqn:E2; [|discriminate].
  destruct (nth_error (tl (map (reduce thi) vt)) j) as [x1|] eqn:E3; [|discriminate]. cbn in H. injection H as <-.
  assert (L : (j < length t - 1)%nat) by (rewrite <- np_diff_length; apply nth_error_Some; congruence).
  rewrite nth_error_map in E2. destruct (nth_error vt j) as [v0|] eqn:V0; [|discriminate]. injection E2 as <-.
  assert (E4 : nth_error (map (reduce thi) vt) (S j) = Some x1). { destruct (map (reduce thi) vt); [destruct j; discriminate|exact E3]. }
  rewrite nth_error_map in E4. destruct (nth_error vt (S j)) as [v1|] eqn:V1; [|discriminate]. injection E4 as <-.
  exists (nth j t 0), (nth (S j) t 0), v0, v1. rewrite !(nth_error_nth' t 0) by lia. repeat split.
  apply nth_error_nth with (d := 0) in E1. rewrite nth_diff in E1 by auto. now rewrite E1.
Qed.
Lemma normops_length reduce t vt thi : length vt = length t -> length (ito_normops reduce t vt thi) = (length t - 1)%nat.
Proof. intros H. unfold ito_normops. cbv zeta. unfold zip3. rewrite map_length, !combine_length, np_diff_length, tl_length, !map_length. lia. Qed.
Lemma two_at {A} (l : list A) i a b : nth_error l i = Some a -> nth_error l (S i) = Some b -> firstn 2 (skipn i l) = [a; b].
Proof.
  revert l; induction i as [|i IH]; intros l H1 H2.
  - destruct l as [|x [|y l]]; try discriminate. injection H1 as ->. injection H2 as ->. reflexivity.
  - destruct l as [|x l]; [discriminate|]. apply IH; auto.
Qed.
Lemma sub_t_two t i a b : nth_error t i = Some a -> nth_error t (S i) = Some b -> sub_t t i = Some [0; b - a].
Proof. intros H1 H2. unfold sub_t. rewrite H1. cbn [option_map]. rewrite (two_at _ _ _ _ H1 H2). cbn [map]. do 2 f_equal. ring. Qed.
Lemma sub_v_two vt i a b : nth_error vt i = Some a -> nth_error vt (S i) = Some b -> sub_v vt i = [a; b].
Proof. apply two_at. Qed.
Lemma sub_normops reduce thi d v0 v1 : ito_normops reduce [0; d] [v0; v1] thi = [(ito_norm d (reduce thi v0) (reduce thi v1), ito_denorm d (reduce thi v0) (reduce thi v1))].
Proof. unfold ito_normops. cbn. repeat f_equal; ring. Qed.
Lemma series_pos t vt j a b : series t vt -> nth_error t j = Some a -> nth_error t (S j) = Some b -> 0 < b - a.
Proof. intros [_ _ HS] H1 H2. pose proof (sorted_nth2 _ _ _ _ _ HS (Nat.lt_succ_diag_r j) H1 H2). lra. Qed.

Section Ito.
Context (fuel mp maxp : nat) (lb ub : ext) (reduce disc : list R -> R -> R) (bounds : list R -> bounds_fun)
  (grad : list R -> list R -> R -> R -> R -> R -> R -> list R) (log_prior : list R -> R) (loglik : list R -> list R -> list R -> R)
  (batch : nat) (precoin : bool) (pr : R) (maxf : nat) (t vt : list R).
Hypothesis HS : series t vt.
Hypothesis Hm : (0 < maxp)%nat.
(** ** augmentation *)
Lemma aug_ok thi : (forall v, In v vt -> inside lb ub (reduce thi v)) ->
  returns_if generic (ito_sample_aug fuel mp maxp lb ub reduce t vt thi) (seeds_ok t).
Proof.
  intros HI. unfold ito_sample_aug. eapply returns_weaken.
  - apply (returns_map_m generic) with (P := fun _ s => standard s /\ ends 1 0 0 s). intros n Hn. apply In_nth_error in Hn as [j Hj].
    destruct (normops_nth _ _ _ _ _ _ Hj) as (a & b & v0 & v1 & T1 & T2 & V1 & V2 & ->). cbn [fst snd]. pose proof (series_pos _ _ _ _ _ HS T1 T2) as HP.
    intros o k V [G1 G2]. destruct (HI v0 ltac:(eapply nth_error_In; eauto)) as [A1 A2]. destruct (HI v1 ltac:(eapply nth_error_In; eauto)) as [B1 B2].
    pose proof (raw_seed_returns _ _ (b - a) _ (reduce thi v0) (reduce thi v1) (ito_operators _ _ _) HP fuel mp maxp lb ub (sqrt_lt_R0 _ HP)
       ltac:(unfold Rmin; destruct (Rle_dec _ _); auto) ltac:(unfold Rmax; destruct (Rle_dec _ _); auto) Hm o k V G1) as H.
    destruct (fst _); auto. destruct H as (W & E & _). split; auto. split; auto. apply E.
  - intros z F. split.
    + apply L_prop.Forall2_length in F. rewrite <- F, normops_length by apply HS. destruct HS. lia.
    + clear - F. induction F; constructor; auto.
Qed.
(** ** the Poisson coin of one interval *)
Lemma sde_coin thi d v0 v1 s : 0 < d -> standard s ->
  returns_if generic (flip_sde_coins fuel mp maxp reduce disc bounds batch thi [s] [0; d] [v0; v1])
    (fun r => exists q, snd r = [q] /\ standard q /\ extends s q).
Proof using Type.
  intros Hd ST. unfold flip_sde_coins. rewrite sub_normops. cbn [combine map_m fst snd].
  eapply returns_bind with (Q := fun rs => exists q, map snd rs = [q] /\ standard q /\ extends s q).
  - eapply returns_bind with (Q := fun r => standard (snd r) /\ extends s (snd r)).
    + eapply returns_bind; [apply (seed_coin_returns _ _ d _ (reduce thi v0) (reduce thi v1) (ito_operators _ _ _) Hd (sqrt_lt_R0 _ Hd)); auto|]. intros r Hr. apply returns_ret. exact Hr.
    + intros r [H1 H2]. eapply returns_bind with (Q := fun l => l = []); [apply returns_ret; reflexivity|]. intros l ->. apply returns_ret. exists (snd r). auto.
  - intros rs (q & E & H). unfold collect_coins. destruct rs as [|r0 rs]; [discriminate|]. apply returns_ret. exists q. auto.
Qed.
Lemma bridge_ok i thi zn zp a b v0 v1 : nth_error t i = Some a -> nth_error t (S i) = Some b -> nth_error vt i = Some v0 -> nth_error vt (S i) = Some v1 ->
  standard zn -> standard zp ->
  returns_if generic (update_sde_bridge fuel mp maxp reduce disc bounds batch pr maxf i thi zn zp t vt) (fun z => standard z /\ (extends zn z \/ extends zp z)).
Proof using HS. clear Hm precoin loglik log_prior grad lb ub.
  intros T1 T2 V1 V2 S1 S2. unfold update_sde_bridge. rewrite (sub_t_two _ _ _ _ T1 T2), (sub_v_two _ _ _ _ V1 V2). pose proof (series_pos _ _ _ _ _ HS T1 T2) as HP.
  eapply returns_bind with (Q := fun ts => ts = [0; b - a]); [apply returns_lift_opt; intros x Hx; injection Hx as <-; reflexivity|]. intros ts ->. cbv zeta.
  set (flip := fun (first : bool) (s : M_skel.skel * M_skel.skel) => _).
  eapply returns_bind; [apply returns_triv|]. intros wn _. eapply returns_bind; [apply returns_triv|]. intros wp _.
  eapply returns_bind with (Q := fun r => standard (snd (fst r)) /\ (extends zn (snd (fst r)) \/ extends zp (snd (fst r)))); [|intros r Hr; apply returns_ret; exact Hr].
  eapply returns_weaken.
  - apply twocoin_inv with (I := fun s => (standard (fst s) /\ extends zp (fst s)) /\ (standard (snd s) /\ extends zn (snd s))) (QT := fun z => standard z /\ extends zp z) (QF := fun z => standard z /\ extends zn z).
    + intros [|] [sp sn] [[I1 I2] [I3 I4]]; cbn [fst snd] in *; unfold flip; cbn [fst snd].
      * eapply returns_bind; [apply sde_coin; auto|]. intros r (q & E & Q1 & Q2). rewrite E. eapply returns_bind with (Q := fun x => x = q); [apply returns_ret; reflexivity|]. intros x ->. apply returns_ret. cbn [fst snd].
        assert (extends zp q) by (eapply extends_trans; eauto). auto.
      * eapply returns_bind; [apply sde_coin; auto|]. intros r (q & E & Q1 & Q2). rewrite E. eapply returns_bind with (Q := fun x => x = q); [apply returns_ret; reflexivity|]. intros x ->. apply returns_ret. cbn [fst snd].
        assert (extends zn q) by (eapply extends_trans; eauto). auto.
    + split; [auto|apply extends_refl].
    + cbn [fst snd]. split; (split; [auto|apply extends_refl]).
  - intros [[[acc e] z] s]. cbn [fst snd]. destruct acc; tauto.
Qed.
Lemma sde_ok omes thi z : (forall v, In v vt -> inside lb ub (reduce thi v)) -> (forall j, valid (omes j) /\ generic (omes j)) -> seeds_ok t z ->
  returns_if generic (update_sde fuel mp maxp lb ub reduce disc bounds batch pr maxf omes thi z t vt) (seeds_ok t).
Proof.
  intros HI HO [L1 F1]. unfold update_sde. eapply returns_bind; [apply aug_ok; exact HI|]. intros zp [L2 F2]. apply returns_lift. intros z' E.
  pose proof (run_jobs_ok generic omes _ (fun p z => standard z /\ ends 1 0 0 z) HO _ _ _ E) as F. rewrite Forall_forall in F1, F2.
  assert (F' : Forall2 (fun (p : nat * skel * skel) z => standard z /\ ends 1 0 0 z) (zip3 (seq 0 (length z)) z zp) z').
  { apply F. intros [[i zn] zq] Hin. cbn [fst snd]. apply in_zip3 in Hin as (j & J1 & J2 & J3).
    assert (Hj : (j < length z)%nat) by (apply nth_error_Some; congruence). destruct HS as [L0 L02 SS].
    rewrite (nth_error_nth' _ 0%nat) in J1 by (rewrite seq_length; lia). rewrite seq_nth in J1 by lia. injection J1 as <-.
    destruct (F1 zn) as [A1 A2]; [eapply nth_error_In; eauto|]. destruct (F2 zq) as [B1 B2]; [eapply nth_error_In; eauto|].
    eapply returns_weaken; [eapply (bridge_ok (0 + j)); try apply nth_error_nth' with (d := 0); auto; simpl; lia|].
    intros x [X1 [X2|X2]]; (split; [auto|]); eapply ends_extends; eauto. }
  split.
  - apply L_prop.Forall2_length in F'. rewrite <- F'. unfold zip3. rewrite !combine_length, seq_length. lia.
  - clear - F'. induction F'; constructor; auto.
Qed.
(** ** the dual coin *)
Lemma dual_ok thi thi' d v0 v1 s up : 0 < d -> standard s ->
  returns_if generic (ito_param_coin fuel mp maxp reduce disc grad thi thi' d v0 v1 s up batch) (fun r => standard (snd r) /\ extends s (snd r)).
Proof using Type.
  intros Hd ST o k V G. unfold ito_param_coin. cbv zeta. replace (d - 0) with d by ring. destruct (fst _) as [[acc s']| |] eqn:F; auto.
  destruct (dual_statement _ _ _ _ d _ _ _ _ _ _ (ito_operators d (reduce thi v0) (reduce thi v1)) (ito_operators d (reduce thi' v0) (reduce thi' v1)) Hd _ _ _ _ _ _ _ _ _ _ _ _ _ ST V G F) as (log & _ & _ & A & B & _). cbn [snd]. auto.
Qed.
Lemma coins_ok thi thi' z up : S (length z) = length t -> Forall standard z ->
  returns_if generic (ito_flip_param_coins fuel mp maxp reduce disc grad batch thi thi' z t vt up) (fun r => Forall standard (snd r) /\ Forall2 extends z (snd r)).
Proof using HS. clear Hm precoin loglik log_prior lb ub bounds pr maxf.
  intros HL HF. rewrite Forall_forall in HF. unfold ito_flip_param_coins. eapply returns_bind.
  - apply (returns_map_m generic) with (P := fun p r => standard (snd r) /\ extends (snd p) (snd r)). intros [i s] Hin. cbn [fst snd]. pose proof (in_combine_r _ _ _ _ Hin) as Hs.
    apply combine_nth_in in Hin as (j & J1 & J2). assert (Hj : (j < length z)%nat) by (apply nth_error_Some; congruence). destruct HS as [L0 L02 SS].
    rewrite (nth_error_nth' _ 0%nat) in J1 by (rewrite seq_length; lia). rewrite seq_nth in J1 by lia. cbn [Nat.add] in J1. injection J1 as <-.
    assert (T1 : nth_error t j = Some (nth j t 0)) by (apply nth_error_nth'; simpl; lia). assert (T2 : nth_error t (S j) = Some (nth (S j) t 0)) by (apply nth_error_nth'; simpl; lia).
    rewrite (sub_t_two _ _ _ _ T1 T2). rewrite (sub_v_two vt j (nth j vt 0) (nth (S j) vt 0)) by (apply nth_error_nth'; simpl; lia).
    pose proof (series_pos _ _ _ _ _ HS T1 T2) as HP.
    eapply returns_bind with (Q := fun ts => ts = [0; nth (S j) t 0 - nth j t 0]); [apply returns_lift_opt; intros x Hx; injection Hx as <-; reflexivity|]. intros ts ->.
    eapply returns_bind with (Q := fun d => d = nth (S j) t 0 - nth j t 0); [apply returns_lift_opt; intros x Hx; injection Hx as <-; reflexivity|]. intros d ->.
    eapply returns_bind; [apply returns_triv|]. intros v0 _. eapply returns_bind; [apply returns_triv|]. intros v1 _. apply dual_ok; auto.
  - intros rs F. unfold collect_coins. destruct rs as [|r0 rs0]; [apply returns_raise|]. apply returns_ret. cbn [snd]. revert F. generalize (r0 :: rs0) as rs. clear - HL.
    intros rs F. assert (E : z = map snd (combine (seq 0 (length z)) z)). { clear. generalize 0%nat. induction z; intros n; cbn; f_equal; auto. }
    rewrite E at 1. clear E. induction F as [|p r l m H F IH]; cbn [map]; [split; constructor|]. destruct H, IH. split; constructor; auto.
Qed.
Lemma params_ok propose thi z o k s acc thi' z' k' : valid o -> generic o -> S (length z) = length t -> Forall standard z ->
  ito_params fuel mp maxp reduce disc grad log_prior loglik batch precoin pr maxf propose thi z t vt o k = (Ok (s, acc, thi', z'), k') ->
  (s < length thi)%nat /\ s = ora_n o k (DPick (length thi)) /\
  (exists q lf lb' k1, propose s o (S k) = (Ok (q, lf, lb'), k1) /\ thi' = (if acc : bool then list_set thi s q else thi)) /\
  Forall standard z' /\ Forall2 extends z z'.
Proof using HS. clear Hm lb ub bounds.
  intros V G HL HF E. unfold ito_params in E. destruct (Nat.eqb_spec (length thi) 0) as [|N]; [discriminate|]. unfold bind at 1, draw_n at 1 in E.
  set (s0 := ora_n o k (DPick (length thi))) in *. assert (B : (s0 < length thi)%nat) by (apply (proj2 V k (DPick (length thi)) Logic.I); lia).
  unfold bind at 1 in E. destruct (propose s0 o (S k)) as [[[[q lf] lb']|e|] k1] eqn:EP; try discriminate.
  cbv zeta in E. set (flip := fun (first : bool) (s : partition) => _) in E. unfold ito_step in E.
  rewrite (joint_old (s0, false, thi, z) (fun (accept : bool) z_acc => (s0, accept, if (accept : bool) then list_set thi s0 q else thi, z_acc))) in E. cbv zeta in E.
  assert (HR : forall w1 w2, returns_if generic (do r <- sample_twocoin_joint flip (fun s => ret s) w1 w2 pr maxf z; let '((accept, _, z_acc), _) := r in ret (s0, accept, if (accept : bool) then list_set thi s0 q else thi, z_acc))
     (fun r => let '(s, acc, thi', z') := r in s = s0 /\ thi' = (if acc : bool then list_set thi s0 q else thi) /\ Forall standard z' /\ Forall2 extends z z')).
  { intros w1 w2. eapply returns_bind.
    - apply twocoin_joint_inv with (I := fun z' => Forall standard z' /\ Forall2 extends z z') (Q := fun z' => Forall standard z' /\ Forall2 extends z z').
      + intros b zz [I1 I2]. unfold flip. eapply returns_bind; [apply coins_ok; auto; rewrite <- (L_prop.Forall2_length _ _ _ I2); exact HL|]. intros r [R1 R2]. apply returns_ret. cbn [fst snd].
        assert (Forall2 extends z (snd r)) by (eapply Forall2_trans; [apply extends_trans|exact I2|exact R2]). auto.
      + apply returns_ret. split; auto. apply Forall2_refl. apply extends_refl.
    - intros [[[a0 e] z0] s1] H. cbn [fst snd] in H. apply returns_ret. tauto. }
  assert (FIN : s = s0 /\ thi' = (if acc : bool then list_set thi s0 q else thi) /\ Forall standard z' /\ Forall2 extends z z').
  { destruct precoin.
    - unfold bind at 1 in E. destruct (o_ulog_lt _ o k1) as [[[|]|e|] k2]; try discriminate.
      + pose proof (HR 0 0 o k2 V G) as X. rewrite E in X. exact X.
      + injection E as <- <- <- <- <-. repeat split; auto. apply Forall2_refl. apply extends_refl.
    - pose proof (HR (loglik (list_set thi s0 q) t vt + log_prior (list_set thi s0 q) + lb') (loglik thi t vt + log_prior thi + lf) o k1 V G) as X. rewrite E in X. exact X. }
  destruct FIN as (-> & -> & F1 & F2). split; auto. split; auto. split; [|auto]. exists q, lf, lb', k1. auto.
Qed.
(** ** the chain *)
Section Chain.
Context (adm : list R -> Prop).
Hypothesis HA : forall thi, adm thi -> forall v, In v vt -> inside lb ub (reduce thi v).
Definition ito_inv (n : nat) (c : list R * partition) : Prop := adm (fst c) /\ length (fst c) = n /\ seeds_ok t (snd c).
Lemma ito_joint_ok i thi z n : ito_inputs_ok adm i -> ito_inv n (thi, z) ->
  returns_if generic (ito_update_joint fuel mp maxp lb ub reduce disc bounds grad log_prior loglik batch precoin pr maxf i thi z t vt) (ito_inv n).
Proof.
  intros [IP IO] (A1 & A2 & A3 & A4). cbn [fst snd] in *. unfold ito_update_joint.
  eapply returns_bind with (Q := fun r => let '(_, _, thi', z') := r in ito_inv n (thi', z')).
  - intros o k V G. destruct (ito_params _ _ _ _ _ _ _ _ _ _ _ _ _ _ _ _ _ o k) as [[[[[s acc] thi'] z']|e|] k'] eqn:E; cbn [fst]; auto.
    apply params_ok in E; auto. 2:{ eapply Forall_impl; [|exact A4]. simpl; tauto. }
    destruct E as (B & _ & (q & lf & lb' & k1 & EP & ->) & F1 & F2).
    split; [|split; [|split]]; cbn [fst snd].
    + destruct acc; auto. pose proof (IP thi s A1 B o (S k) V G) as X. rewrite EP in X. exact X.
    + destruct acc; auto. rewrite list_set_length. auto.
    + rewrite <- (L_prop.Forall2_length _ _ _ F2). exact A3.
    + clear - F1 F2 A4. induction F2; constructor; inversion F1; inversion A4; subst; auto. split; auto. eapply ends_extends; eauto. tauto.
  - intros [[[s acc] thi'] z'] (B1 & B2 & B3). cbn [fst snd] in *. eapply returns_bind; [apply sde_ok; auto|]. intros z'' H. apply returns_ret. split; auto.
Qed.
Lemma ito_resume_ok n ins : Forall (ito_inputs_ok adm) ins -> forall thi z, ito_inv n (thi, z) ->
  returns_if generic (ito_resume fuel mp maxp lb ub reduce disc bounds grad log_prior loglik batch precoin pr maxf ins thi z t vt) (fun l => length l = length ins /\ Forall (ito_inv n) l).
Proof.
  induction 1 as [|i ins Hi _ IH]; intros thi z Hc; cbn [ito_resume]; [apply returns_ret; auto|].
  eapply returns_bind; [apply ito_joint_ok; eauto|]. intros c' Hc'. eapply returns_bind; [apply IH; destruct c'; exact Hc'|]. intros l [Hl1 Hl2]. apply returns_ret. simpl. auto.
Qed.
Lemma ito_posterior_ok init ins : adm init -> Forall (ito_inputs_ok adm) ins ->
  returns_if generic (ito_sample_posterior fuel mp maxp lb ub reduce disc bounds grad log_prior loglik batch precoin pr maxf init t vt ins)
    (fun l => length l = length ins /\ Forall (fun c => adm (fst c) /\ length (fst c) = length init /\ seeds_ok t (snd c)) l).
Proof.
  intros HI HF. unfold ito_sample_posterior. eapply returns_bind; [apply aug_ok; auto|]. intros z Hz. apply ito_resume_ok; auto. split; auto.
Qed.
End Chain.
End Ito.
