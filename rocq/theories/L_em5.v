(** Once built, the objective of the M-step makes no draws. *)
From Coq Require Import Reals List Bool Arith ZArith Lia Lra Sorted Permutation.
From Verif Require Import Base Np Rng L_list L_rng L_prop L_occ L_bridge M_mjp M_inf M_adapt M_path M_skel M_seed M_models M_sw M_chain M_mcem SpecSkel SpecSeed SpecSw SpecEm
  L_sde2 L_sde3 L_skel7 L_seed L_seed2 L_sw4 L_sw6 L_sw7.
Import ListNotations.
Local Open Scope R_scope.

Lemma run_draws {A} d (l : list A) : forall o k, map_m (fun _ => draw_r d) l o k = (Ok (map (fun i => ora_r o (k + i)%nat d) (seq 0 (length l))), (k + length l)%nat).
Proof.
  induction l as [|a l IH]; intros o k; cbn [map_m length seq map]; [now rewrite Nat.add_0_r|].
  unfold bind at 1, draw_r at 1. erewrite run_bind by (apply IH). unfold ret. f_equal; [|lia]. do 2 f_equal; [now rewrite Nat.add_0_r|].
  rewrite <- seq_shift, map_map. apply map_ext. intros i. f_equal. lia.
Qed.
Lemma supports_ok n dt : 0 < dt -> returns_if generic (supports n dt) (fun l => StronglySorted Rlt l /\ length l = n).
Proof.
  intros HT o k V [_ U2]. unfold supports. erewrite run_bind by apply run_draws. unfold ret. cbn [fst]. set (l := map _ _).
  assert (P := np_sort_perm l). split; [|rewrite (Permutation_length P); unfold l; now rewrite map_length, !seq_length].
  apply NoDup_sorted_lt; [|apply np_sort_sorted]. eapply Permutation_NoDup; [apply Permutation_sym; exact P|]. unfold l.
  apply FinFun.Injective_map_NoDup; [|apply seq_NoDup]. intros i j E. destruct (Nat.eq_dec i j) as [H|H]; [exact H|]. exfalso. apply (U2 (k + i)%nat (k + j)%nat 0 dt HT); [lia|exact E].
Qed.
Lemma det_map_m {A B} (f : A -> M B) (P : A -> B -> Prop) l : (forall a, In a l -> exists b, det (f a) b /\ P a b) -> exists bs, det (map_m f l) bs /\ Forall2 P l bs.
Proof.
  induction l as [|a l IH]; intros H; [exists []; split; [intros o k; reflexivity|constructor]|]. destruct (H a (or_introl eq_refl)) as (b & Hb & Pb). destruct IH as (bs & Hbs & F); [intros; apply H; now right|].
  exists (b :: bs). split; [|now constructor]. intros o k. cbn [map_m]. rewrite (run_bind _ _ _ _ _ _ (Hb o k)). now rewrite (run_bind _ _ _ _ _ _ (Hbs o k)).
Qed.
Lemma det_bind {A B} (m : M A) (f : A -> M B) a b : det m a -> det (f a) b -> det (bind m f) b.
Proof. intros H1 H2 o k. rewrite (run_bind _ _ _ _ _ _ (H1 o k)). apply H2. Qed.
Lemma in_zip3 {A B C} (l : list A) (m : list B) (n : list C) a b c : In (a, b, c) (zip3 l m n) -> exists i, nth_error l i = Some a /\ nth_error m i = Some b /\ nth_error n i = Some c.
Proof. intros H. apply combine_nth_in in H as (i & H1 & H2). rewrite nth_error_combine in H1. destruct (nth_error l i) eqn:E1, (nth_error m i) eqn:E2; try discriminate. injection H1 as -> ->. eauto. Qed.
Lemma nth_zip3 {A B C} (l : list A) (m : list B) (n : list C) i a b c : nth_error l i = Some a -> nth_error m i = Some b -> nth_error n i = Some c -> nth_error (zip3 l m n) i = Some (a, b, c).
Proof. intros H1 H2 H3. unfold zip3. rewrite !nth_error_combine, H1, H2, H3. reflexivity. Qed.
Lemma in_zip4 {A B C D} (l : list A) (m : list B) (n : list C) (q : list D) a b c d : In (a, b, c, d) (zip4 l m n q) -> exists i, nth_error l i = Some a /\ nth_error m i = Some b /\ nth_error n i = Some c /\ nth_error q i = Some d.
Proof. intros H. apply combine_nth_in in H as (i & H1 & H2). change (combine (combine l m) n) with (zip3 l m n) in H1. apply nth_error_In in H1 as H3. unfold zip3 in H1. rewrite !nth_error_combine in H1.
  destruct (nth_error l i) eqn:E1, (nth_error m i) eqn:E2, (nth_error n i) eqn:E3; try discriminate. injection H1 as -> -> ->. eauto 6. Qed.
Lemma nth_zip4 {A B C D} (l : list A) (m : list B) (n : list C) (q : list D) i a b c d : nth_error l i = Some a -> nth_error m i = Some b -> nth_error n i = Some c -> nth_error q i = Some d -> nth_error (zip4 l m n q) i = Some (a, b, c, d).
Proof. intros H1 H2 H3 H4. unfold zip4. rewrite !nth_error_combine, H1, H2, H3, H4. reflexivity. Qed.
Lemma Forall2_nth_r {A B} (P : A -> B -> Prop) l r i b : Forall2 P l r -> nth_error r i = Some b -> exists a, nth_error l i = Some a /\ P a b.
Proof. intros F. revert i. induction F as [|a b' l r H F IH]; intros [|i] E; try discriminate; cbn in *; [injection E as <-; eauto|]. apply IH. exact E. Qed.
Lemma Forall2_nth_l {A B} (P : A -> B -> Prop) l r i a : Forall2 P l r -> nth_error l i = Some a -> exists b, nth_error r i = Some b /\ P a b.
Proof. intros F. revert i. induction F as [|a' b l r H F IH]; intros [|i] E; try discriminate; cbn in *; [injection E as <-; eauto|]. apply IH. exact E. Qed.

Lemma prepared_det norm denorm dt scale x0 x1 fuel mp n u s : operators norm denorm dt scale x0 x1 -> prepared dt u s -> exists r, det (interpolate_seed fuel mp n norm denorm s u) r.
Proof.
  intros OP ([W HZ] & HT & SU & NE & IN).
  set (o0 := {| ora_r := fun _ _ => 0; ora_n := fun _ _ => 0%nat |}).
  assert (S1 : StronglySorted Rlt (map (fun v => v / dt) u)) by now apply times_sorted.
  assert (S2 : map (fun v => v / dt) u <> []) by (destruct u; [congruence|discriminate]).
  assert (S3 : forall v, In v (map (fun v => v / dt) u) -> In v (k_t s)). { intros v Hv. apply in_map_iff in Hv as (w & <- & Hw). auto. }
  destruct (stored_request fuel mp n s _ o0 0%nat W S1 S2 S3) as (vs & E0 & F0).
  eexists. intros o k. rewrite (interpolate_seed_run norm denorm dt scale x0 x1 OP).
  destruct (stored_request fuel mp n s _ o k W S1 S2 S3) as (vs' & -> & F'). cbn [fst snd].
  assert (vs' = vs) as ->. { clear - F0 F' W. revert vs' F'. induction F0 as [|u0 v0 l0 r0 H F IH]; intros vs' F'; inversion F'; subst; [reflexivity|]. f_equal; [eapply value_unique; eauto|auto]. }
  reflexivity.
Qed.
Lemma prepare norm denorm dt scale x0 x1 fuel mp n u s : operators norm denorm dt scale x0 x1 -> 0 < dt -> standard s -> StronglySorted Rlt u -> u <> [] ->
  returns_if anyo (interpolate_seed fuel mp n norm denorm s u) (fun r => prepared dt u (fst r)).
Proof.
  intros OP HT ST SU NE. eapply returns_weaken; [apply (seed_request norm denorm dt scale x0 x1 OP HT); auto|]. intros r (A & _ & _ & IN & _). split; [exact A|]. split; [exact HT|]. split; [exact SU|]. split; [exact NE|].
  intros v Hv. apply IN. right. replace (v / dt * dt) with v by (field; lra). exact Hv.
Qed.
Lemma map_m_length {A B} G (f : A -> M B) l : returns_if G (map_m f l) (fun r => length r = length l).
Proof. eapply returns_weaken; [apply (returns_map_m G f (fun _ _ => True)); intros; apply returns_triv|]. intros r F. symmetry. clear - F. induction F; cbn; auto. Qed.
Definition supp_ok (dts : list R) (supp : list (list R)) : Prop := Forall2 (fun _ u => StronglySorted Rlt u /\ u <> []) dts supp.
Lemma supports_all n dts : (1 <= n)%nat -> (forall d, In d dts -> 0 < d) -> returns_if generic (map_m (supports n) dts) (supp_ok dts).
Proof.
  intros Hn HD. apply (returns_map_m generic (supports n) (fun _ u => StronglySorted Rlt u /\ u <> [])). intros d Hd. eapply returns_weaken; [apply supports_ok; auto|]. intros l [H1 H2]. split; auto. intros ->. cbn in H2. lia.
Qed.
Lemma zip3_len {A B C} (l : list A) (m : list B) (n : list C) k : length l = k -> length m = k -> length n = k -> length (zip3 l m n) = k.
Proof. intros <- H1 H2. unfold zip3. rewrite !combine_length, H1, H2. lia. Qed.
Section Ito.
Context (fuel mp maxp : nat) (reduce disc : list R -> R -> R) (log_lik log_prior : list R -> R) (t vt : list R).
Hypothesis ST : StronglySorted Rlt t.
Hypothesis LT : (2 <= length t)%nat.
Hypothesis LV : length vt = length t.
Lemma ito_ops_at thi i n : nth_error (ito_normops reduce t vt thi) i = Some n -> exists dt x0 x1, nth_error (np_diff t) i = Some dt /\ 0 < dt /\ operators (fst n) (snd n) dt (sqrt dt) x0 x1.
Proof.
  unfold ito_normops. rewrite nth_error_map. unfold zip3. rewrite !nth_error_combine. destruct (nth_error (np_diff t) i) as [dt|] eqn:E; [|discriminate]. destruct (nth_error (map (reduce thi) vt) i) as [x0|]; [|discriminate].
  destruct (nth_error (tl (map (reduce thi) vt)) i) as [x1|]; [|discriminate]. cbn [option_map]. intros [= <-]. exists dt, x0, x1. split; [reflexivity|]. split; [apply nth_error_In in E; now apply (diff_pos t)|apply ito_operators].
Qed.
Lemma ito_ops_len thi : length (ito_normops reduce t vt thi) = length (np_diff t).
Proof. unfold ito_normops, zip3. rewrite map_length, !combine_length, np_diff_length. destruct vt; cbn in *; rewrite ?map_length; lia. Qed.
Lemma diff_ne : length (np_diff t) <> 0%nat.
Proof. rewrite np_diff_length. lia. Qed.
Lemma ito_est_prepares thi z supp : length z = length (np_diff t) -> Forall standard z -> supp_ok (np_diff t) supp ->
  returns_if anyo (ito_est_log_aug_lik fuel mp maxp reduce disc log_lik t vt thi z supp) (fun r => all_prepared (np_diff t) supp (snd r)).
Proof.
  intros LZ FZ SU. assert (LS : length supp = length (np_diff t)) by (clear - SU; symmetry; induction SU; cbn; auto).
  unfold ito_est_log_aug_lik. eapply returns_bind; [apply (returns_map_m anyo) with (P := fun p r => forall dt, (exists i, nth_error (np_diff t) i = Some dt /\ nth_error (zip3 supp z (ito_normops reduce t vt thi)) i = Some p) -> prepared dt (fst (fst p)) (fst r))|].
  - intros [[u s] n] Hin. intros o k V _. destruct (in_zip3 _ _ _ _ _ _ Hin) as (i & E1 & E2 & E3). destruct (ito_ops_at _ _ _ E3) as (dt & x0 & x1 & E4 & HT & OP).
    destruct (Forall2_nth_l _ _ _ _ _ SU E4) as (u' & Eu & SU' & NE). rewrite E1 in Eu. injection Eu as <-. rewrite Forall_forall in FZ. apply nth_error_In in E2 as E2'.
    enough (X : forall dt', (exists i, nth_error (np_diff t) i = Some dt' /\ nth_error (zip3 supp z (ito_normops reduce t vt thi)) i = Some (u, s, n)) -> returns_if anyo (interpolate_seed fuel mp maxp (fst n) (snd n) s u) (fun r => prepared dt' u (fst r))).
    { destruct (fst (interpolate_seed fuel mp maxp (fst n) (snd n) s u o k)) as [r| |] eqn:ER; auto. intros dt' Hd. specialize (X dt' Hd o k V I). cbv beta in X. rewrite ER in X. exact X. }
    intros dt' (i' & H1 & H2). unfold zip3 in H2. rewrite !nth_error_combine in H2. destruct (nth_error supp i') as [u2|] eqn:F1, (nth_error z i') as [s2|] eqn:F2, (nth_error (ito_normops reduce t vt thi) i') as [n2|] eqn:F3; try discriminate.
    injection H2 as -> -> ->. destruct (ito_ops_at _ _ _ F3) as (dt2 & y0 & y1 & F4 & HT' & OP'). rewrite H1 in F4. injection F4 as <-. eapply prepare; eauto.
  - intros rs F. destruct rs as [|r0 rs0] eqn:ER.
    + exfalso. inversion F as [E|]. symmetry in E. apply (f_equal (@length _)) in E. rewrite (zip3_len _ _ _ (length (np_diff t))) in E; auto using ito_ops_len. cbn in E. exact (diff_ne E).
    + rewrite <- ER in *. apply returns_ret. cbn [snd].
      assert (LR : length rs = length (np_diff t)). { rewrite <- (zip3_len supp z (ito_normops reduce t vt thi) (length (np_diff t))); auto using ito_ops_len. clear - F. symmetry. induction F; cbn; auto. }
      split; [rewrite map_length; auto|]. split; [auto|]. intros i dt u s H1 H2 H3. rewrite nth_error_map in H3. destruct (nth_error rs i) as [r|] eqn:E; [|discriminate]. cbn in H3. injection H3 as <-.
      destruct (Forall2_nth_r _ _ _ _ _ F E) as ([[u' s'] n'] & E5 & HP). specialize (HP dt (ex_intro _ i (conj H1 E5))). cbn [fst] in HP.
      apply nth_error_In in E5 as E6. unfold zip3 in E5. rewrite !nth_error_combine, H2 in E5. destruct (nth_error z i); [|discriminate]. destruct (nth_error (ito_normops reduce t vt thi) i); [|discriminate]. injection E5 as <- <- <-. exact HP.
Qed.
Lemma ito_est_det thi z supp : all_prepared (np_diff t) supp z -> exists r, det (ito_est_log_aug_lik fuel mp maxp reduce disc log_lik t vt thi z supp) r.
Proof.
  intros (LZ & LS & HP). destruct (det_map_m (fun p => let '(t_, z_, n) := p in interpolate_seed fuel mp maxp (fst n) (snd n) z_ t_) (fun _ _ => True) (zip3 supp z (ito_normops reduce t vt thi))) as (rs & HR & F).
  - intros [[u s] n] Hin. destruct (in_zip3 _ _ _ _ _ _ Hin) as (i & E1 & E2 & E3). destruct (ito_ops_at _ _ _ E3) as (dt & x0 & x1 & E4 & HT & OP).
    destruct (prepared_det (fst n) (snd n) dt (sqrt dt) x0 x1 fuel mp maxp u s OP) as (r & Hr); [eapply HP; eauto|]. eauto.
  - unfold ito_est_log_aug_lik. eexists. eapply det_bind; [exact HR|]. destruct rs as [|r0 rs]; [|intros o k; reflexivity].
    exfalso. inversion F as [E|]. symmetry in E. apply (f_equal (@length _)) in E. rewrite (zip3_len _ _ _ (length (np_diff t))) in E; auto using ito_ops_len. cbn in E. exact (diff_ne E).
Qed.
Lemma ito_objective_det n omes thi zz : (1 <= n)%nat -> (forall i, valid (omes i)) -> Forall (fun z => length z = (length t - 1)%nat /\ Forall standard z) zz ->
  returns_if generic (ito_update_objective fuel mp maxp reduce disc log_lik log_prior t vt n omes thi zz) (fun f => forall thi', exists v, length v = length zz /\ forall o k, f thi' o k = (Ok v, k)).
Proof.
  intros Hn HO FZ. unfold ito_update_objective. eapply returns_bind; [apply supports_all; auto; intros d Hd; now apply (diff_pos t)|]. intros supp SU.
  eapply returns_bind; [apply returns_lift; intros r Hr; exact Hr|]. intros r Er.
  assert (F : Forall2 (fun _ q => all_prepared (np_diff t) supp (snd q)) zz r).
  { eapply (run_jobs_ok anyo omes (fun z => ito_est_log_aug_lik fuel mp maxp reduce disc log_lik t vt thi z supp)); [intros i; split; [apply HO|exact I]|exact Er|].
    intros z Hz. rewrite Forall_forall in FZ. destruct (FZ z Hz) as [L1 L2]. apply ito_est_prepares; auto. rewrite np_diff_length. exact L1. }
  destruct r as [|r0 rs] eqn:ER; [intros o k V _; exact I|]. rewrite <- ER in *. apply returns_ret. intros thi'.
  destruct (det_map_m (fun z => ito_est_log_aug_lik fuel mp maxp reduce disc log_lik t vt thi' z supp) (fun _ _ => True) (map snd r)) as (bs & HB & FB).
  - intros z Hz. apply in_map_iff in Hz as (q & <- & Hq). apply In_nth_error in Hq as (i & Hi). destruct (Forall2_nth_r _ _ _ _ _ F Hi) as (z0 & _ & HP). destruct (ito_est_det thi' (snd q) supp HP) as (b & Hb). eauto.
  - eexists. split; [|intros o k; apply (det_bind _ _ bs _ HB); intros o' k'; reflexivity]. rewrite map_length.
    transitivity (length (map snd r)); [symmetry; clear - FB; induction FB; cbn; auto|]. rewrite map_length. symmetry. clear - F. induction F; cbn; auto.
Qed.
End Ito.
Section Sw.
Context (fuel mp maxp : nat) (vol : list (list R) -> nat -> R) (disc : list (list R) -> nat -> R -> R) (loglik : list (list R) -> anchorage -> option nat -> R * R) (log_prior : list (list R) -> R).
Lemma sw_ops_at thi h i n : anch_ok h -> nth_error (sw_normops (vol thi) h) i = Some n -> exists dt c x0 x1, nth_error (np_diff (a_t h)) i = Some dt /\ 0 < dt /\ operators (fst n) (snd n) dt c x0 x1.
Proof.
  intros (ST & _). unfold sw_normops. rewrite nth_error_map. unfold zip4. rewrite !nth_error_combine. destruct (nth_error (np_diff (a_t h)) i) as [dt|] eqn:E; [|discriminate]. destruct (nth_error (removelast (a_y h)) i) as [y|]; [|discriminate].
  destruct (nth_error (a_v h) i) as [x0|]; [|discriminate]. destruct (nth_error (tl (a_v h)) i) as [x1|]; [|discriminate]. cbn [option_map]. intros [= <-]. exists dt, (sqrt dt * vol thi y), x0, x1. split; [reflexivity|].
  split; [apply nth_error_In in E; now apply (diff_pos (a_t h))|apply sw_operators].
Qed.
Lemma removelast_length {A} (l : list A) : length (removelast l) = (length l - 1)%nat.
Proof. induction l as [|a [|b l] IH]; cbn in *; auto. rewrite IH. lia. Qed.
Lemma sw_ops_len thi h : anch_ok h -> length (sw_normops (vol thi) h) = length (np_diff (a_t h)).
Proof. intros (_ & H2 & HY & HV). unfold sw_normops, zip4. rewrite map_length, !combine_length, np_diff_length, removelast_length. destruct (a_v h) eqn:E; cbn in *; lia. Qed.
Lemma zip4_len thi h (supp : list (list R)) (z : partition) : anch_ok h -> length z = length (np_diff (a_t h)) -> length supp = length (np_diff (a_t h)) -> length (zip4 supp (a_y h) z (sw_normops (vol thi) h)) = length (np_diff (a_t h)).
Proof. intros H LZ LS. pose proof (sw_ops_len thi h H). destruct H as (_ & H2 & HY & HV). unfold zip4. rewrite !combine_length, LZ, LS, H0, HY, np_diff_length. lia. Qed.
Lemma sdiff_ne h : anch_ok h -> length (np_diff (a_t h)) <> 0%nat.
Proof. intros (_ & H2 & _). rewrite np_diff_length. lia. Qed.
Lemma sw_est_prepares thi z h supp : anch_ok h -> length z = length (np_diff (a_t h)) -> Forall standard z -> supp_ok (np_diff (a_t h)) supp ->
  returns_if anyo (sw_est_log_aug_lik fuel mp maxp vol disc loglik thi z h supp None) (fun r => all_prepared (np_diff (a_t h)) supp (snd r)).
Proof.
  intros HA LZ FZ SU. assert (LS : length supp = length (np_diff (a_t h))) by (clear - SU; symmetry; induction SU; cbn; auto).
  unfold sw_est_log_aug_lik. eapply returns_bind; [apply (returns_map_m anyo) with (P := fun p r => forall dt, (exists i, nth_error (np_diff (a_t h)) i = Some dt /\ nth_error (zip4 supp (a_y h) z (sw_normops (vol thi) h)) i = Some p) -> prepared dt (fst (fst (fst p))) (fst r))|].
  - intros [[[u y] s] n] Hin. intros o k V _. cbn [selected].
    enough (X : forall dt', (exists i, nth_error (np_diff (a_t h)) i = Some dt' /\ nth_error (zip4 supp (a_y h) z (sw_normops (vol thi) h)) i = Some (u, y, s, n)) -> returns_if anyo (interpolate_seed fuel mp maxp (fst n) (snd n) s u) (fun r => prepared dt' u (fst r))).
    { destruct (fst (interpolate_seed fuel mp maxp (fst n) (snd n) s u o k)) as [r| |] eqn:ER; auto. intros dt' Hd. specialize (X dt' Hd o k V I). cbv beta in X. rewrite ER in X. exact X. }
    intros dt' (i' & H1 & H2). unfold zip4 in H2. rewrite !nth_error_combine in H2. destruct (nth_error supp i') as [u2|] eqn:F1, (nth_error (a_y h) i') as [y2|] eqn:F0, (nth_error z i') as [s2|] eqn:F2, (nth_error (sw_normops (vol thi) h) i') as [n2|] eqn:F3; try discriminate.
    injection H2 as -> -> -> ->. destruct (sw_ops_at _ _ _ _ HA F3) as (dt2 & c & y0 & y1 & F4 & HT' & OP'). rewrite H1 in F4. injection F4 as <-.
    destruct (Forall2_nth_l _ _ _ _ _ SU H1) as (u' & Eu & SU' & NE). rewrite F1 in Eu. injection Eu as <-. rewrite Forall_forall in FZ. apply nth_error_In in F2. eapply prepare; eauto.
  - intros rs F. destruct rs as [|r0 rs0] eqn:ER.
    + exfalso. inversion F as [E|]. symmetry in E. apply (f_equal (@length _)) in E. rewrite zip4_len in E; auto. cbn in E. exact (sdiff_ne h HA E).
    + rewrite <- ER in *. apply returns_ret. cbn [snd].
      assert (LR : length rs = length (np_diff (a_t h))). { rewrite <- (zip4_len thi h supp z); auto. clear - F. symmetry. induction F; cbn; auto. }
      split; [rewrite map_length; auto|]. split; [auto|]. intros i dt u s H1 H2 H3. rewrite nth_error_map in H3. destruct (nth_error rs i) as [r|] eqn:E; [|discriminate]. cbn in H3. injection H3 as <-.
      destruct (Forall2_nth_r _ _ _ _ _ F E) as ([[[u' y'] s'] n'] & E5 & HP). specialize (HP dt (ex_intro _ i (conj H1 E5))). cbn [fst] in HP.
      unfold zip4 in E5. rewrite !nth_error_combine, H2 in E5. destruct (nth_error (a_y h) i); [|discriminate]. destruct (nth_error z i); [|discriminate]. destruct (nth_error (sw_normops (vol thi) h) i); [|discriminate]. injection E5 as <- <- <- <-. exact HP.
Qed.
Lemma sw_est_det thi z h supp restrict : anch_ok h -> all_prepared (np_diff (a_t h)) supp z -> exists r, det (sw_est_log_aug_lik fuel mp maxp vol disc loglik thi z h supp restrict) r.
Proof.
  intros HA (LZ & LS & HP). destruct (det_map_m (fun p => let '(t_, y0, z_, n) := p in if selected restrict y0 then interpolate_seed fuel mp maxp (fst n) (snd n) z_ t_ else ret (z_, [])) (fun _ _ => True) (zip4 supp (a_y h) z (sw_normops (vol thi) h))) as (rs & HR & F).
  - intros [[[u y] s] n] Hin. destruct (in_zip4 _ _ _ _ _ _ _ _ Hin) as (i & E1 & E0 & E2 & E3). destruct (selected restrict y); [|eexists; split; [intros o k; reflexivity|exact I]].
    destruct (sw_ops_at _ _ _ _ HA E3) as (dt & c & x0 & x1 & E4 & HT & OP).
    destruct (prepared_det (fst n) (snd n) dt c x0 x1 fuel mp maxp u s OP) as (r & Hr); [eapply HP; eauto|]. eauto.
  - unfold sw_est_log_aug_lik. eexists. eapply det_bind; [exact HR|]. destruct rs as [|r0 rs]; [|intros o k; reflexivity].
    exfalso. inversion F as [E|]. symmetry in E. apply (f_equal (@length _)) in E. rewrite zip4_len in E; auto. cbn in E. exact (sdiff_ne h HA E).
Qed.
Lemma sw_objective_det n omes thi zz hh : (1 <= n)%nat -> (forall i, valid (omes i)) -> Forall2 (fun z h => anch_ok h /\ length (a_t h) = S (length z) /\ Forall standard z) zz hh ->
  returns_if generic (sw_update_objective fuel mp maxp vol disc loglik log_prior n omes thi zz hh) (fun f => forall thi' restrict, exists v, length v = length zz /\ forall o k, f thi' restrict o k = (Ok v, k)).
Proof.
  intros Hn HO FZ. unfold sw_update_objective. eapply returns_bind.
  { apply (returns_map_m generic) with (P := fun h s => supp_ok (np_diff (a_t h)) s). intros h Hh. apply supports_all; auto. intros d Hd. destruct (In_nth_error _ _ Hh) as (i & Hi); destruct (Forall2_nth_r _ _ _ _ _ FZ Hi) as (z & _ & (HA & _)). now apply (diff_pos (a_t h)); [apply HA|]. }
  intros supp SU. eapply returns_bind; [apply returns_lift; intros r Hr; exact Hr|]. intros r Er.
  assert (F : Forall2 (fun p q => all_prepared (np_diff (a_t (snd (fst p)))) (snd p) (snd q)) (zip3 zz hh supp) r).
  { eapply (run_jobs_ok anyo omes (fun p => let '(z, h, t) := p in sw_est_log_aug_lik fuel mp maxp vol disc loglik thi z h t None)); [intros i; split; [apply HO|exact I]|exact Er|].
    intros [[z h] u] Hin. destruct (in_zip3 _ _ _ _ _ _ Hin) as (i & E1 & E2 & E3). destruct (Forall2_nth_l _ _ _ _ _ FZ E1) as (h' & E4 & HA & HL & HZ). rewrite E2 in E4. injection E4 as <-.
    destruct (Forall2_nth_l _ _ _ _ _ SU E2) as (u' & E5 & HU). rewrite E3 in E5. injection E5 as <-. cbn [fst snd]. apply sw_est_prepares; auto. rewrite np_diff_length. lia. }
  assert (LZ : length (zip3 zz hh supp) = length zz). { apply zip3_len; auto; [clear - FZ; symmetry; induction FZ; cbn; auto|]. transitivity (length hh); [clear - SU; symmetry; induction SU; cbn; auto|clear - FZ; symmetry; induction FZ; cbn; auto]. }
  assert (LR : length r = length zz). { rewrite <- LZ. clear - F. symmetry. induction F; cbn; auto. }
  destruct r as [|r0 rs] eqn:ER; [intros o k V _; exact I|]. rewrite <- ER in *. apply returns_ret. intros thi' restrict.
  destruct (det_map_m (fun p => let '(z, h, t) := p in sw_est_log_aug_lik fuel mp maxp vol disc loglik thi' z h t (Some restrict)) (fun _ _ => True) (zip3 (map snd r) hh supp)) as (bs & HB & FB).
  - intros [[z h] u] Hin. destruct (in_zip3 _ _ _ _ _ _ Hin) as (i & E1 & E2 & E3). rewrite nth_error_map in E1. destruct (nth_error r i) as [q|] eqn:Eq; [|discriminate]. cbn in E1. injection E1 as <-.
    destruct (Forall2_nth_r _ _ _ _ _ F Eq) as ([[z0 h0] u0] & E4 & HP). cbn [fst snd] in HP. apply nth_error_In in E4 as E4'. unfold zip3 in E4. rewrite !nth_error_combine, E2, E3 in E4.
    destruct (nth_error zz i) as [z1|] eqn:E6; [|discriminate]. injection E4 as <- <- <-. destruct (Forall2_nth_l _ _ _ _ _ FZ E6) as (h1 & E7 & HA & _). rewrite E2 in E7. injection E7 as <-.
    destruct (sw_est_det thi' (snd q) h u (Some restrict) HA HP) as (b & Hb). eauto.
  - eexists. split; [|intros o k; apply (det_bind _ _ bs _ HB); intros o' k'; reflexivity]. rewrite map_length.
    transitivity (length (zip3 (map snd r) hh supp)); [symmetry; clear - FB; induction FB; cbn; auto|]. apply zip3_len; [now rewrite map_length|clear - FZ; symmetry; induction FZ; cbn; auto|].
    transitivity (length hh); [clear - SU; symmetry; induction SU; cbn; auto|clear - FZ; symmetry; induction FZ; cbn; auto].
Qed.
End Sw.
