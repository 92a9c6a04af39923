(** update_hidden: the update of the augmented state. *)
From Coq Require Import Reals List Bool Arith ZArith Lia Lra Sorted.
From Verif Require Import Base Np Rng Mat M_mjp M_bf M_adapt M_path M_skel M_seed M_sw SpecMjp SpecLin SpecSw.
From Verif Require Import L_rng L_list L_path L_path2 L_part L_prop L_occ L_adapt2 L_sde2 L_sw L_sw2 L_sw3 L_sw4 L_sw5 L_sw6.
Import ListNotations.
Local Open Scope R_scope.

Lemma off_exact dim t vt K : good dim t vt K -> (forall u, In u t -> 0 <= u) -> (exact_virt t K <-> off_grid t (path_of K)).
Proof.
  intros HG HT. destruct (g_first _ _ _ _ HG) as (e0 & K' & EK & N & E0). split.
  - intros HE u Hu Hj. unfold path_of in Hj. cbn [M_mjp.sk_t] in Hj. apply in_map_iff in Hj as ([u' s] & E & Hin). simpl in E. subst u'.
    destruct (devirt_kept _ _ Hin) as [(r & Er)|(a & Ha & Hn)].
    + rewrite EK in Er. simpl in Er. inversion Er. destruct e0 as [[? ?] ?]. simpl in *. inversion H0; subst. exact E0.
    + apply adj_map_inv in Ha as (x & y & Ha & -> & Ey). exfalso. apply Hn. rewrite Ey. change (st x = st y). apply HE; auto. unfold tm. rewrite <- Ey. exact Hu.
  - intros HO e e' Ha Hin. destruct (Nat.eq_dec (st e) (st e')) as [|Hn]; auto. exfalso.
    pose proof (devirt_adj _ _ _ (adj_map fst _ _ _ Ha) Hn) as Hd. apply (in_map fst) in Hd. change (fst (fst e')) with (tm e') in Hd.
    pose proof (HO (tm e') Hin Hd) as Z. destruct (adj_in _ _ _ Ha) as [Hi _].
    pose proof (proj1 (g_adj _ _ _ _ HG _ _ Ha)). assert (0 <= tm e); [|lra].
    pose proof (good_sorted _ _ _ _ HG) as HS. rewrite EK in HS, Hi. destruct Hi as [->|Hi]; [lra|]. inversion HS as [|? ? ? HF]; subst. rewrite Forall_forall in HF. assert (tm e0 < tm e) by (apply HF; apply in_map; auto). lra.
Qed.
Lemma slice_open t a : (4 <= length t)%nat -> StronglySorted Rlt t -> hd 0 t = 0 -> In a (pyslice t 2 (-2)) -> In a t /\ 0 < a < last t 0.
Proof.
  intros HL HS HH Ha. destruct (split_ends t ltac:(lia)) as (x & m & y & ->). simpl in HH. subst x.
  cbn [length] in HL. rewrite app_length in HL. simpl in HL. destruct (split_ends m ltac:(lia)) as (c & l & d & ->).
  assert (E2 : pyslice (0 :: (c :: l ++ [d]) ++ [y]) 2 (-2) = l).
  { unfold pyslice, norm_bound. cbn [length]. rewrite !app_length. cbn [length]. rewrite app_length. cbn [length].
    change (2 <? 0)%Z with false. change (-2 <? 0)%Z with true. cbv iota.
    replace (Nat.min (Z.to_nat 2) _) with 2%nat by lia.
    replace (Z.to_nat _) with (S (S (length l))) by lia. cbn [skipn app].
    replace (S (S (length l)) - 2)%nat with (length l) by lia.
    rewrite <- app_assoc, firstn_app, firstn_all, Nat.sub_diag. simpl. apply app_nil_r. }
  rewrite E2 in Ha. assert (Hm : In a (c :: l ++ [d])) by (right; apply in_or_app; auto).
  split; [right; apply in_or_app; auto|]. rewrite last_cons', last_last. destruct (sorted_inner _ _ _ HS) as [_ H]. apply H; auto.
Qed.

Lemma returns_mono {A} (G G' : oracle -> Prop) (m : M A) Q : (forall o, G' o -> G o) -> returns_if G m Q -> returns_if G' m Q.
Proof. intros H HR o k V g. apply HR; auto. Qed.
Section Update.
Context (G : oracle -> Prop) (P : M_skel.skel -> Prop) (dim fuel mp maxp : nat) (lb ub : ext) (vol : nat -> R) (disc : nat -> R -> R) (bounds : nat -> bounds_fun)
  (loglik : anchorage -> option nat -> R * R) (batch : nat) (precoin : bool) (pr : R) (maxf : nat) (t vt : list R) (opt decay : R) (air : nat) (omes : nat -> oracle).
Hypothesis HR : raw_seeds G dim P fuel mp maxp lb ub vol.
Hypothesis HC : coin_keeps G P dim fuel mp maxp vol disc bounds batch.
Hypothesis HO : forall i, valid (omes i) /\ G (omes i).
Lemma good_last_ents (e : ent) (l : list ent) : l <> [] -> last (e :: l) (0, 0%nat, 0) = last l (0, 0%nat, 0).
Proof. destruct l; congruence || reflexivity. Qed.
Lemma grid_data K c : obs_grid t vt (last t 0) -> good dim t vt K -> In c t -> In c (map tm K).
Proof.
  intros HG HK Hc. destruct (In_nth_error _ _ Hc) as [k Hk]. destruct (nth_error vt k) as [v|] eqn:Ev.
  - destruct (g_data _ _ _ _ HK c v) as (e & He & <- & _); [apply in_combine_iff; eauto|]. apply in_map; auto.
  - apply nth_error_None in Ev. rewrite (og_len _ _ _ HG) in Ev. apply nth_error_Some_lt in Hk || (assert (k < length t)%nat by (apply nth_error_Some; congruence)); lia.
Qed.
Lemma cut_equal K1 K2 e1 e2 : obs_grid t vt (last t 0) -> good dim t vt K1 -> good dim t vt K2 -> In e1 K1 -> In e2 K2 -> tm e1 = tm e2 -> In (tm e1) t ->
  (state_at (path_of K1) (tm e1) (st e1) -> state_at (path_of K2) (tm e1) (st e1)) -> e1 = e2.
Proof.
  intros HG H1 H2 I1 I2 ET Hin HSt.
  assert (HT : 0 < last t 0) by (eapply sorted_last_pos; eauto).
  assert (H0 : In 0 t) by (pose proof (og_first _ _ _ HG) as E; destruct t; inversion E; left; auto).
  assert (ES : st e1 = st e2).
  { eapply (state_at_unique (path_of K2)); [apply HSt|rewrite ET]; eapply path_state; eauto; apply HG. }
  assert (EV : vl e1 = vl e2).
  { destruct (In_nth_error _ _ Hin) as [k Hk]. destruct (nth_error vt k) as [v|] eqn:Ev.
    2:{ apply nth_error_None in Ev. rewrite (og_len _ _ _ HG) in Ev. assert (k < length t)%nat by (apply nth_error_Some; congruence); lia. }
    destruct (g_data _ _ _ _ H1 (tm e1) v) as (x1 & A1 & A2 & A3); [apply in_combine_iff; eauto|].
    destruct (g_data _ _ _ _ H2 (tm e1) v) as (x2 & B1 & B2 & B3); [apply in_combine_iff; eauto|].
    rewrite <- (good_fun _ _ _ _ H1 x1 e1), <- (good_fun _ _ _ _ H2 x2 e2); auto; congruence. }
  destruct e1 as [[? ?] ?], e2 as [[? ?] ?]; unfold tm, st, vl in *; simpl in *; congruence.
Qed.
Lemma marks_equal (l1 l2 : list seg) : map (fun s : seg => tm (snd s)) l1 = map (fun s : seg => tm (snd s)) l2 ->
  (forall s1 s2, In s1 l1 -> In s2 l2 -> tm (snd s1) = tm (snd s2) -> snd s1 = snd s2) -> map (fun s : seg => snd s) l1 = map (fun s : seg => snd s) l2.
Proof.
  revert l2; induction l1 as [|s1 l1 IH]; intros [|s2 l2] E H; try discriminate; auto. simpl in E. inversion E. simpl. f_equal.
  - apply H; simpl; auto.
  - apply IH; auto. intros; apply H; simpl; auto.
Qed.
Lemma update_with_ok sp z K1 y' cond : obs_grid t vt (last t 0) -> good dim t vt K1 -> length K1 = S (length z) -> Forall P z ->
  wf_skel y' -> sk_fin y' = last t 0 -> Forall (fun s => (s < dim)%nat) (sk_x y') -> StronglySorted Rlt cond -> (forall c, In c cond -> In c t /\ 0 < c < last t 0) ->
  (forall b i, In b cond -> (state_at (path_of K1) b i <-> state_at y' b i)) ->
  returns_if G (update_hidden_with fuel mp maxp lb ub vol disc bounds loglik batch precoin pr maxf t vt opt decay air omes sp z (anch_of K1) y' cond)
    (fun r => let '(z', h', sp') := r in exists K, h' = anch_of K /\ good dim t vt K /\ length K = S (length z') /\ Forall P z' /\ rw_state sp' = path_of K /\
       (off_grid t (path_of K1) -> off_grid t y' -> off_grid t (path_of K))).
Proof.
  intros HG H1 L1 PZ W HF HD HS HCo HA. unfold update_hidden_with.
  eapply returns_bind; [apply sample_aug_ok with (dim := dim) (P := P); auto; rewrite HF; exact HG|].
  intros [zp hp] (K2 & E2 & H2 & EP & L2 & PZ2). cbn [fst snd] in *. subst hp.
  destruct (g_first _ _ _ _ H1) as (e1 & K1' & -> & N1 & T1). destruct (g_first _ _ _ _ H2) as (e2 & K2' & -> & N2 & T2).
  destruct (blocks_exist (in_cond cond) K1' N1) as (r1 & M1 & -> & B1). destruct (blocks_exist (in_cond cond) K2' N2) as (r2 & M2 & -> & B2).
  cbn [length] in L1, L2. rewrite (split_blocks z e1 r1 cond M1 B1 ltac:(lia)), (split_blocks zp e2 r2 cond M2 B2 ltac:(lia)).
  assert (C1 : map (fun s => tm (snd s)) (removelast r1) = cond).
  { apply (marks_are e1 r1 cond); auto. apply (good_sorted _ _ _ _ H1). intros c Hc. destruct (HCo c Hc) as [X Y]. split; [eapply grid_data; eauto|]. rewrite (g_last _ _ _ _ H1). lra. }
  assert (C2 : map (fun s => tm (snd s)) (removelast r2) = cond).
  { apply (marks_are e2 r2 cond); auto. apply (good_sorted _ _ _ _ H2). intros c Hc. destruct (HCo c Hc) as [X Y]. split; [eapply grid_data; eauto|]. rewrite (g_last _ _ _ _ H2). lra. }
  assert (SC : samecuts r1 r2).
  { apply samecuts_intro; auto. apply marks_equal; [congruence|]. intros s1 s2 I1 I2 ET.
    assert (Hc : In (tm (snd s1)) cond) by (rewrite <- C1; apply in_map_iff; exists s1; auto).
    apply in_removelast in I1, I2. apply in_flat_mark in I1, I2.
    eapply (cut_equal _ _ _ _ HG H1 H2); [right; exact I1|right; exact I2|exact ET|apply HCo; auto|].
    rewrite EP. apply HA; auto. }
  set (quads := zip4 (zparts z r1) (zparts zp r2) (hparts e1 r1) (hparts e2 r2)).
  eapply returns_bind with (Q := fun acc => Forall2 (fun q a => chosen q a /\ Forall P (snd (fst a))) quads acc).
  { apply returns_lift. intros acc HJ. refine (run_jobs_ok G omes _ _ HO _ _ _ HJ _). intros [[[zn_ zp_] hn_] hp_] Hq. apply zip4_nth in Hq as (k & Q1 & Q2 & Q3 & Q4). cbn [fst snd] in *.
    eapply returns_weaken; [apply section_ok with (G := G) (P := P) (dim := dim); auto|].
    - eapply (hparts_fits dim r1 e1); eauto; [apply (g_dim _ _ _ _ H1)|apply (good_sorted _ _ _ _ H1)|apply zparts_sizes; lia].
    - eapply (hparts_fits dim r2 e2); eauto; [apply (g_dim _ _ _ _ H2)|apply (good_sorted _ _ _ _ H2)|apply zparts_sizes; lia].
    - pose proof (zparts_Forall P r1 z PZ) as X. rewrite Forall_forall in X. apply X. eapply nth_error_In; eauto.
    - pose proof (zparts_Forall P r2 zp PZ2) as X. rewrite Forall_forall in X. apply X. eapply nth_error_In; eauto.
    - intros [[b zz] hh] (Eh & El & Ef). split; auto. split; auto. }
  intros acc HAcc.
  assert (CH : Forall2 chosen quads acc) by (clear -HAcc; induction HAcc; constructor; tauto).
  assert (FP : Forall (Forall P) (map (fun q => snd (fst q)) acc)) by (clear -HAcc; induction HAcc; simpl; constructor; tauto).
  destruct (mix_sections r1 r2 SC e1 e2 (zparts z r1) (zparts zp r2) acc ltac:(congruence)) as ([e s] & ps & I1 & I2 & I3 & I4 & I5); auto; try (apply zparts_sizes; lia).
  cbn [fst snd] in *. change (map (fun q : bool * partition * anchorage => snd q) acc) with (map snd acc). rewrite I1. cbn [map fst snd] in *.
  assert (TE : tm e = 0) by (destruct I4 as [[-> _]|[-> _]]; auto). destruct I2 as [_ I2].
  rewrite paste_blocks by auto.
  assert (MX : mix0 e1 r1 e2 r2 e (s :: map snd ps)).
  { split; [exact I3|]. destruct I4 as [[-> ->]|[-> ->]]; [left|right]; split; auto. }
  assert (HV : forall v, In (0, v) (combine t vt) -> vl e1 = v /\ vl e2 = v).
  { intros v Hv. destruct (g_data _ _ _ _ H1 0 v Hv) as (x1 & A1 & A2 & A3). destruct (g_data _ _ _ _ H2 0 v Hv) as (x2 & B1' & B2' & B3).
    rewrite <- (good_fun _ _ _ _ H1 x1 e1), <- (good_fun _ _ _ _ H2 x2 e2); auto; try congruence; left; auto. }
  pose proof (mix_good dim t vt e1 e2 e r1 r2 (s :: map snd ps) H1 H2 MX HV) as HK.
  eapply returns_bind; [apply returns_lift; intros x Hx; exact Hx|]. intros r Er. inversion Er; subst r. clear Er. cbn [fst snd].
  rewrite prune_of by discriminate. eapply returns_bind; [apply returns_lift; intros x Hx; exact Hx|]. intros r Er. inversion Er; subst r. clear Er.
  apply returns_ret. exists (e :: flat (s :: map snd ps)).
  assert (HPos : forall u, In u t -> 0 <= u).
  { intros u Hu. pose proof (og_first _ _ _ HG) as E. pose proof (og_sorted _ _ _ HG) as Hst. destruct t as [|a t']; [destruct Hu|]. simpl in E. inversion E; subst a. destruct Hu as [<-|Hu]; [lra|]. inversion Hst as [|? ? ? Hf]; subst. rewrite Forall_forall in Hf. specialize (Hf u Hu). lra. }
  split; [reflexivity|]. split; [exact HK|]. split; [cbn [length]; f_equal; symmetry; exact I5|]. split; [apply Forall_concat; exact FP|]. split; [unfold mjp_adapt; destruct (Nat.eqb _ _); reflexivity|].
  intros O1 O2. apply (off_exact dim t vt); auto. eapply mix_exact; eauto; apply (off_exact dim t vt); auto. rewrite EP. auto.
Qed.
Lemma update_ok L sp z K1 lam : obs_grid t vt (last t 0) -> good dim t vt K1 -> length K1 = S (length z) -> Forall P z -> rw_state sp = path_of K1 ->
  (2 <= dim)%nat -> generator dim lam -> pos_off dim lam -> expm_exact L -> solve_ok L dim (stat_matrix lam) stat_rhs -> (4 <= length t)%nat ->
  returns_if (fun o => generic o /\ G o) (update_hidden L fuel mp maxp lb ub vol disc bounds loglik batch precoin pr maxf t vt opt decay air dim lam omes sp z (anch_of K1))
    (fun r => let '((y', _), (z', h', sp')) := r in exists K, h' = anch_of K /\ good dim t vt K /\ length K = S (length z') /\ Forall P z' /\ rw_state sp' = path_of K /\
       (off_grid t (path_of K1) -> off_grid t y' -> off_grid t (path_of K))).
Proof.
  intros HG H1 L1 PZ ER HD Hlam Hpos HE HSo H4. unfold update_hidden.
  assert (HT : 0 < last t 0) by (eapply sorted_last_pos; eauto).
  assert (H0 : In 0 t) by (pose proof (og_first _ _ _ HG) as E; destruct t; inversion E; left; auto).
  assert (HH : hd 0 t = 0) by (pose proof (og_first _ _ _ HG) as E; destruct t; inversion E; auto).
  pose proof (good_ok dim t vt K1 H1 HT H0 (og_len _ _ _ HG)) as OK.
  eapply returns_bind.
  - eapply (returns_mono generic _); [tauto|]. apply safe_returns. apply hidden_propose_ok; auto; try rewrite ER; try apply OK; try apply HG.
    symmetry; apply OK.
  - intros [y' cond] (W & HF & HDm & HI & HSc & HA). rewrite ER in *. eapply returns_bind.
    + eapply (returns_mono G _); [tauto|]. apply update_with_ok; auto; cbn [fst snd]; auto.
      * rewrite HF. apply OK.
      * intros c Hc. apply slice_open; auto. apply HG.
    + intros [[z' h'] sp'] Hr. apply returns_ret. exact Hr.
Qed.
End Update.
