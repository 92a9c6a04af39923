(** Augmented states as lists of entries; from entry-wise facts to [hidden_ok]. *)
From Coq Require Import Reals List Bool Arith ZArith Lia Lra Sorted.
From Verif Require Import Base Np M_mjp M_sw SpecMjp SpecSw L_list L_path L_path2 L_adapt2 L_sw.
Import ListNotations.
Local Open Scope R_scope.

Definition adj {A} (a b : A) (l : list A) : Prop := exists p r, l = p ++ a :: b :: r.
Lemma adj_cons {A} (a b c : A) l : adj a b l -> adj a b (c :: l).
Proof. intros (p & r & ->). exists (c :: p), r. reflexivity. Qed.
Lemma adj_app_r {A} (a b : A) p l : adj a b l -> adj a b (p ++ l).
Proof. intros (q & r & ->). exists (p ++ q), r. rewrite <- app_assoc. reflexivity. Qed.
Lemma adj_app_l {A} (a b : A) p l : adj a b p -> adj a b (p ++ l).
Proof. intros (q & r & ->). exists q, (r ++ l). rewrite <- app_assoc. reflexivity. Qed.
Lemma adj_nil {A} (a b : A) : adj a b [] -> False.
Proof. intros ([|] & r & H); discriminate. Qed.
Lemma adj_one {A} (a b c : A) : adj a b [c] -> False.
Proof. intros ([|x [|]] & r & H); discriminate. Qed.
Lemma adj_cons_inv {A} (a b c d : A) l : adj a b (c :: d :: l) -> (a = c /\ b = d) \/ adj a b (d :: l).
Proof. intros ([|x p] & r & H); simpl in H; inversion H; subst; [left; auto|right]. exists p, r. auto. Qed.
Lemma adj_app_inv {A} (a b m : A) p l : adj a b (p ++ m :: l) -> adj a b (p ++ [m]) \/ adj a b (m :: l).
Proof.
  revert m l; induction p as [|x p IH]; intros m l H; [right; exact H|]. destruct p as [|x' p].
  - simpl in *. apply adj_cons_inv in H as [[-> ->]|H]; [left; exists [], []; reflexivity|right; exact H].
  - simpl in H. apply adj_cons_inv in H as [[-> ->]|H]; [left; exists [], (p ++ [m]); reflexivity|].
    destruct (IH m l H); [left; apply adj_cons; auto|right; auto].
Qed.
Lemma adj_in {A} (a b : A) l : adj a b l -> In a l /\ In b l.
Proof. intros (p & r & ->). split; apply in_or_app; right; simpl; auto. Qed.
Lemma adj_nth {A} (l : list A) j a b : nth_error l j = Some a -> nth_error l (S j) = Some b -> adj a b l.
Proof.
  revert l; induction j as [|j IH]; intros l Ha Hb; destruct l as [|x l]; try discriminate.
  - simpl in *. destruct l; [discriminate|]. inversion Ha; inversion Hb; subst. exists [], l. reflexivity.
  - apply adj_cons. apply IH; auto.
Qed.
Lemma in_adj {A} (a : A) l x : In a (x :: l) -> a = x \/ exists b, adj b a (x :: l).
Proof.
  revert x; induction l as [|y l IH]; intros x [H|H]; auto; [destruct H|]. right. destruct (IH y H) as [->|[b Hb]].
  - exists x, [], l. reflexivity.
  - exists b. apply adj_cons; auto.
Qed.
Lemma sorted_adj {A} (f : A -> R) l : (forall a b, adj a b l -> f a < f b) -> StronglySorted Rlt (map f l).
Proof.
  intros H. apply Sorted_StronglySorted; [intros x y z; apply Rlt_trans|]. induction l as [|a l IH]; [constructor|]. simpl. constructor.
  - apply IH. intros; apply H. apply adj_cons; auto.
  - destruct l as [|b l]; constructor. apply H. exists [], l. reflexivity.
Qed.
Lemma adj_sorted {A} (f : A -> R) l a b : StronglySorted Rlt (map f l) -> adj a b l -> f a < f b.
Proof.
  intros HS (p & r & ->). induction p as [|x p IH]; simpl in HS; inversion HS as [|? ? H1 H2]; subst; [|auto].
  rewrite Forall_forall in H2. apply H2. left; auto.
Qed.

(** ** removal of virtual jumps *)
Lemma dv_adj i J a b : adj a b J -> snd a <> snd b -> In b (dv i J).
Proof.
  revert i; induction J as [|[u s] J IH]; intros i H Hn; [destruct (adj_nil _ _ H)|].
  destruct J as [|[u' s'] J]; [destruct (adj_one _ _ _ H)|]. apply adj_cons_inv in H as [[-> ->]|H].
  - cbn [dv snd] in *. destruct (Nat.eqb s i) eqn:E1; cbn [dv]; destruct (Nat.eqb s' s) eqn:E2; try (apply Nat.eqb_eq in E2; congruence); [left; auto|right; left; auto].
  - cbn [dv]. destruct (Nat.eqb s i); [apply IH; auto|right; apply IH; auto].
Qed.
Lemma devirt_adj J a b : adj a b J -> snd a <> snd b -> In b (devirt J).
Proof.
  destruct J as [|[u s] J]; intros H Hn; [destruct (adj_nil _ _ H)|]. destruct J as [|[u' s'] J]; [destruct (adj_one _ _ _ H)|].
  apply adj_cons_inv in H as [[-> ->]|H]; cbn [devirt].
  - cbn [dv snd] in *. destruct (Nat.eqb s' s) eqn:E2; [apply Nat.eqb_eq in E2; congruence|right; left; auto].
  - right. apply dv_adj with a; auto.
Qed.
(** conversely, an entry kept after the first differs from its predecessor *)
Lemma dv_kept i J b : In b (dv i J) -> (exists r, J = b :: r /\ snd b <> i) \/ exists a, adj a b J /\ snd a <> snd b.
Proof.
  revert i; induction J as [|[u s] J IH]; intros i H; [destruct H|]. cbn [dv] in H. destruct (Nat.eqb s i) eqn:E.
  - apply Nat.eqb_eq in E. subst i. right. destruct (IH s H) as [(r & -> & Hn)|(a & Ha & Hn)].
    + exists (u, s). split; [exists [], r; reflexivity|simpl; congruence].
    + exists a. split; auto. apply adj_cons; auto.
  - apply Nat.eqb_neq in E. destruct H as [<-|H]; [left; exists J; split; auto|]. right. destruct (IH s H) as [(r & -> & Hn)|(a & Ha & Hn)].
    + exists (u, s). split; [exists [], r; reflexivity|simpl; congruence].
    + exists a. split; auto. apply adj_cons; auto.
Qed.
Lemma devirt_kept J b : In b (devirt J) -> (exists r, J = b :: r) \/ exists a, adj a b J /\ snd a <> snd b.
Proof.
  destruct J as [|[u s] J]; intros H; [destruct H|]. destruct H as [<-|H]; [left; eauto|]. right.
  destruct (dv_kept s J b H) as [(r & -> & Hn)|(a & Ha & Hn)].
  - exists (u, s). split; [exists [], r; reflexivity|simpl; congruence].
  - exists a. split; auto. apply adj_cons; auto.
Qed.
Lemma look_self J u s : StronglySorted Rlt (map fst J) -> In (u, s) J -> look None J u = Some s.
Proof.
  intros HS H. apply look_spec; [apply SS_lt_le; auto|]. left. destruct (In_nth_error _ _ H) as [k Hk]. exists k, u. split; [exact Hk|]. split; [lra|].
  clear H. revert k Hk. induction J as [|[a i] J IH]; intros k Hk j b z Hj Hb; [destruct k; discriminate|].
  simpl in HS. inversion HS as [|? ? H1 H2]; subst. destruct j as [|j]; [lia|]. simpl in Hb. destruct k as [|k].
  - simpl in Hk. inversion Hk; subst. rewrite Forall_forall in H2. apply H2. apply nth_error_In in Hb. apply (in_map fst) in Hb. exact Hb.
  - simpl in Hk. apply (IH H1 k Hk j b z); [lia|exact Hb].
Qed.

(** ** entry-wise invariant *)
Record good (dim : nat) (t vt : list R) (K : list ent) : Prop := {
  g_adj : forall e e', adj e e' K -> tm e < tm e' /\ (st e = st e' -> In (tm e') t) /\ (tm e' = last t 0 -> st e = st e');
  g_first : exists e K', K = e :: K' /\ K' <> [] /\ tm e = 0;
  g_last : tm (last K (0, 0%nat, 0)) = last t 0;
  g_data : forall u v, In (u, v) (combine t vt) -> exists e, In e K /\ tm e = u /\ vl e = v;
  g_dim : Forall (fun e => (st e < dim)%nat) K }.
Definition exact_virt (t : list R) (K : list ent) : Prop := forall e e', adj e e' K -> In (tm e') t -> st e = st e'.
(** the path of a list of entries *)
Definition path_of (K : list ent) : jump_path := let D := devirt (map fst K) in M_mjp.mk_skel (map fst D) (map snd D) (tm (last K (0, 0%nat, 0))).

Lemma map_tm K : map tm K = map fst (map fst K).
Proof. rewrite map_map. reflexivity. Qed.
Lemma map_st K : map st K = map snd (map fst K).
Proof. rewrite map_map. reflexivity. Qed.
Lemma last_map {A B} (f : A -> B) l d : last (map f l) (f d) = f (last l d).
Proof. induction l as [|a l IH]; [reflexivity|]. destruct l; [reflexivity|]. exact IH. Qed.
Lemma prune_of K : K <> [] -> prune_anchorage (anch_of K) = Ok (path_of K).
Proof.
  intros HK. unfold prune_anchorage, anch_of. cbn [a_t a_y]. rewrite map_tm, map_st. assert (N : map fst K <> []) by (destruct K; [congruence|discriminate]).
  rewrite mask_devirt_fst, mask_devirt_snd by auto. rewrite <- map_tm.
  replace (last_opt (map tm K)) with (Some (tm (last K (0, 0%nat, 0)))); [reflexivity|].
  destruct K as [|k K] using rev_ind; [congruence|]. rewrite map_app. cbn [map]. rewrite last_last. symmetry. apply last_opt_app.
Qed.
Section Good.
Context (dim : nat) (t vt : list R) (K : list ent).
Hypothesis HG : good dim t vt K.
Hypothesis HT : 0 < last t 0.
Hypothesis H0t : In 0 t.
Hypothesis HL : length vt = length t.
Lemma good_sorted : StronglySorted Rlt (map tm K).
Proof. apply sorted_adj. intros a b H. apply (g_adj _ _ _ _ HG a b H). Qed.
Lemma good_nonempty : K <> [].
Proof. destruct (g_first _ _ _ _ HG) as (e & K' & -> & _). discriminate. Qed.
Lemma last_In {A} (l : list A) d : l <> [] -> In (last l d) l.
Proof. destruct l as [|a l] using rev_ind; [congruence|]. intros _. rewrite last_last. apply in_or_app; right; left; auto. Qed.
Lemma sorted_last_max l d x : StronglySorted Rlt l -> In x l -> x <= last l d.
Proof.
  destruct l as [|a l] using rev_ind; [intros _ []|]. intros HS Hx. rewrite last_last. apply in_app_or in Hx as [Hx|[<-|[]]]; [|lra].
  clear -HS Hx. induction l as [|b l IH]; [destruct Hx|]. simpl in HS. inversion HS as [|? ? H1 H2]; subst. destruct Hx as [<-|Hx]; auto.
  rewrite Forall_forall in H2. left. apply H2. apply in_or_app; right; left; auto.
Qed.
Lemma adj_map {A B} (f : A -> B) a b l : adj a b l -> adj (f a) (f b) (map f l).
Proof. intros (p & r & ->). exists (map f p), (map f r). rewrite map_app. reflexivity. Qed.
Lemma adj_map_inv {A B} (f : A -> B) x y l : adj x y (map f l) -> exists a b, adj a b l /\ x = f a /\ y = f b.
Proof.
  intros (p & r & H). revert p H. induction l as [|c l IH]; intros p H; [destruct p; discriminate|]. destruct p as [|q p].
  - destruct l as [|d l]; simpl in H; inversion H; subst. exists c, d. split; [exists [], l; reflexivity|auto].
  - simpl in H. inversion H; subst. destruct (IH p ltac:(auto)) as (a & b & Q1 & Q2 & Q3). exists a, b. split; [apply adj_cons|]; auto.
Qed.
Lemma path_timed : timed (path_of K).
Proof.
  destruct (g_first _ _ _ _ HG) as (e & K' & EK & HN & E0).
  assert (HS : StronglySorted Rlt (map fst (map fst K))) by (rewrite <- map_tm; apply good_sorted).
  constructor; unfold path_of; cbn [M_mjp.sk_t M_mjp.sk_x M_mjp.sk_fin].
  - rewrite !map_length. reflexivity.
  - rewrite EK. destruct e as [[u s] v]. unfold tm in E0. simpl in E0. subst u. reflexivity.
  - apply devirt_sorted; auto.
  - intros u Hu. apply in_map_iff in Hu as ([u' s] & <- & Hu). simpl. rewrite (g_last _ _ _ _ HG).
    assert (HI := devirt_incl _ _ Hu). apply in_map_iff in HI as (x & Ex & HI).
    assert (LE : tm x <= last t 0).
    { rewrite <- (g_last _ _ _ _ HG). rewrite <- (last_map tm). apply sorted_last_max; [apply good_sorted|]. apply in_map; auto. }
    destruct LE as [LT|EQ]; [unfold tm in LT; rewrite Ex in LT; exact LT|]. exfalso.
    destruct (devirt_kept _ _ Hu) as [(r & Er)|(a & Ha & Hn)].
    + rewrite EK in Er. simpl in Er. inversion Er as [[E1 E2]]. unfold tm in E0, EQ. rewrite E1 in E0. rewrite Ex in EQ. simpl in *. lra.
    + apply adj_map_inv in Ha as (x1 & x2 & Ha & -> & E2). destruct (g_adj _ _ _ _ HG x1 x2 Ha) as (_ & _ & H3). apply Hn. rewrite E2. apply H3.
      unfold tm in *. rewrite <- E2. rewrite Ex in EQ. exact EQ.
Qed.
Lemma path_wf : wf_skel (path_of K).
Proof. split; [exact path_timed|]. unfold path_of. cbn [M_mjp.sk_x]. apply devirt_no_repeat. Qed.
Lemma path_state e : In e K -> state_at (path_of K) (tm e) (st e).
Proof.
  intros H. assert (HS : StronglySorted Rlt (map fst (map fst K))) by (rewrite <- map_tm; apply good_sorted).
  apply state_at_look; [unfold path_of; cbn [M_mjp.sk_t M_mjp.sk_x]; rewrite !map_length; reflexivity|apply SS_lt_le; apply (td_sorted _ path_timed)|].
  assert (EJ : jumps (path_of K) = devirt (map fst K)).
  { unfold jumps, path_of. cbn [M_mjp.sk_t M_mjp.sk_x]. generalize (devirt (map fst K)). intros l. induction l as [|[a b] l IH]; simpl; [reflexivity|]. rewrite IH. reflexivity. }
  rewrite EJ, look_devirt by (apply SS_lt_le; auto). apply look_self; auto. apply in_map_iff. exists e. split; auto. unfold tm, st. apply surjective_pairing.
Qed.
Lemma in_combine_iff {A B} (l : list A) (m : list B) u v : In (u, v) (combine l m) <-> exists k, nth_error l k = Some u /\ nth_error m k = Some v.
Proof.
  split.
  - revert m; induction l as [|a l IH]; intros [|b m] H; simpl in H; try tauto. destruct H as [H|H].
    + inversion H; subst. exists 0%nat. auto.
    + destruct (IH m H) as [k Hk]. exists (S k). auto.
  - intros [k [H1 H2]]. revert l m H1 H2; induction k as [|k IH]; intros [|a l] [|b m] H1 H2; simpl in *; try discriminate.
    + inversion H1; inversion H2; subst; auto.
    + right; auto.
Qed.
Lemma nth_map_inv {A B} (f : A -> B) l j x : nth_error (map f l) j = Some x -> exists e, nth_error l j = Some e /\ x = f e.
Proof. rewrite nth_error_map. destruct (nth_error l j) as [e|]; simpl; intros H; inversion H; eauto. Qed.
Lemma good_ok : hidden_ok dim t vt (path_of K) (anch_of K) (length K - 1).
Proof.
  pose proof good_nonempty as NE. destruct (g_first _ _ _ _ HG) as (e0 & K' & EK & HN & E0).
  constructor; unfold anch_of; cbn [a_t a_y a_v].
  - rewrite !map_length; auto.
  - rewrite !map_length; auto.
  - rewrite map_length, EK. simpl. lia.
  - apply good_sorted.
  - rewrite EK. simpl. rewrite E0. auto.
  - rewrite <- (g_last _ _ _ _ HG), <- (last_map tm). reflexivity.
  - intros k tk vk H1 H2. destruct (g_data _ _ _ _ HG tk vk) as (e & He & <- & <-).
    + apply in_combine_iff. eauto.
    + destruct (In_nth_error _ _ He) as [j Hj]. exists j. rewrite !nth_error_map, Hj. auto.
  - intros u. unfold path_of. cbn [M_mjp.sk_t]. split.
    + intros Hu. apply in_map_iff in Hu as (e & <- & He). rewrite EK in He. destruct (in_adj _ _ _ He) as [->|[b Hb]].
      * left. rewrite E0. auto.
      * rewrite <- EK in Hb. destruct (Nat.eq_dec (st b) (st e)) as [Es|Es].
        -- left. apply (g_adj _ _ _ _ HG b e Hb); auto.
        -- right. change (tm e) with (fst (fst e)). apply in_map. apply devirt_adj with (fst b); auto. apply adj_map; auto.
    + intros [Hu|Hu].
      * destruct (In_nth_error _ _ Hu) as [k Hk]. assert (Lk : (k < length vt)%nat) by (rewrite HL; apply nth_error_Some; congruence).
        apply nth_error_Some in Lk. destruct (nth_error vt k) as [v|] eqn:Ev; [|congruence].
        destruct (g_data _ _ _ _ HG u v) as (e & He & <- & _); [apply in_combine_iff; eauto|]. apply in_map; auto.
      * apply in_map_iff in Hu as (q & <- & Hq). apply devirt_incl in Hq. rewrite map_tm. apply in_map; auto.
  - intros j u s H1 H2 H3. apply nth_map_inv in H1 as (e & He & E1). apply nth_map_inv in H2 as (e' & He' & E2). rewrite nth_error_map, He' in H3. simpl in H3. inversion H3; subst u.
    apply (g_adj _ _ _ _ HG e e'); [eapply adj_nth; eauto|congruence].
  - exact path_wf.
  - unfold path_of. cbn [M_mjp.sk_fin]. apply (g_last _ _ _ _ HG).
  - unfold path_of. cbn [M_mjp.sk_x]. apply Forall_forall. intros s Hs. apply in_map_iff in Hs as (q & <- & Hq). apply devirt_incl in Hq.
    apply in_map_iff in Hq as (e & <- & He). pose proof (g_dim _ _ _ _ HG) as D. rewrite Forall_forall in D. apply D; auto.
  - intros j u s H1 H2. apply nth_map_inv in H1 as (e & He & ->). rewrite nth_error_map, He in H2. simpl in H2. inversion H2; subst s. apply path_state. eapply nth_error_In; eauto.
  - fold (anch_of K). apply prune_of; auto.
Qed.
End Good.
