(** The regime proposal: partition at conditioning times, mutate, paste. *)
From Coq Require Import Reals List ZArith Bool Arith Lia Lra Sorted Permutation.
From Verif Require Import Base Np Rng Mat M_mjp SpecMjp L_list L_path L_part L_path2 L_rng L_mat L_sim L_bridge L_bridge2 L_mutate.
Import ListNotations.
Local Open Scope R_scope.

Lemma mask_incl {A} (l : list A) m r : mask l m = Some r -> incl r l.
Proof.
  revert m r; induction l as [|a l IH]; intros [|b m] r; simpl; try discriminate.
  - intros E; inversion E. apply incl_refl.
  - destruct (mask l m) as [r'|] eqn:E; [|discriminate]. intros E'; inversion E'; subst.
    specialize (IH _ _ E). destruct b; [|apply incl_tl; auto].
    apply incl_cons; [left; auto|apply incl_tl; auto].
Qed.
Lemma paste_states (ps : list (skel R)) s x : paste_partition ps = Ok s -> In x (sk_x s) ->
  exists p, In p ps /\ In x (sk_x p).
Proof.
  unfold paste_partition. set (qs := filter _ ps).
  assert (HQ : forall q, In q qs -> In q ps) by (intros q Hq; apply filter_In in Hq; tauto).
  destruct qs as [|q0 qs0] eqn:E; [discriminate|].
  destruct (mask _ _) as [t'|]; [|discriminate].
  destruct (mask (concat (map sk_x (q0 :: qs0))) _) as [x'|] eqn:EX; [|discriminate].
  destruct (last_opt _); [|discriminate].
  intros H Hx; inversion H; subst; clear H. cbn [sk_x] in Hx. apply (mask_incl _ _ _ EX) in Hx.
  apply in_concat in Hx as (l & Hl & Hxl). apply in_map_iff in Hl as (p & <- & Hp). eauto.
Qed.
Lemma pyslice_incl {A} (l : list A) i j : incl (pyslice l i j) l.
Proof.
  unfold pyslice. intros a Ha. apply (In_nth_error) in Ha as [n Hn].
  assert (H : In a (skipn (norm_bound (length l) i) l)).
  { rewrite <- (firstn_skipn (norm_bound (length l) j - norm_bound (length l) i) (skipn (norm_bound (length l) i) l)).
    apply in_app_iff. left. eapply nth_error_In; eauto. }
  rewrite <- (firstn_skipn (norm_bound (length l) i) l). apply in_app_iff; auto.
Qed.
Lemma partition_states (s : skel R) bs p x : In p (partition_skeleton s bs) -> In x (sk_x p) -> In x (sk_x s).
Proof.
  rewrite partition_pieces. generalize (0 :: bs ++ [sk_fin s]); intros l.
  induction l as [|a l IH]; [intros []|]. destruct l as [|b l]; [intros []|].
  change (pieces s (a :: b :: l)) with (piece s a b :: pieces s (b :: l)).
  intros [<-|H]; auto. unfold piece; cbn [sk_x]. apply pyslice_incl.
Qed.
Lemma pieces_prefix_dur s l : forall k a a0, nth_error (a0 :: l) k = Some a ->
  total_dur (firstn k (pieces s (a0 :: l))) = a - a0.
Proof.
  induction l as [|b l IH]; intros k a a0 H.
  - destruct k as [|k]; simpl in H; [inversion H; unfold total_dur; simpl; lra|destruct k; discriminate].
  - destruct k as [|k]; [simpl in H; inversion H; unfold total_dur; simpl; lra|].
    change (pieces s (a0 :: b :: l)) with (piece s a0 b :: pieces s (b :: l)). cbn [firstn nth_error] in *.
    specialize (IH k a b H). unfold total_dur in *. cbn [map fold_right]. rewrite IH. simpl. lra.
Qed.

Lemma breaks_strict fin bs : StronglySorted Rlt bs -> (forall b, In b bs -> 0 < b < fin) -> 0 < fin ->
  StronglySorted Rlt (0 :: bs ++ [fin]).
Proof.
  intros H1 H2 H3. constructor.
  - apply StronglySorted_app; repeat split; auto; [repeat constructor|].
    intros a b Ha [<-|[]]. apply H2; auto.
  - rewrite Forall_forall. intros x Hx. apply in_app_iff in Hx as [Hx|[<-|[]]]; auto. apply H2; auto.
Qed.
Lemma Forall2_length {A B} (P : A -> B -> Prop) l m : Forall2 P l m -> length l = length m.
Proof. induction 1; simpl; auto. Qed.
Lemma Forall2_nth {A B} (P : A -> B -> Prop) l m : Forall2 P l m -> forall k a, nth_error l k = Some a ->
  exists b, nth_error m k = Some b /\ P a b.
Proof.
  induction 1 as [|x y l m H HF IH]; intros [|k] a E; simpl in *; try discriminate.
  - inversion E; subst; eauto.
  - apply IH; auto.
Qed.
Lemma timed_state_0 p x : timed p -> (state_at p 0 x <-> initial_state p x).
Proof.
  intros T. destruct (timed_jumps p T) as (x0 & r & E).
  assert (I0 : initial_state p x0).
  { unfold jumps in E. destruct (timed_len_t p T) as [HL HN]. destruct (sk_t p) as [|a t]; [contradiction|].
    destruct (sk_x p) as [|b l] eqn:EX; [discriminate|]. simpl in E. inversion E; subst. exists l; auto. }
  assert (S0 : state_at p 0 x0).
  { destruct T as [T1 T2 T3 T4]. destruct I0 as [l El]. exists 0%nat, 0. split; auto. rewrite El. split; auto. split; [lra|].
    intros j tj Hj Ej. eapply StronglySorted_nth in T3; [|exact Hj|exact T2|exact Ej]. auto. }
  split; intros H.
  - rewrite (state_at_unique _ _ _ _ H S0). auto.
  - destruct I0 as [l El]. destruct H as [l' El']. rewrite El in El'. inversion El'; subst. auto.
Qed.

Section Proposal.
Variables (L : linalg) (dim : nat) (gen : mat).
Hypothesis Hdim : (2 <= dim)%nat.
Hypothesis Hgen : generator dim gen.
Hypothesis Hoff : forall i j, (i < dim)%nat -> (j < dim)%nat -> i <> j -> 0 < gen i j.
Hypothesis HL : expm_exact L.

Lemma proposal_ok fuel s bs : wf_skel s -> Forall (fun i => (i < dim)%nat) (sk_x s) ->
  StronglySorted Rlt bs -> (forall b, In b bs -> 0 < b < sk_fin s) -> bs <> [] ->
  safe_if generic (do ps <- mutate_partition L fuel (partition_skeleton s bs) dim gen; lift (paste_partition ps))
    (fun s' => wf_skel s' /\ sk_fin s' = sk_fin s /\ Forall (fun i => (i < dim)%nat) (sk_x s') /\
       forall b i, In b bs -> (state_at s b i <-> state_at s' b i)).
Proof.
  intros W FS HS HB NE. pose proof (proj1 W) as T.
  assert (HF : 0 < sk_fin s) by (apply timed_pos; auto).
  pose proof (breaks_strict (sk_fin s) bs HS HB HF) as HSS.
  destruct (partition_correct s bs W (SS_lt_le _ HS) ltac:(intros b Hb; specialize (HB b Hb); lra)) as (P1 & P2 & P3).
  set (ps := partition_skeleton s bs) in *.
  assert (PT : forall k p, nth_error ps k = Some p -> exists a b, nth_error (0 :: bs ++ [sk_fin s]) k = Some a /\
    nth_error (0 :: bs ++ [sk_fin s]) (S k) = Some b /\ wf_skel p /\ sk_fin p = b - a /\
    (forall i, state_at s a i <-> initial_state p i)).
  { intros k p Hk. assert (Lk : (k < length ps)%nat) by (apply nth_error_Some; congruence).
    destruct (nth_error (0 :: bs ++ [sk_fin s]) k) as [a|] eqn:Ea.
    2:{ apply nth_error_None in Ea. cbn [length] in Ea. rewrite app_length in Ea. cbn [length] in Ea. lia. }
    destruct (nth_error (0 :: bs ++ [sk_fin s]) (S k)) as [b|] eqn:Eb.
    2:{ apply nth_error_None in Eb. cbn [length] in Eb. rewrite app_length in Eb. cbn [length] in Eb. lia. }
    destruct (P3 k a b Ea Eb) as (p' & Hp' & Q1 & Q2 & Q3 & Q4 & Q5). rewrite Hk in Hp'. inversion Hp'; subst p'.
    assert (Lab : a < b) by (eapply (StronglySorted_nth Rlt _ k (S k) a b HSS); eauto).
    exists a, b. repeat split; auto; try (apply Q3; auto).
    intros Hi. assert (H : state_at p 0 i) by (apply timed_state_0; auto; apply Q3; auto).
    apply Q5 in H; [|lra]. rewrite Rplus_0_r in H. auto. }
  assert (TT : Forall timed ps).
  { rewrite Forall_forall. intros p Hp. apply In_nth_error in Hp as [k Hk]. destruct (PT k p Hk) as (a & b & _ & _ & Wp & _). apply Wp. }
  assert (TS : Forall (fun p => Forall (fun i => (i < dim)%nat) (sk_x p)) ps).
  { rewrite Forall_forall. intros p Hp. rewrite Forall_forall. intros x Hx. rewrite Forall_forall in FS. apply FS.
    eapply partition_states; eauto. }
  assert (SH : exists p mid q, ps = p :: mid ++ [q]).
  { destruct ps as [|p r] eqn:E; [cbn [length] in P1; lia|]. destruct r as [|r0 r1]; [destruct bs; [contradiction|cbn [length] in P1; lia]|].
    destruct (exists_last (l := r0 :: r1)) as (mid & q & Eq); [discriminate|]. rewrite Eq. eauto. }
  destruct SH as (p & mid & q & E). rewrite E in TT, TS |- *.
  eapply safe_bind; [apply mutate_ok; auto|]. intros ps' (p' & mid' & q' & -> & K1 & K2 & K3).
  assert (F2 : Forall2 (fun a a' => ok_piece dim (sk_fin a) a') ps (p' :: mid' ++ [q'])).
  { rewrite E. constructor; [apply K1|]. apply Forall2_app; [|constructor; [apply K3|constructor]].
    clear -K2. induction K2; constructor; auto. apply H. }
  assert (KI : forall k a a', nth_error ps (S k) = Some a -> nth_error (p' :: mid' ++ [q']) (S k) = Some a' ->
     forall x, initial_state a x -> initial_state a' x).
  { intros k a a' Ha Ha' x Hx. rewrite E in Ha. cbn [nth_error] in Ha, Ha'.
    assert (F2' : Forall2 (fun a a' => forall x, initial_state a x -> initial_state a' x) (mid ++ [q]) (mid' ++ [q'])).
    { apply Forall2_app; [|constructor; [apply K3; auto|constructor]].
      clear -K2. induction K2; constructor; auto. apply H; auto. }
    destruct (Forall2_nth _ _ _ F2' k a Ha) as (b & Hb & Hab). rewrite Ha' in Hb. inversion Hb; subst. auto. }
  set (ps' := p' :: mid' ++ [q']) in *.
  assert (T' : forall r, In r ps' -> sk_fin r = 0 \/ timed r).
  { intros r Hr. right. apply In_nth_error in Hr as [k Hk].
    assert (Lk : (k < length ps')%nat) by (apply nth_error_Some; congruence).
    rewrite <- (Forall2_length _ _ _ F2) in Lk. destruct (nth_error ps k) as [a|] eqn:Ea; [|apply nth_error_None in Ea; lia].
    destruct (Forall2_nth _ _ _ F2 k a Ea) as (r' & Hr' & Ok'). rewrite Hk in Hr'. inversion Hr'; subst. apply Ok'. }
  assert (TP : timed p') by apply K1.
  destruct (paste_correct ps' T' (ex_intro _ p' (conj (or_introl eq_refl) TP))) as (s' & Hs' & Ws' & Fs' & St').
  assert (DU : forall k, total_dur (firstn k ps') = total_dur (firstn k ps)).
  { clear -F2. induction F2 as [|a a' l l' H HF IH]; intros [|k]; cbn [firstn]; auto.
    unfold total_dur in *. cbn [map fold_right]. destruct H as (_ & -> & _). rewrite IH. auto. }
  intros o k0 V G. unfold lift. cbn [fst]. rewrite Hs'. repeat split; try apply Ws'.
  - rewrite Fs'. rewrite <- P2. pose proof (DU (length ps)) as D. rewrite firstn_all in D.
    rewrite (Forall2_length _ _ _ F2), firstn_all in D. auto.
  - rewrite Forall_forall. intros x Hx. destruct (paste_states _ _ _ Hs' Hx) as (r & Hr & Hxr).
    apply In_nth_error in Hr as [k Hk].
    assert (Lk : (k < length ps')%nat) by (apply nth_error_Some; congruence).
    rewrite <- (Forall2_length _ _ _ F2) in Lk. destruct (nth_error ps k) as [a|] eqn:Ea; [|apply nth_error_None in Ea; lia].
    destruct (Forall2_nth _ _ _ F2 k a Ea) as (r' & Hr' & Ok'). rewrite Hk in Hr'. inversion Hr'; subst.
    destruct Ok' as (_ & _ & FF). rewrite Forall_forall in FF; auto.
  - intros Hi. revert H Hi. intros Hb Hi.
    apply In_nth_error in Hb as [k Hk].
    assert (Lk : (k < length bs)%nat) by (apply nth_error_Some; congruence).
    destruct (nth_error ps (S k)) as [a|] eqn:Ea; [|apply nth_error_None in Ea; lia].
    destruct (PT _ _ Ea) as (b0 & b1 & Hb0 & Hb1 & Wa & Fa & Ia). cbn [nth_error] in Hb0.
    rewrite nth_error_app1 in Hb0 by auto. rewrite Hk in Hb0. inversion Hb0; subst b0.
    destruct (Forall2_nth _ _ _ F2 _ _ Ea) as (a' & Ha' & Ok').
    assert (X : state_at a' 0 i).
    { apply timed_state_0; [apply Ok'|]. eapply KI; eauto. apply Ia; auto. }
    apply (St' (S k) a' 0 i Ha' (proj1 (proj1 Ok')) (Rle_refl 0)) in X.
    2:{ left. destruct Ok' as (Wk & _). apply timed_pos, Wk. }
    rewrite DU in X. unfold ps in X. rewrite partition_pieces in X.
    rewrite (pieces_prefix_dur s (bs ++ [sk_fin s]) (S k) b 0) in X by (cbn [nth_error]; rewrite nth_error_app1; auto).
    replace (b - 0 + 0) with b in X by lra. auto.
  - intros Hi. revert H Hi. intros Hb Hi.
    assert (Hb' := Hb). apply In_nth_error in Hb as [k Hk].
    assert (Lk : (k < length bs)%nat) by (apply nth_error_Some; congruence).
    destruct (nth_error ps (S k)) as [a|] eqn:Ea; [|apply nth_error_None in Ea; lia].
    destruct (PT _ _ Ea) as (b0 & b1 & Hb0 & Hb1 & Wa & Fa & Ia). cbn [nth_error] in Hb0.
    rewrite nth_error_app1 in Hb0 by auto. rewrite Hk in Hb0. inversion Hb0; subst b0.
    destruct (Forall2_nth _ _ _ F2 _ _ Ea) as (a' & Ha' & Ok').
    destruct (state_at_total s b T ltac:(specialize (HB b Hb'); lra)) as [j Hj].
    assert (X : state_at a' 0 j).
    { apply timed_state_0; [apply Ok'|]. eapply KI; eauto. apply Ia; auto. }
    apply (St' (S k) a' 0 j Ha' (proj1 (proj1 Ok')) (Rle_refl 0)) in X.
    2:{ left. destruct Ok' as (Wk & _). apply timed_pos, Wk. }
    rewrite DU in X. unfold ps in X. rewrite partition_pieces in X.
    rewrite (pieces_prefix_dur s (bs ++ [sk_fin s]) (S k) b 0) in X by (cbn [nth_error]; rewrite nth_error_app1; auto).
    replace (b - 0 + 0) with b in X by lra. rewrite (state_at_unique _ _ _ _ Hi X). auto.
Qed.

Lemma proposal_fresh fuel s : 0 < sk_fin s -> 
  returns_if generic (do ps <- mutate_partition L fuel (partition_skeleton s []) dim gen; lift (paste_partition ps))
    (fun s' => wf_skel s' /\ sk_fin s' = sk_fin s /\ Forall (fun i => (i < dim)%nat) (sk_x s')).
Proof.
  intros HF. rewrite partition_pieces. cbn [app pieces]. unfold mutate_partition.
  change (sk_fin (piece s 0 (sk_fin s))) with (sk_fin s - 0).
  eapply returns_bind with (Q := fun ps => exists p, ps = [p] /\ ok_piece dim (sk_fin s) p).
  - eapply returns_bind; [apply sample_forwards_spec; [lra|discriminate]|].
    intros p (W & E & F & _). apply returns_ret. exists p; split; auto. split; auto. split; auto. rewrite E; lra.
  - intros ps (p & -> & W & E & F).
    destruct (paste_correct [p]) as (s' & Hs' & Ws' & Fs' & _).
    { intros r [<-|[]]; right; apply W. }
    { exists p; split; [left; auto|apply W]. }
    apply returns_lift. intros s'' Hs''. rewrite Hs' in Hs''. inversion Hs''; subst s''.
    repeat split; try apply Ws'.
    + rewrite Fs'. unfold total_dur; simpl. lra.
    + rewrite Forall_forall. intros x Hx. destruct (paste_states _ _ _ Hs' Hx) as (r & [<-|[]] & Hxr).
      rewrite Forall_forall in F; auto.
Qed.
End Proposal.
