(** General list lemmas and lemmas about the numpy primitives. *)
From Coq Require Import Reals List ZArith Bool Arith Lia Lra Sorted Permutation.
From Verif Require Import Base Np.
Import ListNotations.
Local Open Scope R_scope.

Lemma nth_error_ext_eq {A} (l m : list A) :
  (forall i, nth_error l i = nth_error m i) -> l = m.
Proof.
  revert m; induction l as [|a l IH]; intros [|b m] H; auto.
  - specialize (H 0%nat); discriminate.
  - specialize (H 0%nat); discriminate.
  - f_equal. + specialize (H 0%nat); simpl in H; congruence.
    + apply IH; intros i; apply (H (S i)).
Qed.

Lemma map_combine_fst {A B} (l : list A) (m : list B) :
  length l = length m -> map fst (combine l m) = l.
Proof. revert m; induction l as [|a l IH]; intros [|b m]; simpl; intros; try lia; f_equal; auto. Qed.
Lemma map_combine_snd {A B} (l : list A) (m : list B) :
  length l = length m -> map snd (combine l m) = m.
Proof. revert m; induction l as [|a l IH]; intros [|b m]; simpl; intros; try lia; f_equal; auto. Qed.
Lemma combine_fst_snd {A B} (l : list (A * B)) : combine (map fst l) (map snd l) = l.
Proof. induction l as [|[a b] l IH]; simpl; congruence. Qed.
Lemma combine_app' {A B} (l l' : list A) (m m' : list B) :
  length l = length m -> combine (l ++ l') (m ++ m') = combine l m ++ combine l' m'.
Proof. revert m; induction l as [|a l IH]; intros [|b m]; simpl; intros; try lia; f_equal; auto. Qed.
Lemma combine_map_l {A B C} (f : A -> B) (l : list A) (m : list C) :
  combine (map f l) m = map (fun p => (f (fst p), snd p)) (combine l m).
Proof. revert m; induction l as [|a l IH]; intros [|b m]; simpl; auto; f_equal; auto. Qed.
Lemma skipn_combine {A B} n (l : list A) (m : list B) :
  skipn n (combine l m) = combine (skipn n l) (skipn n m).
Proof.
  revert l m; induction n as [|n IH]; intros [|a l] [|b m]; simpl; auto.
  destruct (skipn n l); reflexivity.
Qed.
Lemma firstn_combine {A B} n (l : list A) (m : list B) :
  firstn n (combine l m) = combine (firstn n l) (firstn n m).
Proof. apply combine_firstn. Qed.

Lemma StronglySorted_app {A} (P : A -> A -> Prop) l m :
  StronglySorted P (l ++ m) <->
  StronglySorted P l /\ StronglySorted P m /\ (forall a b, In a l -> In b m -> P a b).
Proof.
  induction l as [|x l IH]; simpl.
  - split; [intros H; repeat split; auto; [constructor | contradiction] | tauto].
  - split.
    + intros H; inversion H as [|? ? H1 H2]; subst. apply IH in H1 as (Hl & Hm & Hc).
      rewrite Forall_app in H2. destruct H2 as [F1 F2].
      repeat split; auto. * constructor; auto.
      * intros a b [<-|Ha] Hb; auto. rewrite Forall_forall in F2; auto.
    + intros (Hl & Hm & Hc). inversion Hl as [|? ? H1 H2]; subst.
      constructor. * apply IH; repeat split; auto.
      * apply Forall_app; split; auto. apply Forall_forall; auto.
Qed.
Lemma StronglySorted_map {A B} (P : A -> A -> Prop) (Q : B -> B -> Prop) (f : A -> B) l :
  (forall a b, P a b -> Q (f a) (f b)) -> StronglySorted P l -> StronglySorted Q (map f l).
Proof.
  intros Hf H; induction H as [|a l H IH F]; simpl; constructor; auto.
  rewrite Forall_map. eapply Forall_impl; [|exact F]. auto.
Qed.
Lemma StronglySorted_filter {A} (P : A -> A -> Prop) (f : A -> bool) l :
  StronglySorted P l -> StronglySorted P (filter f l).
Proof.
  intros H; induction H as [|a l H IH F]; simpl; [constructor|].
  destruct (f a); auto. constructor; auto.
  rewrite Forall_forall in *; intros x Hx; apply filter_In in Hx; apply F; tauto.
Qed.
Lemma StronglySorted_nth {A} (P : A -> A -> Prop) l i j a b :
  StronglySorted P l -> (i < j)%nat -> nth_error l i = Some a -> nth_error l j = Some b -> P a b.
Proof.
  intros H; revert i j; induction H as [|x l H IH F]; intros [|i] [|j] Hij Ha Hb;
    try lia; simpl in *; try discriminate.
  - inversion Ha; subst. rewrite Forall_forall in F. apply F. eapply nth_error_In; eauto.
  - apply (IH i j); auto; lia.
Qed.
Lemma StronglySorted_impl {A} (P Q : A -> A -> Prop) l :
  (forall a b, P a b -> Q a b) -> StronglySorted P l -> StronglySorted Q l.
Proof. intros HI H; induction H as [|a l H IH F]; constructor; auto.
  rewrite Forall_forall in *; auto. Qed.

(** filters of sorted lists are prefixes/suffixes *)
Lemma filter_all {A} (f : A -> bool) l : (forall a, In a l -> f a = true) -> filter f l = l.
Proof. induction l as [|a l IH]; simpl; intros H; auto. rewrite H by auto. f_equal; auto. Qed.
Lemma filter_none {A} (f : A -> bool) l : (forall a, In a l -> f a = false) -> filter f l = [].
Proof. induction l as [|a l IH]; simpl; intros H; auto. rewrite H by auto. auto. Qed.
Lemma filter_map_comm {A B} (f : B -> bool) (g : A -> B) l :
  filter f (map g l) = map g (filter (fun a => f (g a)) l).
Proof. induction l as [|a l IH]; simpl; auto. destruct (f (g a)); simpl; congruence. Qed.
Lemma filter_filter {A} (f g : A -> bool) l :
  filter f (filter g l) = filter (fun a => g a && f a) l.
Proof.
  induction l as [|a l IH]; simpl; auto. destruct (g a); simpl; auto.
  destruct (f a); simpl; congruence.
Qed.

(** [f] is downward closed along [l]: once false, false ever after. *)
Definition down_closed {A} (f : A -> bool) (l : list A) : Prop :=
  forall p a q, l = p ++ a :: q -> f a = false -> forall b, In b q -> f b = false.
Lemma down_closed_tl {A} (f : A -> bool) a l : down_closed f (a :: l) -> down_closed f l.
Proof. intros H p b q E. apply (H (a :: p) b q). simpl; congruence. Qed.
Lemma filter_prefix {A} (f : A -> bool) l :
  down_closed f l ->
  firstn (length (filter f l)) l = filter f l /\
  skipn (length (filter f l)) l = filter (fun a => negb (f a)) l.
Proof.
  induction l as [|a l IH]; intros D; simpl; auto.
  destruct (f a) eqn:E; simpl.
  - destruct (IH (down_closed_tl _ _ _ D)) as [I1 I2]. split; [f_equal|]; auto.
  - assert (N : forall b, In b l -> f b = false) by (apply (D [] a l); auto).
    rewrite (filter_none f l) by auto. simpl. split; auto. f_equal.
    symmetry; apply filter_all. intros b Hb; rewrite N; auto.
Qed.
Lemma sorted_down_closed {A} (P : A -> A -> Prop) (f : A -> bool) l :
  StronglySorted P l -> (forall a b, P a b -> f a = false -> f b = false) -> down_closed f l.
Proof.
  intros H Hf p a q -> Ha b Hb.
  apply StronglySorted_app in H as (_ & H & _). inversion H as [|? ? _ F]; subst.
  rewrite Forall_forall in F. eapply Hf; eauto.
Qed.

(** mask *)
Lemma mask_length {A} (l : list A) m : length l = length m -> exists r, mask l m = Some r.
Proof.
  revert m; induction l as [|a l IH]; intros [|b m]; simpl; intros H; try lia; eauto.
  destruct (IH m) as [r ->]; eauto.
Qed.
Lemma mask_combine_fst {A B} (l : list (A * B)) m :
  mask (map fst l) m = option_map (map fst) (mask l m).
Proof.
  revert m; induction l as [|a l IH]; intros [|b m]; simpl; auto.
  rewrite IH. destruct (mask l m); simpl; auto. destruct b; auto.
Qed.
Lemma mask_combine_snd {A B} (l : list (A * B)) m :
  mask (map snd l) m = option_map (map snd) (mask l m).
Proof.
  revert m; induction l as [|a l IH]; intros [|b m]; simpl; auto.
  rewrite IH. destruct (mask l m); simpl; auto. destruct b; auto.
Qed.

(** last *)
Lemma last_opt_app {A} (l : list A) a : last_opt (l ++ [a]) = Some a.
Proof.
  unfold last_opt, pyget. change (-1 <? 0)%Z with true. cbv iota.
  rewrite app_length; cbn [length].
  destruct (Z.ltb_spec (-1 + Z.of_nat (length l + 1)) 0); [lia|].
  replace (Z.to_nat (-1 + Z.of_nat (length l + 1))) with (length l) by lia.
  rewrite nth_error_app2 by lia. rewrite Nat.sub_diag. reflexivity.
Qed.
Lemma last_opt_nil {A} : @last_opt A [] = None.
Proof. reflexivity. Qed.
Lemma last_opt_Some {A} (l : list A) a : last_opt l = Some a <-> exists r, l = r ++ [a].
Proof.
  split.
  - destruct l as [|x l]; [discriminate|].
    destruct (exists_last (l := x :: l)) as [r [b E]]; [discriminate|].
    rewrite E, last_opt_app. intros H; inversion H; subst; eauto.
  - intros [r ->]; apply last_opt_app.
Qed.
Lemma last_opt_cons {A} (a b : A) l : last_opt (a :: b :: l) = last_opt (b :: l).
Proof.
  destruct (exists_last (l := b :: l)) as [r [c E]]; [discriminate|].
  rewrite E, last_opt_app. change (a :: r ++ [c]) with ((a :: r) ++ [c]). apply last_opt_app.
Qed.
Lemma but_last_app {A} (l : list A) a : but_last (l ++ [a]) = l.
Proof. apply removelast_last. Qed.
Lemma but_last_length {A} (l : list A) : length (but_last l) = (length l - 1)%nat.
Proof.
  destruct l as [|x l]; auto.
  destruct (exists_last (l := x :: l)) as [r [b E]]; [discriminate|].
  rewrite E, but_last_app, app_length; simpl; lia.
Qed.

(** pyslice for non-negative bounds *)
Lemma pyslice_nat {A} (l : list A) (i j : nat) :
  (i <= length l)%nat -> (j <= length l)%nat ->
  pyslice l (Z.of_nat i) (Z.of_nat j) = firstn (j - i) (skipn i l).
Proof.
  intros Hi Hj. unfold pyslice, norm_bound.
  destruct (Z.ltb_spec (Z.of_nat i) 0); [lia|].
  destruct (Z.ltb_spec (Z.of_nat j) 0); [lia|].
  rewrite !Nat2Z.id, !Nat.min_l by lia. reflexivity.
Qed.
Lemma pyget_nat {A} (l : list A) (i : nat) : pyget l (Z.of_nat i) = nth_error l i.
Proof.
  unfold pyget. destruct (Z.ltb_spec (Z.of_nat i) 0); [lia|]. rewrite Nat2Z.id; auto.
Qed.

(** sorting *)
Lemma sort_ins_perm (a : R) l : Permutation (sort_ins a l) (a :: l).
Proof.
  induction l as [|b l IH]; simpl; auto.
  destruct (Rleb a b); auto. rewrite IH. apply perm_swap.
Qed.
Lemma np_sort_perm (l : list R) : Permutation (np_sort l) l.
Proof. induction l as [|a l IH]; simpl; auto. rewrite sort_ins_perm. auto. Qed.
Lemma sort_ins_sorted (a : R) l : StronglySorted Rle l -> StronglySorted Rle (sort_ins a l).
Proof.
  intros H; induction H as [|b l H IH F]; simpl; [repeat constructor|].
  destruct (Rleb_dec a b) as [[L ->]|[L ->]].
  - constructor; [constructor; auto|]. constructor; auto.
    eapply Forall_impl; [|exact F]. intros; simpl in *; lra.
  - constructor; auto. rewrite Forall_forall in *. intros x Hx.
    apply (Permutation_in _ (sort_ins_perm a l)) in Hx. destruct Hx as [<-|Hx]; [lra|auto].
Qed.
Lemma np_sort_sorted (l : list R) : StronglySorted Rle (np_sort l).
Proof. induction l as [|a l IH]; simpl; [constructor|]. apply sort_ins_sorted; auto. Qed.

Lemma nth_error_combine {A B} (l : list A) (m : list B) k :
  nth_error (combine l m) k =
  match nth_error l k, nth_error m k with Some a, Some b => Some (a, b) | _, _ => None end.
Proof.
  revert m k; induction l as [|a l IH]; intros [|b m] [|k]; simpl; auto.
  - destruct (nth_error l k); auto.
Qed.

Lemma last_cons' {A} (l : list A) a d : last (a :: l) d = last l a.
Proof.
  revert a d; induction l as [|b l IH]; intros; auto.
  change (last (a :: b :: l) d) with (last (b :: l) d). rewrite (IH b d), (IH b a). reflexivity.
Qed.
