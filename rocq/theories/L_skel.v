(** Lemmas: inserting points into a path. *)
From Coq Require Import Reals List Bool Arith Lia Lra Psatz Sorted.
From Verif Require Import Base Np Rng L_list L_rng L_bridge L_ars L_prop M_mjp M_hit M_path SpecPath L_sde L_sde2 M_skel SpecSkel.
Import ListNotations.
Local Open Scope R_scope.

(** ** weaving buckets into a list *)
Fixpoint weave {A} (p : nat) (arr : list A) (b : nat -> list A) : list A :=
  b p ++ match arr with [] => [] | a :: r => a :: weave (S p) r b end.
Lemma insert_weave {A} (arr : list A) iv : forall p, np_insert_from p arr iv = weave p arr (fun j => map snd (filter (fun q => Nat.eqb (fst q) j) iv)).
Proof. induction arr as [|a r IH]; intros p; simpl; auto. now rewrite IH. Qed.
Lemma weave_ext {A} (arr : list A) b c : forall p, (forall j, (p <= j <= p + length arr)%nat -> b j = c j) -> weave p arr b = weave p arr c.
Proof.
  induction arr as [|a r IH]; intros p H; cbn [weave].
  - rewrite H; auto. simpl; lia.
  - rewrite H by lia. do 2 f_equal. apply IH. intros j Hj. apply H. cbn [length]. lia.
Qed.
Lemma weave_in {A} (arr : list A) b q : forall p, In q (weave p arr b) <-> In q arr \/ exists j, (p <= j <= p + length arr)%nat /\ In q (b j).
Proof.
  induction arr as [|a r IH]; intros p; cbn [weave]; rewrite in_app_iff.
  - simpl. split; [intros [H|[]]; right; exists p; split; auto; lia|]. intros [[]|(j & Hj & H)]. replace p with j by lia. auto.
  - cbn [In length]. rewrite IH. split.
    + intros [H|[H|[H|(j & Hj & H)]]]; auto; right; [exists p|exists j]; split; auto; lia.
    + intros [[H|H]|(j & Hj & H)]; auto. destruct (Nat.eq_dec j p) as [->|]; auto. right; right; right. exists j. split; auto; lia.
Qed.
Lemma weave_combine {A B} (l : list A) (m : list B) b c : length l = length m -> forall p, (forall j, length (b j) = length (c j)) ->
  combine (weave p l b) (weave p m c) = weave p (combine l m) (fun j => combine (b j) (c j)).
Proof.
  revert m. induction l as [|a l IH]; intros [|a' m] L p H; try discriminate; cbn [weave combine].
  - now rewrite !app_nil_r.
  - rewrite combine_app' by auto. f_equal. cbn [combine]. f_equal. apply IH; auto.
Qed.
Lemma weave_length {A B} (l : list A) (m : list B) b c : length l = length m -> forall p, (forall j, length (b j) = length (c j)) ->
  length (weave p l b) = length (weave p m c).
Proof.
  revert m. induction l as [|a l IH]; intros [|a' m] L p H; try discriminate; cbn [weave]; rewrite !app_length, H; auto.
  cbn [length]. f_equal. f_equal. apply IH; auto.
Qed.
Lemma weave_length_ge {A} (l : list A) b : forall p, (length l <= length (weave p l b))%nat.
Proof. induction l as [|a l IH]; intros p; cbn [weave]; rewrite app_length; simpl; [lia|]. specialize (IH (S p)). lia. Qed.
Lemma weave_sorted (arr : list R) b : forall p, StronglySorted Rlt arr -> (forall j, StronglySorted Rlt (b j)) ->
  (forall j s i, In s (b (p + j)%nat) -> (i < j)%nat -> (i < length arr)%nat -> nth i arr 0 < s) ->
  (forall j s i, In s (b (p + j)%nat) -> (j <= i)%nat -> (i < length arr)%nat -> s < nth i arr 0) -> StronglySorted Rlt (weave p arr b).
Proof.
  induction arr as [|a r IH]; intros p HS HB H1 H2; cbn [weave].
  - now rewrite app_nil_r.
  - inversion HS; subst.
    assert (AR : forall s, In s (weave (S p) r b) -> a < s).
    { intros s Hs. apply weave_in in Hs as [Hs|(j & Hj & Hs)]; [rewrite Forall_forall in H4; auto|].
      apply (H1 (j - p)%nat s 0%nat); [replace (p + (j - p))%nat with j by lia; auto|lia|simpl; lia]. }
    apply StronglySorted_app. split; auto. split.
    + constructor; [|now apply Forall_forall]. apply IH; auto.
      * intros j s i Hs Hi Hl. apply (H1 (S j) s (S i)); [replace (p + S j)%nat with (S p + j)%nat by lia; auto|lia|simpl; lia].
      * intros j s i Hs Hi Hl. apply (H2 (S j) s (S i)); [replace (p + S j)%nat with (S p + j)%nat by lia; auto|lia|simpl; lia].
    + intros s s' Hs Hs'. assert (s < a). { apply (H2 0%nat s 0%nat); [now rewrite Nat.add_0_r|lia|simpl; lia]. }
      destruct Hs' as [<-|Hs']; auto. specialize (AR _ Hs'). lra.
Qed.

(** ** searchsorted *)
Lemma ss_spec t s : StronglySorted Rlt t -> forall i, (i < length t)%nat -> (nth i t 0 < s <-> (i < searchsorted_left t s)%nat).
Proof.
  intros HS i Hi. unfold searchsorted_left. change (@nltb R RNum) with Rltb.
  revert i Hi. induction t as [|a t IH]; intros i Hi; [simpl in Hi; lia|]. inversion HS; subst. cbn [filter].
  destruct (Rltb_dec a s) as [[L ->]|[L ->]].
  - destruct i as [|i]; cbn [nth length]; [split; auto; lia|]. rewrite IH by (auto; simpl in Hi; lia). lia.
  - assert (E : filter (fun a0 => Rltb a0 s) t = []).
    { apply filter_none. intros y Hy. rewrite Forall_forall in H2. specialize (H2 y Hy). apply Rltb_false. lra. }
    rewrite E. simpl length. destruct i as [|i]; cbn [nth]; [split; [lra|lia]|]. split; [|lia]. intros H.
    rewrite Forall_forall in H2. assert (a < nth i t 0) by (apply H2, nth_In; simpl in Hi; lia). lra.
Qed.
Lemma ss_le (t : list R) s : (searchsorted_left t s <= length t)%nat.
Proof. apply searchsorted_le. Qed.
Lemma ss_mono t s s' : s <= s' -> (searchsorted_left t s <= searchsorted_left t s')%nat.
Proof.
  intros H. unfold searchsorted_left. change (@nltb R RNum) with Rltb. induction t as [|a t IH]; simpl; auto.
  destruct (Rltb_dec a s) as [[L ->]|[L ->]], (Rltb_dec a s') as [[L' ->]|[L' ->]]; simpl; try lia; lra.
Qed.

(** ** grouping a sorted list of positions *)
Fixpoint nondecr (l : list nat) : Prop := match l with [] => True | a :: r => (forall b, In b r -> (a <= b)%nat) /\ nondecr r end.
Definition bucket {A} (idx : list nat) (vals : list A) (j : nat) : list A := map snd (filter (fun q => Nat.eqb (fst q) j) (combine idx vals)).
Lemma bucket_out {A} idx (vals : list A) j : ~ In j idx -> bucket idx vals j = [].
Proof.
  intros H. unfold bucket. rewrite filter_none; auto. intros [i v] Hi. apply in_combine_l in Hi. cbn [fst]. apply Nat.eqb_neq. intros ->. auto.
Qed.
Lemma bucket_fst {A} idx (vals : list A) j : length idx = length vals -> length (bucket idx vals j) = length (filter (Nat.eqb j) idx).
Proof.
  unfold bucket. rewrite map_length. revert vals. induction idx as [|i idx IH]; intros [|v vals] L; try discriminate; auto.
  cbn [combine filter fst]. rewrite (Nat.eqb_sym i j). destruct (Nat.eqb j i); cbn [length]; auto.
Qed.
Lemma nondecr_group l : nondecr l -> forall lo n, (forall i, In i l -> (lo <= i < lo + n)%nat) ->
  l = concat (map (fun i => repeat i (length (filter (Nat.eqb i) l))) (filter (fun i => existsb (Nat.eqb i) l) (seq lo n))).
Proof.
  intros ND lo n. revert l ND lo. induction n as [|n IH]; intros l ND lo H.
  - destruct l as [|i l]; auto. specialize (H i (or_introl eq_refl)). lia.
  - assert (SP : l = repeat lo (length (filter (Nat.eqb lo) l)) ++ filter (fun i => negb (Nat.eqb lo i)) l).
    { clear IH. induction l as [|i l IHl]; auto. destruct ND as [N1 N2]. cbn [filter]. destruct (Nat.eqb_spec lo i) as [->|NE]; cbn [negb length repeat app].
      - f_equal. apply IHl; auto. intros k Hk. apply H. now right.
      - assert (E : filter (Nat.eqb lo) l = []).
        { apply filter_none. intros k Hk. apply Nat.eqb_neq. specialize (N1 k Hk). specialize (H i (or_introl eq_refl)). lia. }
        rewrite E. cbn [length repeat app]. f_equal. symmetry. apply filter_all. intros k Hk. apply negb_true_iff, Nat.eqb_neq. specialize (N1 k Hk). specialize (H i (or_introl eq_refl)). lia. }
    set (l' := filter (fun i => negb (Nat.eqb lo i)) l) in *.
    assert (ND' : nondecr l').
    { clear - ND. unfold l'. induction l as [|i l IHl]; simpl; auto. destruct ND as [N1 N2]. destruct (negb _); auto. simpl. split; auto. intros b Hb. apply filter_In in Hb as [Hb _]. auto. }
    assert (H' : forall i, In i l' -> (S lo <= i < S lo + n)%nat).
    { intros i Hi. apply filter_In in Hi as [Hi Hn]. apply negb_true_iff, Nat.eqb_neq in Hn. specialize (H i Hi). lia. }
    assert (IH' := IH l' ND' (S lo) H').
    assert (CF : forall i, (lo < i)%nat -> filter (Nat.eqb i) l' = filter (Nat.eqb i) l).
    { intros i Hi. unfold l'. rewrite filter_filter. apply filter_ext. intros k. destruct (Nat.eqb_spec i k), (Nat.eqb_spec lo k); simpl; auto; lia. }
    assert (CE : forall i, (lo < i)%nat -> existsb (Nat.eqb i) l' = existsb (Nat.eqb i) l).
    { intros i Hi. apply eq_true_iff_eq. rewrite !existsb_exists. split; intros (k & Hk & E); apply Nat.eqb_eq in E; subst k; exists i; rewrite Nat.eqb_refl; split; auto.
      - now apply filter_In in Hk.
      - apply filter_In. split; auto. apply negb_true_iff, Nat.eqb_neq. lia. }
    cbn [seq]. cbn [filter].
    assert (TL : concat (map (fun i => repeat i (length (filter (Nat.eqb i) l))) (filter (fun i => existsb (Nat.eqb i) l) (seq (S lo) n))) = l').
    { etransitivity; [|symmetry; exact IH']. f_equal.
      assert (FE : filter (fun i => existsb (Nat.eqb i) l) (seq (S lo) n) = filter (fun i => existsb (Nat.eqb i) l') (seq (S lo) n)).
      { apply filter_ext_in. intros i Hi. apply in_seq in Hi. symmetry. apply CE. lia. }
      rewrite FE. apply map_ext_in. intros i Hi. apply filter_In in Hi as [Hi _]. apply in_seq in Hi. rewrite CF by lia. reflexivity. }
    destruct (existsb (Nat.eqb lo) l) eqn:EX.
    + cbn [map concat]. rewrite TL. exact SP.
    + rewrite TL. rewrite SP at 1. assert (E : filter (Nat.eqb lo) l = []).
      { apply filter_none. intros k Hk. destruct (Nat.eqb lo k) eqn:E; auto. rewrite <- EX. symmetry. apply existsb_exists. eauto. }
      now rewrite E.
Qed.

(** values given sector by sector land in their sector *)
Lemma group_values {A} (f : nat -> list A) (c : nat -> nat) secs j : (forall i, In i secs -> length (f i) = c i) -> NoDup secs ->
  bucket (concat (map (fun i => repeat i (c i)) secs)) (concat (map f secs)) j = if existsb (Nat.eqb j) secs then f j else [].
Proof.
  intros L ND. unfold bucket. induction secs as [|i secs IH]; auto. inversion ND; subst. cbn [map concat existsb].
  rewrite combine_app' by (rewrite repeat_length; symmetry; apply L; now left). rewrite filter_app, map_app, IH; auto; [|intros; apply L; now right].
  assert (R : forall n (l : list A), length l = n -> map snd (filter (fun q => Nat.eqb (fst q) j) (combine (repeat i n) l)) = if Nat.eqb j i then l else []).
  { induction n as [|n IHn]; intros [|v l] Hl; try discriminate; [now destruct (Nat.eqb j i)|]. cbn [repeat combine filter fst].
    specialize (IHn l ltac:(simpl in Hl; lia)). rewrite (Nat.eqb_sym i j). destruct (Nat.eqb j i); cbn [map snd]; rewrite IHn; auto. }
  rewrite R by (apply L; now left). destruct (Nat.eqb_spec j i) as [->|NE]; auto. cbn [orb].
  assert (E : existsb (Nat.eqb i) secs = false). { destruct (existsb _ _) eqn:E; auto. apply existsb_exists in E as (k & Hk & E). apply Nat.eqb_eq in E. now subst. }
  now rewrite E, app_nil_r.
Qed.
Lemma unique_pos_in n l i : (forall k, In k l -> (k <= n)%nat) -> (In i (np_unique_pos n l) <-> In i l).
Proof.
  intros H. unfold np_unique_pos. rewrite filter_In, in_seq, existsb_exists. split.
  - intros [_ (k & Hk & E)]. apply Nat.eqb_eq in E. now subst.
  - intros Hi. split; [specialize (H i Hi); lia|]. exists i. now rewrite Nat.eqb_refl.
Qed.
Lemma unique_pos_nodup n l : NoDup (np_unique_pos n l).
Proof. apply NoDup_filter, seq_NoDup. Qed.

(** ** flags stacked segment by segment *)
Lemma list_set_nth {A} (l : list A) i v j d : nth j (list_set l i v) d = if Nat.eqb i j && Nat.ltb j (length l) then v else nth j l d.
Proof.
  revert i j. induction l as [|a l IH]; intros i j; [destruct i, j; simpl; auto; rewrite andb_false_r; auto|].
  destruct i as [|i], j as [|j]; simpl; auto. rewrite IH. destruct (Nat.eqb i j); auto.
Qed.
Lemma list_set_length {A} (l : list A) i v : length (list_set l i v) = length l.
Proof. revert i. induction l as [|a l IH]; intros [|i]; simpl; auto. Qed.
(** flags of segment j after filling *)
Definition seg_new (f : nat -> list R * option (list bool)) (secs : list nat) (h : bool) (j : nat) : list bool :=
  if existsb (Nat.eqb (S j)) secs then match snd (f (S j)) with Some fl => fl | None => repeat h (length (fst (f (S j))) + 1) end else [h].
Lemma concat_repeat1 {A} (h : A) n : concat (repeat [h] n) = repeat h n.
Proof. induction n; simpl; congruence. Qed.
Lemma stack_flags_eq h f secs : NoDup secs -> (forall i, In i secs -> (1 <= i)%nat) ->
  stack_flags h secs (map f secs) = concat (map (fun j => seg_new f secs (nth j h false) j) (seq 0 (length h))).
Proof.
  intros ND P. unfold stack_flags.
  set (step := fun acc (p : nat * (list R * option (list bool))) => let '(i, (b, a)) := p in
     list_set acc (i - 1) (match a with None => concat (repeat (nth (i - 1) acc []) (length b + 1)) | Some fl => fl end)).
  assert (X : forall secs acc, NoDup secs -> (forall i, In i secs -> (1 <= i)%nat) ->
    (forall i, In i secs -> nth (i - 1) acc [] = nth (i - 1) (map (fun b => [b]) h) []) -> length acc = length h ->
    length (fold_left step (combine secs (map f secs)) acc) = length h /\
    forall j, (j < length h)%nat -> nth j (fold_left step (combine secs (map f secs)) acc) [] =
      if existsb (Nat.eqb (S j)) secs then seg_new f secs (nth j h false) j else nth j acc []).
  { clear secs ND P. induction secs as [|i secs IH]; intros acc ND P HA LA; [cbn; split; auto|].
    inversion ND; subst. cbn [map combine fold_left]. destruct (f i) as [b a] eqn:Ef.
    destruct (IH (step acc (i, (b, a)))) as [L N]; auto.
    - intros k Hk. apply P; now right.
    - intros k Hk. unfold step. rewrite list_set_nth. destruct (Nat.eqb_spec (i - 1) (k - 1)) as [E|NE]; [|apply HA; now right].
      exfalso. assert (1 <= i)%nat by (apply P; now left). assert (1 <= k)%nat by (apply P; now right). replace k with i in Hk by lia. auto.
    - unfold step. now rewrite list_set_length.
    - split; auto. intros j Hj. rewrite N by auto. cbn [existsb]. unfold seg_new. cbn [existsb].
      assert (1 <= i)%nat by (apply P; now left).
      destruct (Nat.eqb_spec (S j) i) as [E|NE].
      + cbn [orb]. assert (EX : existsb (Nat.eqb (S j)) secs = false). { destruct (existsb _ _) eqn:E'; auto. apply existsb_exists in E' as (k & Hk & E'). apply Nat.eqb_eq in E'. subst. contradiction. }
        rewrite EX. unfold step. rewrite list_set_nth. rewrite (proj2 (Nat.eqb_eq (i - 1) j)) by lia. rewrite LA, (proj2 (Nat.ltb_lt j (length h))) by lia. cbn [andb].
        rewrite E, Ef. cbn [fst snd]. destruct a as [fl|]; auto. rewrite HA by now left. replace (i - 1)%nat with j by lia.
        rewrite (nth_indep _ [] [false]) by (now rewrite map_length). rewrite (map_nth (fun b => [b])). apply concat_repeat1.
      + cbn [orb]. destruct (existsb (Nat.eqb (S j)) secs) eqn:EX; auto. unfold step. rewrite list_set_nth. destruct (Nat.eqb_spec (i - 1) j) as [E|]; auto. lia. }
  destruct (X secs (map (fun b => [b]) h) ND P) as [L N]; auto; [now rewrite map_length|]. fold step. f_equal.
  rewrite (list_seq (fold_left step _ _) []). rewrite L. apply map_seq_ext. intros j Hj. rewrite N by auto. unfold seg_new.
  destruct (existsb _ _); auto. rewrite (nth_indep _ [] [false]) by (now rewrite map_length). apply (map_nth (fun b => [b])).
Qed.
Lemma flags_app K p : forall a b q f g, flags_sound K (a :: p ++ [b]) f -> flags_sound K (b :: q) g -> flags_sound K (a :: p ++ b :: q) (f ++ g).
Proof.
  induction p as [|c p IH]; intros a b q f g H1 H2.
  - destruct f as [|x f]; [easy|]. cbn in H1. destruct H1 as [H1 ->]. cbn [app]. split; auto.
  - destruct f as [|x f]; [easy|]. destruct H1 as [H1 H3]. cbn [app]. split; [exact H1|]. exact (IH c b q f g H3 H2).
Qed.
(** flags of a woven path from flags of its segments; segment j runs from arr_j to arr_(j+1) *)
Lemma weave_flags K b g (arr : list R) : forall p a, (forall j, (j < length arr)%nat -> flags_sound K (nth j (a :: arr) 0 :: b (p + j)%nat ++ [nth j arr 0]) (g (p + j)%nat)) ->
  b (p + length arr)%nat = [] -> flags_sound K (a :: weave p arr b) (concat (map (fun j => g (p + j)%nat) (seq 0 (length arr)))).
Proof.
  induction arr as [|c arr IH]; intros p a H E.
  - cbn [weave length seq map concat]. rewrite Nat.add_0_r in E. rewrite E. reflexivity.
  - cbn [weave length seq map concat]. apply flags_app.
    + specialize (H 0%nat ltac:(simpl; lia)). rewrite !Nat.add_0_r in *. exact H.
    + rewrite <- seq_shift, map_map. rewrite (map_ext _ (fun j => g (S p + j)%nat)) by (intros; f_equal; lia). apply IH.
      * intros j Hj. specialize (H (S j) ltac:(simpl; lia)). replace (p + S j)%nat with (S p + j)%nat in H by lia. exact H.
      * rewrite <- E. f_equal. cbn [length]. lia.
Qed.
