(** Lemmas: fill_wiener_inner and fill_wiener_outer. *)
From Coq Require Import Reals List Bool Arith Lia Lra Psatz Sorted.
From Verif Require Import Base Np Rng L_list L_rng L_bridge L_ars L_prop M_mjp M_hit M_path SpecPath L_sde L_sde2 M_skel SpecSkel L_skel.
Import ListNotations.
Local Open Scope R_scope.

Lemma forall2_fun {B} (P : nat -> B -> Prop) (d : B) l m : NoDup l -> Forall2 P l m -> exists f, m = map f l /\ forall i, In i l -> P i (f i).
Proof.
  intros ND H. induction H as [|i b l m Hb H IH]; [exists (fun _ => d); split; auto; easy|]. inversion ND; subst.
  destruct IH as (f & E & Hf); auto. exists (fun k => if Nat.eqb k i then b else f k). split.
  - cbn [map]. rewrite Nat.eqb_refl, E. f_equal. apply map_ext_in. intros k Hk. destruct (Nat.eqb_spec k i) as [->|]; auto. contradiction.
  - intros k [<-|Hk]; [now rewrite Nat.eqb_refl|]. destruct (Nat.eqb_spec k i) as [->|]; auto.
Qed.
Lemma bucket_map (g : R -> nat) l j : bucket (map g l) l j = filter (fun s => Nat.eqb (g s) j) l.
Proof. unfold bucket. induction l as [|a l IH]; auto. cbn [map combine filter fst]. destruct (Nat.eqb (g a) j); cbn [map snd]; now rewrite IH. Qed.
Lemma sorted_filter {A} (P : A -> A -> Prop) f l : StronglySorted P l -> StronglySorted P (filter f l).
Proof.
  induction 1 as [|a l HS IH HF]; simpl; [constructor|]. destruct (f a); auto. constructor; auto.
  rewrite Forall_forall in *. intros b Hb. apply filter_In in Hb as [Hb _]. auto.
Qed.
Lemma sorted_nondecr t l : StronglySorted Rlt l -> nondecr (map (searchsorted_left t) l).
Proof.
  induction 1 as [|a l HS IH HF]; simpl; auto. split; auto. intros b Hb. apply in_map_iff in Hb as (s & <- & Hs). apply ss_mono.
  rewrite Forall_forall in HF. specialize (HF s Hs). lra.
Qed.
Lemma flags_of_nth K p : forall f, length p = S (length f) -> (forall i, nth_error f i = Some false -> nth i p 0 < K /\ nth (S i) p 0 < K) -> flags_sound K p f.
Proof.
  induction p as [|a p IH]; intros f L H; [discriminate|]. destruct p as [|b p]; [destruct f; [reflexivity|simpl in L; lia]|].
  destruct f as [|x f]; [discriminate|]. split; [intros ->; apply (H 0%nat eq_refl)|]. apply IH; [simpl in *; lia|]. intros i Hi. apply (H (S i) Hi).
Qed.
Lemma nth_repeat_error {A} (a : A) n i b : nth_error (repeat a n) i = Some b -> b = a.
Proof. intros H. apply nth_error_In in H. now apply repeat_spec in H. Qed.
Lemma sorted_ends (l : list R) i j : StronglySorted Rlt l -> (i <= j < length l)%nat -> nth i l 0 <= nth j l 0.
Proof. intros HS H. destruct (Nat.eq_dec i j) as [->|]; [lra|]. apply Rlt_le, sorted_nth_lt; auto; lia. Qed.

Lemma weave_hd {A} (arr : list A) b d : arr <> [] -> b 0%nat = [] -> nth 0 (weave 0 arr b) d = nth 0 arr d.
Proof. intros H E. destruct arr as [|a r]; [easy|]. cbn [weave]. now rewrite E. Qed.

(** ** flags of the finer path *)
Lemma weave_refine b g (h : nat -> bool) (arr : list R) : forall p a,
  StronglySorted Rlt (a :: weave p arr b) -> b (p + length arr)%nat = [] ->
  (forall j, (j < length arr)%nat -> length (g (p + j)%nat) = S (length (b (p + j)%nat))) ->
  (forall j, (j < length arr)%nat -> In true (g (p + j)%nat) <-> h (p + j)%nat = true) ->
  flags_refine (a :: arr) (map (fun j => h (p + j)%nat) (seq 0 (length arr))) (a :: weave p arr b) (concat (map (fun j => g (p + j)%nat) (seq 0 (length arr)))).
Proof.
  induction arr as [|c arr IH]; intros p a HS HB HL HT.
  - split; intros j H; destruct j; discriminate.
  - cbn [weave] in *. cbn [length seq map concat]. rewrite <- seq_shift, !map_map.
    rewrite (map_ext (fun x => h (p + S x)%nat) (fun j => h (S p + j)%nat)) by (intros; f_equal; lia).
    rewrite (map_ext (fun x => g (p + S x)%nat) (fun j => g (S p + j)%nat)) by (intros; f_equal; lia).
    rewrite Nat.add_0_r. assert (HL0 := HL 0%nat ltac:(simpl; lia)). assert (HT0 := HT 0%nat ltac:(simpl; lia)). rewrite Nat.add_0_r in HL0, HT0.
    set (W := weave (S p) arr b) in *.
    assert (HSc : StronglySorted Rlt (c :: W)).
    { inversion HS; subst. apply StronglySorted_app in H1. tauto. }
    destruct (IH (S p) c) as [I1 I2]; auto.
    { rewrite <- HB. f_equal. cbn [length]. lia. }
    { intros j Hj. specialize (HL (S j) ltac:(simpl; lia)). replace (p + S j)%nat with (S p + j)%nat in HL by lia. exact HL. }
    { intros j Hj. specialize (HT (S j) ltac:(simpl; lia)). replace (p + S j)%nat with (S p + j)%nat in HT by lia. exact HT. }
    fold W in I1, I2.
    assert (NX : forall i, nth (length (g p) + i) (a :: b p ++ c :: W) 0 = nth i (c :: W) 0).
    { intros i. change (a :: b p ++ c :: W) with ((a :: b p) ++ c :: W). rewrite HL0. rewrite app_nth2 by (cbn [length]; lia). f_equal. cbn [length]. lia. }
    assert (SL : length (a :: b p ++ c :: W) = (S (length (g p)) + length W)%nat) by (cbn [length]; rewrite app_length, HL0; cbn [length]; lia).
    assert (LO : forall i, (i < length (g p))%nat -> a <= nth i (a :: b p ++ c :: W) 0 /\ nth (S i) (a :: b p ++ c :: W) 0 <= c).
    { intros i Hi. split; [apply (sorted_ends _ 0 i HS); lia|]. apply Rle_trans with (nth (length (g p) + 0) (a :: b p ++ c :: W) 0); [apply sorted_ends; auto; lia|]. rewrite NX. apply Rle_refl. }
    split.
    + intros [|j] Hj.
      * injection Hj as Hj. apply HT0 in Hj. apply In_nth_error in Hj as [i Hi]. exists i.
        assert (i < length (g p))%nat by (apply nth_error_Some; rewrite Hi; discriminate). rewrite nth_error_app1 by auto. split; [exact Hi|]. apply LO; auto.
      * cbn [nth_error] in Hj. destruct (I1 j Hj) as (i & Hi & B1 & B2). exists (length (g p) + i)%nat.
        rewrite nth_error_app2 by lia. replace (length (g p) + i - length (g p))%nat with i by lia. split; auto.
        rewrite NX. replace (S (length (g p) + i)) with (length (g p) + S i)%nat by lia. rewrite NX. split; auto.
    + intros i Hi. destruct (Nat.lt_ge_cases i (length (g p))) as [Li|Gi].
      * rewrite nth_error_app1 in Hi by auto. exists 0%nat. split; [cbn [nth_error]; f_equal; apply HT0; eapply nth_error_In; eauto|]. apply LO; auto.
      * rewrite nth_error_app2 in Hi by auto. destruct (I2 _ Hi) as (j & Hj & B1 & B2). exists (S j). split; auto.
        replace i with (length (g p) + (i - length (g p)))%nat by lia. rewrite NX. replace (S (length (g p) + (i - length (g p)))) with (length (g p) + S (i - length (g p)))%nat by lia. rewrite NX. auto.
Qed.

Section Inner.
Variables (t x new : list R) (min_x : R) (ue hit : option R) (hit_i : option (list bool)) (f : nat -> list R * option (list bool)).
Let it := map (searchsorted_left t) new.
Let secs := np_unique_pos (length t) it.
Let times i := map (fun p => snd p - nth (i - 1) t 0) (filter (fun p => Nat.eqb (fst p) i) (combine it new)).
Let bt j := filter (fun s => Nat.eqb (searchsorted_left t s) j) new.
Let bx j := if existsb (Nat.eqb j) secs then fst (f j) else [].
Hypothesis PP : path_points t x.
Hypothesis SN : StronglySorted Rlt new.
Hypothesis IN : forall s, In s new -> nth 0 t 0 < s < last t 0 /\ ~ In s t.

Lemma in_secs i : In i secs <-> exists s, In s new /\ searchsorted_left t s = i.
Proof.
  unfold secs. rewrite unique_pos_in.
  - unfold it. rewrite in_map_iff. firstorder.
  - intros k Hk. apply in_map_iff in Hk as (s & <- & _). apply ss_le.
Qed.
Lemma last_nth_t : last t 0 = nth (length t - 1) t 0.
Proof.
  destruct PP as (_ & _ & L & _). destruct (@exists_last _ t) as (r & z & ->); [intros ->; simpl in L; lia|].
  rewrite last_last, app_length. cbn [length]. rewrite app_nth2 by lia. replace (length r + 1 - 1 - length r)%nat with 0%nat by lia. reflexivity.
Qed.
Lemma secs_range i : In i secs -> (1 <= i < length t)%nat.
Proof.
  destruct PP as (_ & ST & L & _). intros H. apply in_secs in H as (s & Hs & <-). destruct (IN s Hs) as [[B1 B2] _]. rewrite last_nth_t in B2. split.
  - apply (ss_spec t s ST 0%nat) in B1; lia.
  - assert (G := ss_le t s). destruct (Nat.eq_dec (searchsorted_left t s) (length t)) as [E|]; [|lia].
    assert (nth (length t - 1) t 0 < s) by (apply (ss_spec t s ST); lia). lra.
Qed.
Hypothesis FS : forall i, In i secs -> exists lv, sector_levels (length t) ue hit hit_i (i - 1) = Some lv /\ layered (times i) (nth (i - 1) x 0) (nth i x 0) min_x (fst lv) (snd lv) (f i).
Lemma bt_len j : length (bt j) = length (bx j).
Proof.
  unfold bx. destruct (existsb (Nat.eqb j) secs) eqn:E.
  - apply existsb_exists in E as (k & Hk & E). apply Nat.eqb_eq in E. subst k. destruct (FS j Hk) as (lv & _ & L & _). rewrite L. unfold times. rewrite map_length.
    unfold bt. rewrite <- bucket_map. unfold bucket. now rewrite map_length.
  - unfold bt. rewrite filter_none; auto. intros s Hs. apply Nat.eqb_neq. intros EQ.
    assert (existsb (Nat.eqb j) secs = true); [|congruence]. apply existsb_exists. exists j. rewrite Nat.eqb_refl. split; auto. apply in_secs. eauto.
Qed.
Lemma bt_out j : ~ In j secs -> bt j = [].
Proof. intros H. unfold bt. apply filter_none. intros s Hs. apply Nat.eqb_neq. intros EQ. apply H, in_secs. eauto. Qed.
Lemma bx_out j : ~ In j secs -> bx j = [].
Proof. intros H. unfold bx. destruct (existsb _ _) eqn:E; auto. apply existsb_exists in E as (k & Hk & E). apply Nat.eqb_eq in E. now subst. Qed.
Lemma bx_in j : In j secs -> bx j = fst (f j).
Proof. intros H. unfold bx. rewrite (proj2 (existsb_exists _ _)); auto. exists j. now rewrite Nat.eqb_refl. Qed.

Lemma wt_weave : np_insert t it new = weave 0 t bt.
Proof. unfold np_insert. rewrite insert_weave. apply weave_ext. intros j _. unfold bt. now rewrite <- bucket_map. Qed.
Lemma wx_weave : np_insert x it (concat (map fst (map f secs))) = weave 0 x bx.
Proof.
  unfold np_insert. rewrite insert_weave. apply weave_ext. intros j _. rewrite map_map.
  assert (G : it = concat (map (fun i => repeat i (length (filter (Nat.eqb i) it))) secs)).
  { unfold secs, np_unique_pos. apply nondecr_group; [apply sorted_nondecr, SN|]. intros i Hi. apply in_map_iff in Hi as (s & <- & _). assert (Z := ss_le t s). lia. }
  etransitivity; [|exact (group_values (fun i => fst (f i)) (fun i => length (filter (Nat.eqb i) it)) secs j
     ltac:(intros i Hi; destruct (FS i Hi) as (lv & _ & L & _); rewrite L; unfold times; rewrite map_length;
           rewrite <- (bucket_fst it new i) by (unfold it; now rewrite map_length); unfold bucket; now rewrite map_length) (unique_pos_nodup _ _))].
  cbv beta. rewrite <- G. reflexivity.
Qed.
Definition wt := weave 0 t bt.
Definition wx := weave 0 x bx.
Lemma wt_in s : In s wt <-> In s t \/ In s new.
Proof.
  unfold wt. rewrite weave_in. apply or_iff_compat_l. unfold bt. split.
  - intros (j & _ & H). now apply filter_In in H.
  - intros H. exists (searchsorted_left t s). split; [assert (Z := ss_le t s); lia|]. apply filter_In. rewrite Nat.eqb_refl. auto.
Qed.
Lemma wt_sorted : StronglySorted Rlt wt.
Proof.
  destruct PP as (_ & ST & L & _). unfold wt. apply weave_sorted; auto.
  - intros j. apply sorted_filter, SN.
  - intros j s i Hs Hi Hl. apply filter_In in Hs as [Hs E]. apply Nat.eqb_eq in E. apply (ss_spec t s ST i Hl). simpl in E. lia.
  - intros j s i Hs Hi Hl. apply filter_In in Hs as [Hs E]. apply Nat.eqb_eq in E. simpl in E. destruct (IN s Hs) as [_ NI].
    assert (~ nth i t 0 < s) by (intros Z; apply (ss_spec t s ST i Hl) in Z; lia).
    assert (nth i t 0 <> s) by (intros <-; apply NI, nth_In; auto). lra.
Qed.
Lemma combine' : combine wt wx = weave 0 (combine t x) (fun j => combine (bt j) (bx j)).
Proof. destruct PP as (L & _). apply weave_combine; auto. apply bt_len. Qed.
Lemma stores' s v : stores t x s v -> stores wt wx s v.
Proof. unfold stores. intros H. rewrite combine'. apply weave_in. now left. Qed.
Lemma values' v : In v wx -> In v x \/ exists i, In i secs /\ In v (fst (f i)).
Proof.
  unfold wx. intros H. apply weave_in in H as [H|(j & _ & H)]; auto. right. exists j. unfold bx in H. destruct (existsb _ _) eqn:E; [|easy].
  apply existsb_exists in E as (k & Hk & E). apply Nat.eqb_eq in E. now subst.
Qed.
Lemma start' : nth 0 wt 0 = nth 0 t 0.
Proof.
  destruct PP as (_ & _ & L & _). apply weave_hd; [intros E; rewrite E in L; simpl in L; lia|]. apply bt_out. intros H. apply secs_range in H. lia.
Qed.
Lemma points' : path_points wt wx.
Proof.
  destruct PP as (LX & ST & L & P0). split; [symmetry; apply weave_length; auto; apply bt_len|]. split; [apply wt_sorted|]. split; [|rewrite start'; exact P0].
  assert (Z := weave_length_ge t bt 0). fold wt in Z. lia.
Qed.
Lemma inner_flags h K : hit_i = Some h -> hit = Some K -> flags_ok K t x h ->
  flags_ok K wt wx (stack_flags h secs (map f secs)) /\ flags_refine t h wt (stack_flags h secs (map f secs)).
Proof.
  intros Eh EK [LH FH]. assert (SR := secs_range).
  assert (PP' := points'). assert (TS := wt_sorted).
  rewrite stack_flags_eq by (try apply unique_pos_nodup; intros i Hi; apply SR in Hi; lia).
  destruct PP as (LX & ST & L & P0).
  assert (ET : exists a tr x0 xr, t = a :: tr /\ x = x0 :: xr /\ length xr = length tr /\ length h = length tr).
  { clear - LX LH L. destruct t as [|a tr]; [simpl in L; lia|]. destruct x as [|x0 xr]; [discriminate|]. exists a, tr, x0, xr. simpl in LX, LH. repeat split; auto. }
  destruct ET as (a & tr & x0 & xr & ET & EX & LR & LHR).
  assert (N0 : ~ In 0%nat secs) by (intros H; apply SR in H; lia).
  assert (NL : ~ In (1 + length tr)%nat secs) by (intros H; apply SR in H; rewrite ET in H; simpl in H; lia).
  assert (T' : wt = a :: weave 1 tr bt). { unfold wt. rewrite ET. cbn [weave]. rewrite bt_out; auto. }
  assert (X' : wx = x0 :: weave 1 xr bx). { unfold wx. rewrite EX. cbn [weave]. rewrite bx_out; auto. }
  set (g := fun k => seg_new f secs (nth (k - 1) h false) (k - 1)).
  assert (EG : map (fun j => seg_new f secs (nth j h false) j) (seq 0 (length h)) = map (fun j => g (1 + j)%nat) (seq 0 (length tr))).
  { rewrite LHR. apply map_seq_ext. intros j Hj. unfold g. replace (1 + j - 1)%nat with j by lia. reflexivity. }
  rewrite EG.
  (* one segment *)
  assert (SEG : forall j, (j < length tr)%nat -> flags_sound K (nth j x 0 :: bx (1 + j)%nat ++ [nth j xr 0]) (g (1 + j)%nat) /\ (In true (g (1 + j)%nat) <-> nth j h false = true)).
  { intros j Hj. unfold g, seg_new. replace (1 + j - 1)%nat with j by lia. change (S j) with (1 + j)%nat.
    assert (NE : nth_error h j = Some (nth j h false)) by (apply nth_error_nth'; lia).
    assert (NX : nth j xr 0 = nth (S j) x 0) by (rewrite EX; reflexivity).
    destruct (existsb (Nat.eqb (1 + j)) secs) eqn:E.
    - assert (HS : In (1 + j)%nat secs). { apply existsb_exists in E as (k & Hk & E). apply Nat.eqb_eq in E. now subst. }
      destruct (FS _ HS) as (lv & LV & HL). rewrite bx_in by auto. replace (1 + j - 1)%nat with j in * by lia.
      unfold sector_levels in LV. rewrite Eh, NE in LV. rewrite NX. change (1 + j)%nat with (S j) in *. destruct (nth j h false).
      + injection LV as <-. cbn [fst snd] in HL. rewrite EK in HL. destruct HL as (L1 & L2 & fl & E2 & L3 & L4 & L5). rewrite E2. split.
        * apply flags_of_nth; auto. cbn [length]. rewrite app_length. cbn [length]. lia.
        * split; auto.
      + injection LV as <-. cbn [fst snd] in HL. rewrite EK in HL. destruct HL as (L1 & L2 & E2). rewrite E2. split.
        * apply flags_of_nth; [cbn [length]; rewrite app_length, repeat_length; cbn [length]; lia|]. intros i Hi.
          assert (Li : (i < length (fst (f (S j))) + 1)%nat) by (rewrite <- (repeat_length false); apply nth_error_Some; rewrite Hi; discriminate).
          assert (AL : Forall (fun v => v < K) (nth j x 0 :: fst (f (S j)) ++ [nth (S j) x 0])).
          { destruct (FH j NE) as [F1 F2]. constructor; auto. apply Forall_app. split; [|constructor; auto]. rewrite Forall_forall in *. intros v Hv. now destruct (L2 v Hv). }
          rewrite Forall_forall in AL. split; apply AL, nth_In; cbn [length]; rewrite app_length; cbn [length]; lia.
        * split; [|discriminate]. intros H. apply repeat_spec in H. discriminate.
    - rewrite bx_out; [|intros H; assert (existsb (Nat.eqb (1 + j)) secs = true); [apply existsb_exists; exists (1 + j)%nat; now rewrite Nat.eqb_refl|congruence]].
      cbn [app]. split; [|split; [intros [H|[]]; auto|intros ->; now left]]. cbn. split; auto. intros H. rewrite H in NE. destruct (FH j NE). rewrite NX. auto. }
  split.
  - assert (FSND : flags_sound K wx (concat (map (fun j => g (1 + j)%nat) (seq 0 (length tr))))).
    { rewrite X', <- LR. apply weave_flags.
      - intros j Hj. rewrite LR in Hj. destruct (SEG j Hj) as [Z _]. rewrite EX in Z. exact Z.
      - rewrite LR. apply bx_out; auto. }
    destruct PP' as (LP & _). split; [rewrite <- LP; symmetry; eapply flags_len; eauto|]. intros i Hi. eapply flags_nth; eauto.
  - assert (EH : h = map (fun j => nth (1 + j - 1) h false) (seq 0 (length tr))).
    { rewrite (list_seq h false) at 1. rewrite LHR. apply map_seq_ext. intros j Hj. f_equal. lia. }
    rewrite T', ET. rewrite EH at 1. apply (weave_refine bt g (fun k => nth (k - 1) h false) tr 1 a).
    + rewrite <- T'. exact TS.
    + apply bt_out; auto.
    + intros j Hj. destruct (SEG j Hj) as [Z _]. apply flags_len in Z. rewrite bt_len. cbn [length] in Z. rewrite app_length in Z. cbn [length] in Z. lia.
    + intros j Hj. replace (1 + j - 1)%nat with j by lia. apply SEG; auto.
Qed.
End Inner.

Lemma arr_min_spec l m : arr_min l = Ok m -> In m l /\ forall v, In v l -> m <= v.
Proof.
  destruct l as [|a r]; [discriminate|]. intros H. injection H as <-. split; [destruct (np_min_from_mem a r) as [->|H]; [now left|now right]|].
  intros v [<-|Hv]; [apply np_min_from_le|now apply np_min_from_in].
Qed.
Lemma arr_max_spec l m : arr_max l = Ok m -> In m l /\ forall v, In v l -> v <= m.
Proof.
  destruct l as [|a r]; [discriminate|]. intros H. injection H as <-. split; [destruct (np_max_from_mem a r) as [->|H]; [now left|now right]|].
  intros v [<-|Hv]; [apply np_max_from_ge|now apply np_max_from_in].
Qed.
Lemma sorted_min t m : StronglySorted Rlt t -> arr_min t = Ok m -> m = nth 0 t 0.
Proof.
  intros HS H. apply arr_min_spec in H as [H1 H2]. destruct t as [|a t]; [easy|]. cbn [nth]. specialize (H2 a (or_introl eq_refl)). destruct H1 as [->|H1]; auto.
  inversion HS; subst. rewrite Forall_forall in H4. specialize (H4 m H1). lra.
Qed.
Lemma sorted_max t m : StronglySorted Rlt t -> arr_max t = Ok m -> m = last t 0.
Proof.
  intros HS H. apply arr_max_spec in H as [H1 H2]. destruct (@exists_last _ t) as (r & z & ->); [intros ->; easy|]. rewrite last_last.
  apply StronglySorted_app in HS as (_ & _ & C). apply in_app_iff in H1 as [H1|[->|[]]]; auto. specialize (C m z H1 (or_introl eq_refl)).
  assert (z <= m) by (apply H2, in_app_iff; right; now left). lra.
Qed.
Lemma check_bounds_returns x min_x ue hit : returns_if anyo (check_bounds x min_x ue hit) (fun _ =>
  (forall v, In v x -> min_x <= v /\ below ue v) /\ forall u h, ue = Some u -> hit = Some h -> min_x < h < u).
Proof.
  unfold check_bounds. eapply returns_bind; [apply (returns_lift anyo _ (fun m => arr_min x = Ok m)); auto|]. intros m Em. apply arr_min_spec in Em as [_ Em].
  eapply returns_bind; [apply (returns_assert anyo _ (fun _ => min_x <= m)); intros; now apply Rleb_true|]. intros ? L.
  destruct ue as [u|]; [|apply returns_ret; split; [|discriminate]; intros v Hv; split; [specialize (Em v Hv); lra|exact I]].
  eapply returns_bind; [apply (returns_lift anyo _ (fun m => arr_max x = Ok m)); auto|]. intros m' Em'. apply arr_max_spec in Em' as [_ Em'].
  eapply returns_bind; [apply (returns_assert anyo _ (fun _ => m' < u)); intros; now apply Rltb_true|]. intros ? L'.
  assert (B : forall v, In v x -> min_x <= v /\ below (Some u) v) by (intros v Hv; split; [specialize (Em v Hv)|specialize (Em' v Hv); simpl]; lra).
  destruct hit as [h|]; [|apply returns_ret; split; auto; discriminate].
  apply returns_assert. intros E. apply andb_true_iff in E as [E1 E2]. apply Rltb_true in E1, E2. split; auto. intros ? ? [=] [=]; subst. lra.
Qed.
Lemma sector_returns fuel mp n t x new it min_x ue hit hit_i i : length x = length t -> (i < length t)%nat ->
  returns_if anyo (fill_sector fuel mp n t x new it min_x ue hit hit_i i) (fun r => exists lv, sector_levels (length t) ue hit hit_i (i - 1) = Some lv /\
    layered (map (fun p => snd p - nth (i - 1) t 0) (filter (fun p => Nat.eqb (fst p) i) (combine it new))) (nth (i - 1) x 0) (nth i x 0) min_x (fst lv) (snd lv) r).
Proof.
  intros L Li. unfold fill_sector.
  eapply returns_bind; [apply (returns_lift_opt anyo _ _ (fun lv => sector_levels (length t) ue hit hit_i (i - 1) = Some lv)); auto|]. intros lv LV.
  rewrite !(nth_error_nth' x 0) by lia.
  eapply returns_bind; [apply (returns_lift_opt anyo _ _ (fun v => v = nth (i - 1) x 0)); congruence|]. intros ? ->.
  eapply returns_bind; [apply (returns_lift_opt anyo _ _ (fun v => v = nth i x 0)); congruence|]. intros ? ->.
  eapply returns_weaken; [apply returns_any, sample_layerbr_returns|]. intros r Hr. exists lv. split; [exact LV|exact Hr].
Qed.

