(** The density of the observed increments in the likelihood of switching/static.py. *)
From Coq Require Import Reals List Bool Arith ZArith Lia Lra Sorted.
From Verif Require Import Base Np M_mjp M_models M_sw Mat SpecMjp SpecSw L_occ L_mat L_adapt2 L_sw L_sw5 L_sw11 L_sw13.
Import ListNotations.
Local Open Scope R_scope.

(** ** positions of the marked entries *)
Definition wfrom (i : nat) (b : list bool) : list nat := map fst (filter snd (combine (seq i (length b)) b)).
Lemma wfrom_cons i x b : wfrom i (x :: b) = if x then i :: wfrom (S i) b else wfrom (S i) b.
Proof. unfold wfrom. cbn [length seq combine filter snd]. destruct x; reflexivity. Qed.
Lemma wfrom_in b : forall i j, In j (wfrom i b) <-> (i <= j)%nat /\ nth_error b (j - i) = Some true.
Proof.
  induction b as [|x b IH]; intros i j; [cbn; split; [tauto|intros [_ H]; destruct (j - i)%nat; discriminate]|].
  rewrite wfrom_cons. assert (E : In j (wfrom (S i) b) <-> (S i <= j)%nat /\ nth_error (x :: b) (j - i) = Some true).
  { rewrite IH. split; intros [H1 H2]; (split; [auto|]); [replace (j - i)%nat with (S (j - S i)) by lia; auto|replace (j - i)%nat with (S (j - S i)) in H2 by lia; auto]. }
  destruct x; [cbn [In]|]; rewrite E; split.
  - intros [<-|[H1 H2]]; [rewrite Nat.sub_diag; auto|split; auto; lia].
  - intros [H1 H2]. destruct (Nat.eq_dec i j); auto. right. split; auto; lia.
  - intros [H1 H2]; split; auto; lia.
  - intros [H1 H2]. destruct (Nat.eq_dec i j) as [->|]; [rewrite Nat.sub_diag in H2; discriminate|]. split; auto; lia.
Qed.
Lemma wfrom_sorted b : forall i, StronglySorted lt (wfrom i b).
Proof.
  induction b as [|x b IH]; intros i; [constructor|]. rewrite wfrom_cons. destruct x; auto. constructor; auto. apply Forall_forall. intros j Hj. apply wfrom_in in Hj. lia.
Qed.
Lemma select_nth {A} (d : A) b : forall l i, (length b <= length l)%nat -> select l b = map (fun j => nth (j - i) l d) (wfrom i b).
Proof.
  induction b as [|x b IH]; intros l i HL; [destruct l; reflexivity|]. destruct l as [|a l]; [simpl in HL; lia|]. rewrite wfrom_cons.
  assert (E : select l b = map (fun j => nth (j - i) (a :: l) d) (wfrom (S i) b)).
  { rewrite (IH l (S i)) by (simpl in HL; lia). apply map_ext_in. intros j Hj. apply wfrom_in in Hj. replace (j - i)%nat with (S (j - S i)) by lia. reflexivity. }
  unfold select in *. cbn [combine filter snd]. destruct x; cbn [map fst]; rewrite E; auto. rewrite Nat.sub_diag. reflexivity.
Qed.

(** ** np.split at increasing positions *)
Fixpoint pieces {A} (l : list A) (i : nat) (idx : list nat) : list (list A) :=
  match idx with [] => [] | j :: r => firstn (j - i) (skipn i l) :: pieces l j r end.
Lemma skip_skip {A} (l : list A) : forall i j, (i <= j)%nat -> skipn (j - i) (skipn i l) = skipn j l.
Proof.
  induction l as [|a l IH]; intros i j H; [rewrite !skipn_nil; auto|]. destruct i; [rewrite Nat.sub_0_r; reflexivity|]. destruct j; [lia|]. cbn [skipn]. replace (S j - S i)%nat with (j - i)%nat by lia. apply IH; lia.
Qed.
Lemma split_pieces {A} (l : list A) idx : forall i, StronglySorted lt idx -> Forall (fun j => (i <= j)%nat) idx ->
  np_split_from i (skipn i l) idx = pieces l i idx ++ [skipn (last idx i) l].
Proof.
  induction idx as [|j r IH]; intros i HS HF; [reflexivity|]. inversion HS as [|? ? S1 S2]; subst. inversion HF as [|? ? F1 F2]; subst.
  cbn [np_split_from pieces app]. f_equal. rewrite skip_skip by auto. rewrite IH; auto.
  - f_equal. f_equal. f_equal. destruct r as [|k r']; [reflexivity|]. change (last (j :: k :: r') i) with (last (k :: r') i). clear. revert k; induction r' as [|m r' IH]; intros k; [reflexivity|]. apply (IH m).
  - eapply Forall_impl; [|exact S2]. simpl; intros; lia.
Qed.
Lemma sum_firstn (l : list R) : forall n, M_models.rsum (firstn n l) = Mat.rsum (length l) (fun m => if (m <? n)%nat then nth m l 0 else 0).
Proof.
  induction l as [|a l IH]; intros n; [destruct n; reflexivity|]. destruct n as [|n].
  - cbn [firstn]. symmetry. rewrite rsum_0; [reflexivity|]. intros; reflexivity.
  - cbn [firstn length]. rewrite rsum_shift. unfold M_models.rsum in *. cbn [fold_right]. rewrite IH. reflexivity.
Qed.
Lemma sum_piece (l : list R) : forall i j, M_models.rsum (firstn (j - i) (skipn i l)) = Mat.rsum (length l) (fun m => if (i <=? m)%nat then if (m <? j)%nat then nth m l 0 else 0 else 0).
Proof.
  induction l as [|a l IH]; intros i j; [rewrite skipn_nil, firstn_nil; reflexivity|]. destruct i as [|i].
  - rewrite Nat.sub_0_r. cbn [skipn]. rewrite sum_firstn. apply rsum_ext. intros; reflexivity.
  - destruct j as [|j]; [cbn [Nat.sub firstn]; symmetry; rewrite rsum_0; [reflexivity|]; intros m _; destruct (S i <=? m)%nat; auto|].
    replace (S j - S i)%nat with (j - i)%nat by lia. cbn [skipn length]. rewrite rsum_shift, IH. change (if (S i <=? 0)%nat then _ else 0) with 0. rewrite Rplus_0_l. apply rsum_ext. intros m _. reflexivity.
Qed.
Lemma obs_sum dv (V sig : list R) r : forall i,
  M_models.rsum (map (fun p => let '(v, s, dx) := p in gauss dv v s dx) (zip3 (map (fun j => nth j V 0) r) (map M_models.rsum (pieces sig i r)) (np_diff (nth i V 0 :: map (fun j => nth j V 0) r)))) =
  Mat.rsum (length r) (fun k => let a := nth k (i :: r) 0%nat in let b := nth (S k) (i :: r) 0%nat in gauss dv (nth b V 0) (M_models.rsum (firstn (b - a) (skipn a sig))) (nth b V 0 - nth a V 0)).
Proof.
  induction r as [|j r IH]; intros i; [reflexivity|]. cbn [length]. rewrite rsum_shift. cbv zeta in *. cbn [pieces map]. change (np_diff (nth i V 0 :: nth j V 0 :: map (fun j0 => nth j0 V 0) r)) with ((nth j V 0 - nth i V 0) :: np_diff (nth j V 0 :: map (fun j0 => nth j0 V 0) r)). unfold zip3 in *. cbn [combine map]. unfold M_models.rsum in *. cbn [fold_right].
  rewrite IH. f_equal.
Qed.

(** ** the marked anchors are the observations *)
Section Obs.
Context (dim : nat) (t vt : list R) (y : jump_path) (h : anchorage) (n : nat).
Hypothesis HG : obs_grid t vt (last t 0).
Hypothesis HO : hidden_ok dim t vt y h n.
Hypothesis HF : off_grid t y.
Let T := a_t h.
Let b := is_obs (a_y h).
Lemma eqp_length (l m : list nat) : length (eq_pairs l m) = Nat.min (length l) (length m).
Proof. unfold eq_pairs. rewrite map_length, combine_length. reflexivity. Qed.
Lemma b_length : length b = S n.
Proof.
  pose proof (ho_len_y _ _ _ _ _ _ HO) as L1. pose proof (ho_seeds _ _ _ _ _ _ HO) as L3. unfold b, is_obs. cbn [length]. rewrite eqp_length, tl_length, removelast_len. lia.
Qed.
Lemma b_nth j : nth_error b (S j) = Some true <-> exists s, nth_error (a_y h) j = Some s /\ nth_error (a_y h) (S j) = Some s.
Proof.
  unfold b, is_obs, eq_pairs. change (nth_error (true :: ?l) (S j)) with (nth_error l j).
  generalize (a_y h) as Y. clear. induction j as [|j IH]; intros Y.
  - destruct Y as [|a [|c Y]]; cbn [tl removelast combine map nth_error]; split; try discriminate.
    + intros (s & H & H'). discriminate.
    + intros (s & H & H'). discriminate.
    + change (removelast (a :: c :: Y)) with (a :: removelast (c :: Y)). cbn [combine map nth_error fst snd]. intros H. injection H as H. apply Nat.eqb_eq in H. subst. eauto.
    + intros (s & H & H'). injection H as ->. injection H' as ->. change (removelast (s :: s :: Y)) with (s :: removelast (s :: Y)). cbn. rewrite Nat.eqb_refl. reflexivity.
  - destruct Y as [|a [|c Y]]; cbn [tl removelast combine map nth_error]; split; try discriminate.
    + intros (s & H & H'). discriminate.
    + intros (s & H & H'). destruct j; discriminate.
    + change (removelast (a :: c :: Y)) with (a :: removelast (c :: Y)). cbn [combine map nth_error fst snd]. intros H. apply (proj1 (IH (c :: Y))). exact H.
    + intros (s & H & H'). change (removelast (a :: c :: Y)) with (a :: removelast (c :: Y)). cbn [combine map nth_error fst snd]. apply (proj2 (IH (c :: Y))). eauto.
Qed.
Lemma marked j u : nth_error T j = Some u -> (nth_error b j = Some true <-> In u t).
Proof.
  intros Hu. destruct HO as [L1 L2 L3 SS HF0 HLt HD HTm HS HW HFi HDi HSt HP]. destruct j as [|j].
  - split; [|intros; reflexivity]. intros _. unfold T in Hu. rewrite <- hd_error_nth0 in Hu || (destruct (a_t h); [discriminate|]; cbn in HF0, Hu; rewrite Hu in HF0). injection HF0 as ->. destruct HG as [_ _ _ G _]. destruct t; [discriminate|]. injection G as ->. left; auto.
  - rewrite b_nth. split.
    + intros (s & E1 & E2). exact (HS j u s E1 E2 Hu).
    + intros Ht. assert (LT : (S j < S n)%nat) by (rewrite <- L3; apply nth_error_Some; unfold T in Hu; congruence).
      destruct (nth_error (a_y h) j) as [s|] eqn:E1; [|apply nth_error_None in E1; lia].
      destruct (nth_error (a_y h) (S j)) as [s'|] eqn:E2; [|apply nth_error_None in E2; lia].
      destruct (nth_error (a_t h) j) as [u0|] eqn:E0; [|apply nth_error_None in E0; lia].
      exists s. split; auto. f_equal. symmetry. apply (state_between y u0 u s s'); [apply HW|eapply HSt; eauto|eapply HSt; eauto|left; eapply (sorted_nth2 _ j (S j)); eauto|].
      intros x Hx [X1 X2]. assert (Hxh : In x (a_t h)) by (apply HTm; auto). apply In_nth_error in Hxh as [i Hi].
      assert (i = S j).
      { destruct (lt_eq_lt_dec i (S j)) as [[Hl|E]|Hl]; auto; exfalso.
        - destruct (Nat.eq_dec i j) as [->|]; [rewrite E0 in Hi; injection Hi as ->; lra|]. pose proof (sorted_nth2 _ i j _ _ SS ltac:(lia) Hi E0). lra.
        - pose proof (sorted_nth2 _ (S j) i _ _ SS Hl Hu Hi). lra. }
      subst i. unfold T in Hu. rewrite Hu in Hi. injection Hi as ->. pose proof (HF x Ht Hx). subst x.
      assert (nth_error (a_t h) 0 = Some 0) by (destruct (a_t h); [discriminate|exact HF0]). pose proof (sorted_nth2 _ 0 (S j) _ _ SS ltac:(lia) H Hu). lra.
Qed.
Let idx := wfrom 0 b.
Lemma nth_some {A} (l : list A) j d : (j < length l)%nat -> nth_error l j = Some (nth j l d).
Proof. intros H. apply nth_error_nth'. auto. Qed.
Lemma idx_bound j : In j idx -> (j <= n)%nat.
Proof. intros H. apply wfrom_in in H as [_ H]. rewrite Nat.sub_0_r in H. assert (j < length b)%nat by (apply nth_error_Some; congruence). rewrite b_length in *. lia. Qed.
Lemma sorted_map (f : nat -> R) l : StronglySorted lt l -> (forall i j, In i l -> In j l -> (i < j)%nat -> f i < f j) -> StronglySorted Rlt (map f l).
Proof.
  induction 1 as [|a l HS IH HFa]; intros H; cbn; constructor.
  - apply IH. intros; apply H; simpl; auto.
  - apply Forall_forall. intros x Hx. apply in_map_iff in Hx as (j & <- & Hj). apply H; simpl; auto. rewrite Forall_forall in HFa. auto.
Qed.
Lemma idx_times : map (fun j => nth j T 0) idx = t.
Proof.
  pose proof (ho_seeds _ _ _ _ _ _ HO) as L3. pose proof (ho_sorted _ _ _ _ _ _ HO) as SS.
  apply sorted_ext.
  - apply sorted_map; [apply wfrom_sorted|]. intros i j Hi Hj L. apply idx_bound in Hi. apply idx_bound in Hj. apply (sorted_nth2 T i j); auto; apply nth_some; unfold T; lia.
  - apply HG.
  - intros u. rewrite in_map_iff. split.
    + intros (j & <- & Hj). pose proof (idx_bound j Hj). apply wfrom_in in Hj as [_ Hj]. rewrite Nat.sub_0_r in Hj. apply (marked j); auto. apply nth_some. unfold T; lia.
    + intros Hu. assert (In u (a_t h)) by (apply (ho_times _ _ _ _ _ _ HO); auto). apply In_nth_error in H as [j Hj]. exists j. split; [apply nth_error_nth; exact Hj|]. apply wfrom_in. split; [lia|]. rewrite Nat.sub_0_r. apply (marked j u); auto.
Qed.
Lemma idx_values : map (fun j => nth j (a_v h) 0) idx = vt.
Proof.
  pose proof (ho_seeds _ _ _ _ _ _ HO) as L3. pose proof (ho_sorted _ _ _ _ _ _ HO) as SS.
  assert (LL : length vt = length idx). { rewrite (og_len _ _ _ HG), <- idx_times, map_length. reflexivity. }
  apply (nth_ext _ _ 0 0); [rewrite map_length; auto|]. intros k Hk. rewrite map_length in Hk. rewrite (nth_map_d _ _ _ 0%nat) by auto.
  assert (Et : nth_error t k = Some (nth (nth k idx 0%nat) T 0)). { rewrite <- idx_times at 1. rewrite nth_error_map, (nth_some idx k 0%nat) by auto. reflexivity. }
  destruct (ho_data _ _ _ _ _ _ HO k _ _ Et (nth_some vt k 0 ltac:(lia))) as (j & J1 & J2).
  assert (In (nth k idx 0%nat) idx) by (apply nth_In; auto). pose proof (idx_bound _ H) as B.
  assert (J3 : nth_error (a_t h) (nth k idx 0%nat) = Some (nth (nth k idx 0%nat) T 0)) by (apply nth_some; unfold T; lia).
  assert (j = nth k idx 0%nat).
  { destruct (lt_eq_lt_dec j (nth k idx 0%nat)) as [[L|E]|L]; auto; exfalso; [pose proof (sorted_nth2 _ _ _ _ _ SS L J1 J3)|pose proof (sorted_nth2 _ _ _ _ _ SS L J3 J1)]; lra. }
  subst j. apply nth_error_nth with (d := 0) in J2. exact J2.
Qed.
Lemma idx_head : exists r, idx = 0%nat :: r.
Proof. unfold idx, b, is_obs. rewrite wfrom_cons. eauto. Qed.
Lemma obs_value vol dv : p_vt_obs vol dv (a_t h) (a_y h) (a_v h) = Mat.rsum (length t - 1) (obs_term vol dv t vt h).
Proof.
  pose proof (ho_seeds _ _ _ _ _ _ HO) as L3. pose proof (ho_len_v _ _ _ _ _ _ HO) as L2. pose proof (ho_len_y _ _ _ _ _ _ HO) as L1. pose proof (ho_sorted _ _ _ _ _ _ HO) as SS.
  unfold p_vt_obs. cbv zeta. change (where_true (is_obs (a_y h))) with idx. rewrite (select_nth 0 (is_obs (a_y h)) (a_v h) 0) by (fold b; rewrite b_length; lia).
  rewrite (map_ext (fun j => nth (j - 0) (a_v h) 0) (fun j => nth j (a_v h) 0)) by (intros; rewrite Nat.sub_0_r; auto). fold b; fold idx.
  pose proof idx_times as ET. pose proof idx_values as EV. pose proof idx_bound as EB. assert (HS : StronglySorted lt idx) by apply wfrom_sorted. destruct idx_head as [r Er]. rewrite Er in *.
  set (sig := sig_of vol (a_t h) (a_y h)). unfold np_split. change sig with (skipn 0 sig) at 1. rewrite split_pieces; auto.
  2:{ apply Forall_forall; intros; lia. }
  cbn [pieces app]. rewrite inner_slice. cbn [map tl]. rewrite obs_sum.
  assert (LR : (length t - 1 = length r)%nat) by (rewrite <- ET, map_length; simpl; lia). rewrite LR. apply rsum_ext. intros k Hk. cbv zeta.
  assert (A1 : forall m, (m <= length r)%nat -> nth m t 0 = nth (nth m (0%nat :: r) 0%nat) T 0) by (intros m Hm; rewrite <- ET at 1; rewrite (nth_map_d _ _ _ 0%nat) by (simpl; lia); reflexivity).
  assert (A2 : forall m, (m <= length r)%nat -> nth m vt 0 = nth (nth m (0%nat :: r) 0%nat) (a_v h) 0) by (intros m Hm; rewrite <- EV at 1; rewrite (nth_map_d _ _ _ 0%nat) by (simpl; lia); reflexivity).
  unfold obs_term. cbv zeta. rewrite !A2 by lia. unfold gauss.
  set (i := nth k (0%nat :: r) 0%nat). set (j := nth (S k) (0%nat :: r) 0%nat).
  assert (Bi : (i <= n)%nat) by (apply EB, nth_In; simpl; lia). assert (Bj : (j <= n)%nat) by (apply EB, nth_In; simpl; lia).
  assert (E : M_models.rsum (firstn (j - i) (skipn i sig)) = quad_var vol h (nth k t 0) (nth (S k) t 0)); [|rewrite E; reflexivity].
  rewrite sum_piece. unfold sig. rewrite (sig_len vol h n) by lia. unfold quad_var. rewrite L3. replace (S n - 1)%nat with n by lia. apply rsum_ext. intros m Hm. cbv zeta. rewrite !A1 by lia. fold i j.
  assert (MN : forall a c, (a <= n)%nat -> (c <= n)%nat -> (nth a T 0 <= nth c T 0 <-> (a <= c)%nat)).
  { intros a c Ha Hc. destruct (lt_eq_lt_dec a c) as [[L|<-]|L]; [| split; intros; [lia|lra] |];
    [pose proof (sorted_nth2 _ _ _ _ _ SS L (nth_some T a 0 ltac:(unfold T; lia)) (nth_some T c 0 ltac:(unfold T; lia)))|pose proof (sorted_nth2 _ _ _ _ _ SS L (nth_some T c 0 ltac:(unfold T; lia)) (nth_some T a 0 ltac:(unfold T; lia)))]; split; intros; try lia; lra. }
  change (a_t h) with T. pose proof (MN i m ltac:(lia) ltac:(lia)). pose proof (MN j m ltac:(lia) ltac:(lia)).
  destruct (Nat.leb_spec i m); destruct (Rle_dec (nth i T 0) (nth m T 0)); try tauto; try (exfalso; assert (~ (i <= m)%nat) by lia; tauto).
  destruct (Nat.ltb_spec m j); destruct (Rlt_dec (nth m T 0) (nth j T 0)) as [Q|Q].
  - unfold T. rewrite (sig_nth vol h n); auto; lia.
  - exfalso. apply Rnot_lt_le in Q. apply H0 in Q. lia.
  - exfalso. apply H0 in H2. lra.
  - reflexivity.
Qed.
End Obs.
Lemma lik_observed dim t vt y h n : obs_grid t vt (last t 0) -> hidden_ok dim t vt y h n -> off_grid t y -> forall vol dv f restrict,
  snd (eval_biased_log_lik vol dv (pointwise f) h restrict) =
  Mat.rsum (length t - 1) (obs_term vol dv t vt h) -
  Mat.rsum n (fun k => if match restrict with Some r => Nat.eqb (nth k (a_y h) 0%nat) r | None => true end
                       then term vol dv (fun _ _ => 0) h k else 0).
Proof.
  intros HG HO HF vol dv f restrict.
  pose proof (ho_seeds _ _ _ _ _ _ HO) as L3. pose proof (ho_len_v _ _ _ _ _ _ HO) as L2. pose proof (ho_len_y _ _ _ _ _ _ HO) as L1.
  unfold eval_biased_log_lik. cbn [snd]. rewrite (obs_value dim t vt y h n HG HO HF). f_equal.
  rewrite <- (lik_fst vol dv (fun _ _ => 0) h n) by lia. unfold eval_biased_log_lik. cbn [fst].
  pose proof (lens vol dv (fun _ _ => 0) h n L3 ltac:(lia) ltac:(lia)) as [K1 K2].
  assert (Z : forall k, nth k (p_del vol (pointwise (fun _ _ => 0)) (a_y h) (a_v h)) 0 = 0).
  { intros k. destruct (lt_dec k n); [rewrite (pd_nth vol (fun _ _ => 0) h n) by lia; unfold Rdiv; ring|]. apply nth_overflow. rewrite K1, removelast_len. lia. }
  unfold is_selected. rewrite sel_sum by auto. rewrite wsum_nth by auto. rewrite (rsum_ext _ _ (fun k => if match restrict with Some r => Nat.eqb (nth k (removelast (a_y h)) 0%nat) r | None => true end then nth k (p_vt vol dv (a_t h) (a_y h) (a_v h)) 0 else 0)).
  2:{ intros k _. destruct (match restrict with Some _ => _ | None => _ end); auto. rewrite Z. ring. }
  set (g := fun y0 => match restrict with Some r => Nat.eqb y0 r | None => true end). change (fun k : nat => if match restrict with Some r => Nat.eqb (nth k (removelast (a_y h)) 0%nat) r | None => true end then nth k (p_vt vol dv (a_t h) (a_y h) (a_v h)) 0 else 0) with (fun k => if g (nth k (removelast (a_y h)) 0%nat) then nth k (p_vt vol dv (a_t h) (a_y h) (a_v h)) 0 else 0).
  revert K2. generalize (p_vt vol dv (a_t h) (a_y h) (a_v h)) as l, (removelast (a_y h)) as m. clear.
  intros l m; revert l. induction m as [|y0 m IH]; intros [|x l] HL; try discriminate; [reflexivity|]. unfold select in *. cbn [map combine filter snd length]. rewrite rsum_shift. cbn [nth]. injection HL as HL. specialize (IH l HL).
  destruct (g y0); unfold M_models.rsum in *; cbn [map fst fold_right]; rewrite IH; ring.
Qed.
Lemma lik_full dim t vt y h n : obs_grid t vt (last t 0) -> hidden_ok dim t vt y h n -> off_grid t y -> forall vol dv f,
  fst (eval_biased_log_lik vol dv (pointwise f) h None) + snd (eval_biased_log_lik vol dv (pointwise f) h None) =
  Mat.rsum n (fun k => let y := nth k (a_y h) 0%nat in (f y (nth (S k) (a_v h) 0) - f y (nth k (a_v h) 0)) / vol y ^ 2) + Mat.rsum (length t - 1) (obs_term vol dv t vt h).
Proof.
  intros HG HO HF vol dv f.
  pose proof (ho_seeds _ _ _ _ _ _ HO) as L3. pose proof (ho_len_v _ _ _ _ _ _ HO) as L2. pose proof (ho_len_y _ _ _ _ _ _ HO) as L1.
  rewrite (lik_snd vol dv f h n) by lia. rewrite (obs_value dim t vt y h n HG HO HF). reflexivity.
Qed.
