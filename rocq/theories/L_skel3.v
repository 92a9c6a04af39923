(** Lemmas: the interpolators as programs. *)
From Coq Require Import Reals List Bool Arith Lia Lra Psatz Sorted.
From Verif Require Import Base Np Rng L_list L_rng L_bridge L_ars L_prop M_mjp M_hit M_path SpecPath L_sde L_sde2 M_skel SpecSkel L_skel L_skel2.
Import ListNotations.
Local Open Scope R_scope.

Lemma inner_returns fuel mp n t x new min_x ue hit hit_i : path_points t x -> StronglySorted Rlt new -> (forall s, In s new -> ~ In s t) -> hits_given t x hit hit_i -> new <> [] ->
  returns_if anyo (fill_wiener_inner fuel mp n t x new min_x ue hit hit_i) (fun r => let '(t', x', pos, h') := r in
    path_points t' x' /\ (forall s, In s t' <-> In s t \/ In s new) /\ (forall s v, stores t x s v -> stores t' x' s v) /\
    (forall v, In v x' -> min_x <= v /\ below ue v) /\ hits_kept t hit hit_i t' x' h').
Proof.
  intros PP SN NI HG NE. unfold fill_wiener_inner. destruct new as [|s0 nr] eqn:EN; [easy|]. rewrite <- EN in *. clear NE.
  assert (PP0 := PP). destruct PP0 as (LX & ST & L2 & P0).
  eapply returns_bind; [apply (returns_lift anyo _ (fun m => arr_min t = Ok m)); auto|]. intros t0 E0. apply (sorted_min t t0 ST) in E0.
  eapply returns_bind; [apply (returns_lift anyo _ (fun m => arr_max t = Ok m)); auto|]. intros t1 E1. apply (sorted_max t t1 ST) in E1.
  eapply returns_bind; [apply (returns_lift anyo _ (fun m => arr_min new = Ok m)); auto|]. intros a Ea. apply arr_min_spec in Ea as [_ Ea].
  eapply returns_bind; [apply (returns_lift anyo _ (fun m => arr_max new = Ok m)); auto|]. intros b Eb. apply arr_max_spec in Eb as [_ Eb].
  eapply returns_bind; [apply (returns_assert anyo _ (fun _ => t0 < a /\ b < t1)); intros E; rewrite !andb_true_iff in E; destruct E as [[[_ E] _] E']; split; now apply Rltb_true|]. intros ? [A1 A2].
  eapply returns_bind; [apply check_bounds_returns|]. intros ? [CB CH]. cbv zeta.
  assert (IN : forall s, In s new -> nth 0 t 0 < s < last t 0 /\ ~ In s t).
  { intros s Hs. split; auto. specialize (Ea s Hs). specialize (Eb s Hs). lra. }
  assert (SR := secs_range t x new (fun _ => ([], None)) PP IN).
  eapply returns_bind. { apply returns_map_m. intros i Hi. apply sector_returns; auto. apply SR in Hi. lia. }
  intros res HR. apply returns_ret. apply (forall2_fun _ ([], None)) in HR; [|apply unique_pos_nodup]. destruct HR as (f & -> & FS). cbv beta in FS.
  rewrite (wt_weave t new). rewrite (wx_weave t x new min_x ue hit hit_i f SN FS).
  fold (wt t new). fold (wx t x new f).
  split; [eapply points'; eauto|]. split; [apply wt_in|]. split; [intros s v; eapply stores'; eauto|]. split.
  - intros v Hv. apply values' in Hv as [Hv|(i & Hi & Hv)]; [now apply CB|]. destruct (FS i Hi) as (lv & LV & _ & F & _). rewrite Forall_forall in F. destruct (F v Hv) as [F1 F2].
    split; auto. unfold sector_levels in LV. unfold hits_given in HG. destruct hit_i as [h|].
    + destruct HG as (K & EK & _). rewrite EK in *. destruct (nth_error h (i - 1)) as [[|]|]; try discriminate; injection LV as <-; cbn [fst] in F2; auto.
      destruct ue as [u|]; [|exact I]. simpl. destruct (CH u K eq_refl eq_refl). lra.
    + destruct (Nat.ltb _ _); [|discriminate]. injection LV as <-. exact F2.
  - unfold hits_kept, hits_given in *. destruct hit_i as [h|]; auto. destruct HG as (K & EK & FO). exists K. eexists. split; [exact EK|]. split; [reflexivity|].
    exact (inner_flags t x new min_x ue hit (Some h) f PP SN IN FS h K eq_refl EK FO).
Qed.

Lemma sorted_same (l m : list R) : StronglySorted Rlt l -> StronglySorted Rlt m -> (forall s, In s l <-> In s m) -> l = m.
Proof.
  revert m. induction l as [|a l IH]; intros [|b m] HL HM E; auto; [destruct (proj2 (E b)); now left|destruct (proj1 (E a)); now left|].
  inversion HL; inversion HM; subst. rewrite Forall_forall in *.
  assert (a = b). { destruct (proj1 (E a) (or_introl eq_refl)) as [->|Ha]; auto. destruct (proj2 (E b) (or_introl eq_refl)) as [->|Hb]; auto. specialize (H2 b Hb). specialize (H6 a Ha). lra. }
  subst b. f_equal. apply IH; auto. intros s. split; intros Hs.
  - destruct (proj1 (E s) (or_intror Hs)) as [->|]; auto. specialize (H2 s Hs). lra.
  - destruct (proj2 (E s) (or_intror Hs)) as [->|]; auto. specialize (H6 s Hs). lra.
Qed.
Lemma isin_spec s (l : list R) : np_isin s l = true <-> In s l.
Proof.
  unfold np_isin. change (@neqb R RNum) with Reqb. rewrite existsb_exists. split.
  - intros (v & Hv & E). apply Reqb_true in E. now subst.
  - intros H. exists s. split; auto. now apply Reqb_true.
Qed.
Lemma positions_filter (t new : list R) : map (fun i => nth i t 0) (filter (fun i => np_isin (nth i t 0) new) (seq 0 (length t))) = filter (fun s => np_isin s new) t.
Proof.
  transitivity (filter (fun s => np_isin s new) (map (fun i => nth i t 0) (seq 0 (length t)))); [|now rewrite <- list_seq]. generalize (seq 0 (length t)). induction l as [|i l IH]; auto. cbn [filter map]. destruct (np_isin _ _); cbn [map]; now rewrite IH.
Qed.
Lemma positions_new t new : StronglySorted Rlt t -> StronglySorted Rlt new -> (forall s, In s new -> In s t) ->
  map (fun i => nth i t 0) (filter (fun i => np_isin (nth i t 0) new) (seq 0 (length t))) = new.
Proof.
  intros ST SN H. rewrite positions_filter. apply sorted_same; auto; [now apply sorted_filter|]. intros s. rewrite filter_In, isin_spec. firstorder.
Qed.
Lemma outer_returns fuel mp n t x new min_x ue hit hit_i : path_points t x -> StronglySorted Rlt new -> hits_given t x hit hit_i ->
  returns_if anyo (fill_wiener_outer fuel mp n t x new min_x ue hit hit_i) (fun r => let '(t', x', pos, h') := r in
    filled t x new t' x' pos /\ (forall v, In v x' -> min_x <= v /\ below ue v) /\
    (forall s, In s new -> nth 0 t 0 <= s <= last t 0) /\
    ((forall s, In s new -> In s t) /\ t' = t /\ x' = x /\ h' = None \/ (exists s, In s new /\ ~ In s t) /\ hits_kept t hit hit_i t' x' h')).
Proof.
  intros PP SN HG. assert (PP0 := PP). destruct PP0 as (LX & ST & L2 & P0). unfold fill_wiener_outer.
  eapply returns_bind; [apply (returns_lift anyo _ (fun m => arr_min t = Ok m)); auto|]. intros t0 E0. apply (sorted_min t t0 ST) in E0.
  eapply returns_bind; [apply (returns_lift anyo _ (fun m => arr_max t = Ok m)); auto|]. intros t1 E1. apply (sorted_max t t1 ST) in E1.
  eapply returns_bind; [apply (returns_lift anyo _ (fun m => arr_min new = Ok m)); auto|]. intros a Ea. apply arr_min_spec in Ea as [_ Ea].
  eapply returns_bind; [apply (returns_lift anyo _ (fun m => arr_max new = Ok m)); auto|]. intros b Eb. apply arr_max_spec in Eb as [_ Eb].
  eapply returns_bind; [apply (returns_assert anyo _ (fun _ => t0 <= a /\ b <= t1)); intros E; rewrite !andb_true_iff in E; destruct E as [[[_ E] _] E']; split; now apply Rleb_true|]. intros ? [A1 A2].
  eapply returns_bind; [apply check_bounds_returns|]. intros ? [CB CH].
  assert (RG : forall s, In s new -> nth 0 t 0 <= s <= last t 0) by (intros s Hs; specialize (Ea s Hs); specialize (Eb s Hs); lra).
  destruct (filter (fun s => negb (np_isin s t)) new) as [|s0 nr] eqn:EF.
  - eapply returns_bind; [apply (returns_ret anyo _ (fun r => r = (t, x, [], None))); reflexivity|]. intros r ->. apply returns_ret.
    assert (AP : forall s, In s new -> In s t).
    { intros s Hs. destruct (np_isin s t) eqn:E; [now apply isin_spec|]. assert (In s (filter (fun s => negb (np_isin s t)) new)) by (apply filter_In; now rewrite E). rewrite EF in H. easy. }
    split; [|split; [exact CB|split; auto]]. split; auto. split; [intros s; split; auto; intros [H|H]; auto|]. split; auto. split; [now apply positions_new|]. apply Forall_forall. intros i Hi. apply filter_In in Hi as [Hi _]. apply in_seq in Hi. lia.
  - rewrite <- EF. eapply returns_bind; [apply inner_returns; auto; [now apply sorted_filter|intros s Hs; apply filter_In in Hs as [_ Hs]; intros C; apply isin_spec in C; rewrite C in Hs; discriminate|rewrite EF; discriminate]|].
    intros [[[t' x'] pos] h'] (PP' & IN' & ST' & V' & HK). apply returns_ret. split; [|split; [exact V'|split; auto]].
    + assert (IN2 : forall s, In s t' <-> In s t \/ In s new).
      { intros s. rewrite IN', filter_In. split; [tauto|]. intros [H|H]; auto. destruct (np_isin s t) eqn:E; [left; now apply isin_spec|right; auto]. }
      split; auto. split; auto. split; auto. split; [apply positions_new; auto; [apply PP'|]; intros s Hs; apply IN2; auto|].
      apply Forall_forall. intros i Hi. apply filter_In in Hi as [Hi _]. apply in_seq in Hi. lia.
    + right. split; auto. exists s0. assert (H : In s0 (filter (fun s => negb (np_isin s t)) new)) by (rewrite EF; now left). apply filter_In in H as [H1 H2]. split; auto.
      intros C. apply isin_spec in C. rewrite C in H2. discriminate.
Qed.
