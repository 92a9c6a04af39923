(** sample_aug returns augmentations. *)
From Coq Require Import Reals List Bool Arith ZArith Lia Lra Sorted.
From Verif Require Import Base Np Rng M_mjp M_path M_skel M_seed M_sw SpecMjp SpecSw.
From Verif Require Import L_rng L_list L_path L_path2 L_part L_prop L_occ L_adapt2 L_ars2 L_sde L_sde2 L_sw L_sw2 L_sw3.
Import ListNotations.
Local Open Scope R_scope.

Lemma last_cons_snoc {A} (l : list A) m d : last (l ++ [m]) d = m.
Proof. apply last_last. Qed.
Lemma zip4_len {A B C D} (l : list A) (m : list B) (n : list C) (q : list D) k : length l = k -> length m = k -> (k <= length n)%nat -> length q = k -> length (zip4 l m n q) = k.
Proof. intros. unfold zip4. rewrite !combine_length. lia. Qed.
Lemma normops_len vol h n : length (a_t h) = S n -> length (a_y h) = S n -> length (a_v h) = S n -> length (sw_normops vol h) = n.
Proof.
  intros H1 H2 H3. unfold sw_normops. rewrite map_length. apply zip4_len.
  - rewrite np_diff_length, H1. lia.
  - rewrite removelast_len, H2. lia.
  - lia.
  - destruct (a_v h); simpl in *; lia.
Qed.
Lemma tl_len {A} (l : list A) : length (tl l) = (length l - 1)%nat.
Proof. destruct l; simpl; lia. Qed.
Lemma diff_pos (t : list R) d : StronglySorted Rlt t -> In d (np_diff t) -> 0 < d.
Proof.
  induction 1 as [|a l H IH F]; [intros []|]. destruct l as [|b l]; [intros []|]. rewrite Forall_forall in F. specialize (F b (or_introl eq_refl)).
  intros [E|E]; [simpl in E; lra|]. apply IH; auto.
Qed.
Lemma in_rl {A} (x : A) l : In x (removelast l) -> In x l.
Proof. induction l as [|a l IH]; [auto|]. destruct l; [intros []|]. intros [->|H]; [left; auto|right; apply IH; exact H]. Qed.
Lemma normops_in vol h q : StronglySorted Rlt (a_t h) -> In q (sw_normops vol h) -> exists dt y x0 x1, 0 < dt /\ In y (a_y h) /\ q = (sw_norm (vol y) dt x0 x1, sw_denorm (vol y) dt x0 x1).
Proof.
  intros HS H. unfold sw_normops in H. apply in_map_iff in H as ([[[dt y] x0] x1] & <- & H). unfold zip4 in H.
  apply in_combine_l in H. apply in_combine_l in H. pose proof (in_rl _ _ (in_combine_r _ _ _ _ H)) as Hy. apply in_combine_l in H. exists dt, y, x0, x1. split; [eapply diff_pos; eauto|]. auto.
Qed.
Section Returns.
Context (G : oracle -> Prop) (dim : nat) (P : M_skel.skel -> Prop).
Definition raw_seeds fuel mp maxp lb ub (vol : nat -> R) : Prop := forall dt y x0 x1, 0 < dt -> (y < dim)%nat -> returns_if G (sample_raw_seed fuel mp maxp lb ub (sw_norm (vol y) dt x0 x1) (sw_denorm (vol y) dt x0 x1)) P.
Lemma aug_good y t vt xs vlast tlast ylast : obs_grid t vt (sk_fin y) -> wf_skel y -> Forall (fun s => (s < dim)%nat) (sk_x y) -> anchored y t vt xs ->
  last_opt vt = Some vlast -> last_opt t = Some tlast -> last_opt (sk_x y) = Some ylast ->
  exists K, mk_anch (concat (map (fun p => map (Rplus (fst p)) (sk_t (snd p))) (combine t (pieces y t))) ++ [tlast])
     (concat (map (fun s => sk_x s) (pieces y t)) ++ [ylast]) (concat xs ++ [vlast]) = anch_of K /\ good dim t vt K /\ path_of K = y.
Proof.
  intros OG W FD HX Ev Etl Ey. pose proof (sorted_last_pos _ _ _ OG) as HT. destruct (grid_shape _ _ _ OG) as (m & Et & Es & HI).
  pose proof (og_len _ _ _ OG) as HL. pose proof (og_sorted _ _ _ OG) as HS. rewrite Et in HS.
  destruct (partition_raw y m W HS) as [ED FT]. rewrite <- Et in ED, FT.
  apply last_opt_Some in Ev as [vr Ev]. apply last_opt_Some in Etl as [tr Etl]. apply last_opt_Some in Ey as [yr Ey].
  assert (EL : tlast = sk_fin y). { rewrite Et in Etl. change (0 :: m ++ [sk_fin y]) with ((0 :: m) ++ [sk_fin y]) in Etl. apply app_inj_tail in Etl as [_ ->]. auto. }
  assert (HV : length vt = S (length (m ++ [sk_fin y]))). { rewrite HL, Et. reflexivity. }
  destruct (aug_lists y W (m ++ [sk_fin y]) 0 vt xs ltac:(lra) HI HV) as (A1 & A2 & A3 & A4); [rewrite <- Et; exact HX|]. rewrite <- Et in A1, A2, A3, A4.
  set (K0 := augK y t xs) in *. set (K := K0 ++ [(tlast, ylast, vlast)]).
  assert (Eh : mk_anch (concat (map (fun p => map (Rplus (fst p)) (sk_t (snd p))) (combine t (pieces y t))) ++ [tlast])
     (concat (map (fun s => sk_x s) (pieces y t)) ++ [ylast]) (concat xs ++ [vlast]) = anch_of K).
  { unfold anch_of, K. rewrite !map_app, A2, A3, A4. reflexivity. }
  assert (LK : length K = S (length K0)) by (unfold K; rewrite app_length; simpl; lia).
  assert (MF : map fst K = raw 0 (pieces y t) ++ [(tlast, ylast)]).
  { unfold K. rewrite map_app, A1. reflexivity. }
  assert (NR : raw 0 (pieces y t) <> []). { intros E. rewrite E in ED. pose proof (td_first y (proj1 W)) as F. unfold jumps in ED. destruct (sk_t y), (sk_x y) eqn:Ex; try discriminate. destruct yr; discriminate. }
  assert (TD : total_dur (pieces y t) = sk_fin y). { rewrite Et. rewrite (pieces_total y 0 _ (sk_fin y)); [lra|]. change (0 :: m ++ [sk_fin y]) with ((0 :: m) ++ [sk_fin y]). apply last_last. }
  assert (LS : forall q r, raw 0 (pieces y t) = r ++ [q] -> snd q = ylast).
  { intros q r E. destruct (raw 0 (pieces y t)) as [|[u s] J] eqn:EJ; [congruence|]. cbn [devirt] in ED.
    assert (M1 : map snd (jumps y) = sk_x y) by (unfold jumps; apply combine_snd_len; symmetry; apply (td_len y (proj1 W))).
    rewrite <- ED in M1. cbn [map snd] in M1. rewrite Ey in M1.
    assert (M2 : last (s :: map snd (dv s J)) 0%nat = ylast) by (rewrite M1; apply last_last).
    assert (GG : forall (l : list nat) s d, last (s :: l) d = last l s).
    { clear. induction l as [|x l IHl]; intros; [reflexivity|]. change (last (x :: l) d = last (x :: l) s). rewrite !IHl. reflexivity. }
    rewrite GG, dv_last in M2. rewrite <- M2. rewrite <- GG with (d := 0%nat). change (s :: map snd J) with (map snd ((u, s) :: J)). rewrite E, map_app. simpl. rewrite last_last. reflexivity. }
  assert (LT : last t 0 = sk_fin y) by apply (og_last _ _ _ OG).
  assert (SR : StronglySorted Rlt (map fst (raw 0 (pieces y t)))) by (apply raw_sorted; auto).
  assert (GK : good dim t vt K /\ path_of K = y).
  { split.
    - constructor.
      + intros e e' HA. apply (adj_map fst) in HA. rewrite MF in HA. apply adj_snoc in HA as [HA|[E2 [q Eq]]].
        * change (tm e) with (fst (fst e)). change (tm e') with (fst (fst e')). change (st e) with (snd (fst e)). change (st e') with (snd (fst e')).
          pose proof (adj_in _ _ _ HA) as [_ HI2]. pose proof (raw_bounds 0 _ _ FT HI2) as HB. rewrite TD in HB.
          split; [apply (adj_sorted fst _ _ _ SR HA)|]. split; [|rewrite LT; intros Q; exfalso; rewrite Q in HB; lra].
          intros Q. rewrite Et in HA. pose proof (raw_adj y W (m ++ [sk_fin y]) 0 _ _ ltac:(lra) HI HA Q) as HR. rewrite removelast_last in HR.
          rewrite Et. right. apply in_or_app. auto.
        * unfold tm, st. rewrite E2. cbn [fst snd]. assert (HIn : In (fst e) (raw 0 (pieces y t))) by (rewrite Eq; apply in_or_app; right; left; auto).
          pose proof (raw_bounds 0 _ _ FT HIn) as HB. rewrite TD in HB. subst tlast. split; [lra|]. split; [intros _; rewrite Et; right; apply in_or_app; right; left; auto|].
          intros _. apply (LS _ _ Eq).
      + destruct K0 as [|k K1] eqn:EK; [simpl in A1; congruence|]. exists k, (K1 ++ [(tlast, ylast, vlast)]). split; [reflexivity|]. split; [destruct K1; discriminate|].
        assert (F0 : exists x r, raw 0 (pieces y t) = (0, x) :: r).
        { destruct (pieces y t) as [|p ps]; [simpl in A1; discriminate|]. inversion FT; subst. apply raw_first; auto. }
        destruct F0 as (x & r & E). rewrite E in A1. simpl in A1. inversion A1. unfold tm. rewrite H0. reflexivity.
      + unfold K. rewrite last_last. unfold tm. simpl. congruence.
      + intros u v Hin. rewrite Et in Hin. destruct (aug_data y W (m ++ [sk_fin y]) 0 vt xs u v ltac:(lra) HI HV) as [(e & He & E1 & E2)|[E1 E2]]; auto.
        * rewrite <- Et; exact HX.
        * exists e. split; auto. unfold K. apply in_or_app; left. unfold K0. rewrite Et. auto.
        * exists (tlast, ylast, vlast). split; [unfold K; apply in_or_app; right; left; auto|]. unfold tm, vl. simpl. rewrite <- Et in E1. rewrite Ev, last_last in E2. subst. split; congruence.
      + apply Forall_forall. intros e He. unfold K in He. apply in_app_or in He as [He|[<-|[]]].
        * apply (in_map st) in He. rewrite A3 in He. apply in_concat in He as (l & Hl & He). apply in_map_iff in Hl as (p & <- & Hp).
          rewrite Forall_forall in FD. apply FD. apply (partition_states y m p); auto. rewrite partition_pieces, <- Et. auto.
        * unfold st. simpl. rewrite Forall_forall in FD. apply FD. rewrite Ey. apply in_or_app; right; left; auto.
    - unfold path_of. rewrite MF. assert (DD : devirt (raw 0 (pieces y t) ++ [(tlast, ylast)]) = jumps y).
      { rewrite <- ED. pose proof LS as LS'. destruct (raw 0 (pieces y t)) as [|[u s] J] eqn:EJ; [congruence|]. cbn [app devirt]. f_equal. rewrite dv_app.
        replace (dv (last (map snd J) s) [(tlast, ylast)]) with (@nil (R * nat)); [apply app_nil_r|]. cbn [dv]. replace (Nat.eqb ylast (last (map snd J) s)) with true; [reflexivity|].
        symmetry. apply Nat.eqb_eq. destruct J as [|q J] using rev_ind.
        - symmetry. apply (LS' (u, s) []). reflexivity.
        - rewrite map_app. simpl. rewrite last_last. symmetry. apply (LS' q ((u, s) :: J)). reflexivity. }
      rewrite DD. unfold K. rewrite last_last. unfold tm. cbn [fst]. rewrite EL. unfold jumps.
      rewrite combine_fst_len, combine_snd_len by (symmetry; apply (td_len y (proj1 W))). destruct y; reflexivity.
  }
  exists K. split; [exact Eh|exact GK].
Qed.
Lemma sample_aug_ok fuel mp maxp lb ub vol y t vt : obs_grid t vt (sk_fin y) -> wf_skel y -> Forall (fun s => (s < dim)%nat) (sk_x y) -> raw_seeds fuel mp maxp lb ub vol ->
  returns_if G (sample_aug fuel mp maxp lb ub vol y t vt) (fun r => exists K, snd r = anch_of K /\ good dim t vt K /\ path_of K = y /\ length K = S (length (fst r)) /\ Forall P (fst r)).
Proof.
  intros OG W FD HP. pose proof (sorted_last_pos _ _ _ OG) as HT. destruct (grid_shape _ _ _ OG) as (m & Et & Es & HI).
  pose proof (og_len _ _ _ OG) as HL. pose proof (og_sorted _ _ _ OG) as HS. rewrite Et in HS.
  destruct (partition_raw y m W HS) as [ED FT].
  unfold sample_aug. rewrite Es. rewrite partition_pieces. rewrite <- Et in ED, FT |- *.
  eapply returns_bind with (Q := fun xs => anchored y t vt xs).
  { unfold anchored. apply returns_map_m with (P := fun p x => length x = length (sk_t (fst (fst p))) /\ exists r, x = snd (fst p) :: r).
    intros [[s x0] x1] Hin. unfold zip3 in Hin. apply in_combine_l in Hin. apply in_combine_l in Hin. cbn [fst snd].
    rewrite Forall_forall in FT. specialize (FT s Hin). destruct (timed_len_t s FT). apply anchors_ok; auto. }
  intros xs HX.
  eapply returns_bind with (Q := fun v => last_opt vt = Some v); [apply returns_lift_opt; auto|]. intros vlast Ev.
  eapply returns_bind with (Q := fun v => last_opt t = Some v); [apply returns_lift_opt; auto|]. intros tlast Etl.
  eapply returns_bind with (Q := fun v => last_opt (sk_x y) = Some v); [apply returns_lift_opt; auto|]. intros ylast Ey.
  destruct (aug_good y t vt xs vlast tlast ylast OG W FD HX Ev Etl Ey) as (K & Eh & GK & PK). rewrite Eh.
  assert (LK : length K = S (length K - 1)) by (destruct (g_first _ _ _ _ GK) as (e & K' & -> & _); simpl; lia).
  eapply returns_bind with (Q := fun z => length z = (length K - 1)%nat /\ Forall P z).
  { eapply returns_weaken; [apply returns_map_m with (P := fun _ s => P s)|].
    - intros q Hq. apply normops_in in Hq as (dt & yy & x0 & x1 & Hd & Hyy & ->); [|apply (good_sorted _ _ _ _ GK)]. apply HP; auto. apply in_map_iff in Hyy as (e & <- & He). pose proof (g_dim _ _ _ _ GK) as FG. rewrite Forall_forall in FG. apply FG; auto.
    - intros z Hz. cbv beta in Hz. split.
      + apply Forall2_length in Hz. rewrite <- Hz. apply normops_len; unfold anch_of; cbn [a_t a_y a_v]; rewrite map_length; exact LK.
      + clear -Hz. induction Hz; constructor; auto. }
  intros z [Hz HPz]. apply returns_ret. exists K. cbn [fst snd]. split; [reflexivity|]. split; [exact GK|]. split; [exact PK|]. split; [rewrite Hz; exact LK|exact HPz].
Qed.
End Returns.
