(** Lemmas about ctbayes/misc/ars.py: the sampling loop. *)
From Coq Require Import Reals List ZArith Bool Arith Lia Lra Sorted Permutation.
From Verif Require Import Base Np Rng Mat M_adapt M_ars SpecArs L_list L_path L_mat L_rng L_adapt L_ars L_ars2 L_demo L_simdemo.
Import ListNotations.
Local Open Scope R_scope.

Lemma opt_list_None {A} (l : list (option A)) : In None l -> opt_list l = None.
Proof.
  induction l as [|[a|] l IH]; simpl; auto; [contradiction|]. intros [H|H]; [discriminate|]. rewrite IH; auto.
Qed.
Lemma opt_list_length {A} (l : list (option A)) : forall r, opt_list l = Some r -> length r = length l.
Proof.
  induction l as [|[a|] l IH]; simpl; intros r E; try discriminate; [inversion E; auto|].
  destruct (opt_list l) as [r'|]; [|discriminate]. inversion E; subst. simpl. rewrite (IH r'); auto.
Qed.
Lemma fdiv_0 a : fdiv a 0 = None.
Proof. unfold fdiv. destruct (Reqb_dec 0 0) as [[_ ->]|[H _]]; [auto|contradiction H; auto]. Qed.
Lemma dup_none f df x j : (S j < length x)%nat -> nth j x 0 = nth (S j) x 0 -> gen_upper x (map f x) (map df x) = None.
Proof.
  intros Hj E. unfold gen_upper, but_last. set (n := length x) in *.
  rewrite (map2_seq Rmult x (map df x) n 0 (df 0)) by (rewrite ?map_length; auto).
  rewrite (map2_seq Rminus (map f x) _ n (f 0) 0) by (rewrite !map_length, ?seq_length; auto).
  rewrite np_diff_seq, map_length, seq_length.
  rewrite (removelast_seq (map df x) (df 0)), (tl_seq (map df x) (df 0)). rewrite !map_length. fold n.
  rewrite (map2_seq Rminus _ _ (n - 1) (df 0) (df 0)) by (rewrite map_length, seq_length; auto).
  rewrite (map2_seq fdiv _ _ (n - 1) 0 0) by (rewrite map_length, seq_length; auto).
  apply opt_list_None. apply in_map_iff. exists j. split; [|apply in_seq; lia].
  rewrite !nth_map_seq by lia. rewrite !map_nth, E. replace (df (nth (S j) x 0) - df (nth (S j) x 0)) with 0 by ring. apply fdiv_0.
Qed.
Lemma strict_or_dup x : StronglySorted Rle x -> StronglySorted Rlt x \/ exists j, (S j < length x)%nat /\ nth j x 0 = nth (S j) x 0.
Proof.
  induction 1 as [|a l H IH HF]; [left; constructor|]. destruct IH as [IH|(j & Hj & E)].
  - destruct l as [|b l]; [left; constructor; constructor|]. inversion HF as [|? ? H1 H2]; subst.
    destruct H1 as [L| ->].
    + left. constructor; auto. constructor; auto. inversion IH as [|? ? Q1 Q2]; subst. rewrite Forall_forall in *.
      intros c Hc. specialize (Q2 c Hc). lra.
    + right. exists 0%nat. simpl. split; [lia|auto].
  - right. exists (S j). simpl. split; [lia|auto].
Qed.
Lemma zero_none f df x y : (exists a, In a x /\ df a = 0) -> length y = S (length x) -> envelope_table x (map f x) (map df x) y = None.
Proof.
  intros (a & Ia & Da) HL. unfold envelope_table. apply (In_nth _ _ 0) in Ia. destruct Ia as (j & Hj & Ej).
  destruct (seg_exps x (map f x) (map df x) (tl y)) as [eu|] eqn:E1; cbn [obind]; auto.
  destruct (seg_exps x (map f x) (map df x) (removelast y)) as [el|]; cbn [obind]; auto.
  destruct (np_emax eu) as [[|off|]|]; cbn [obind]; auto.
  assert (LE : length eu = length x).
  { unfold seg_exps in E1. apply opt_list_length in E1. rewrite E1. unfold map2. rewrite map_length, combine_length.
    unfold zip3. rewrite !combine_length, !map_length. destruct y; [simpl in HL; discriminate|]. simpl in *. lia. }
  rewrite (opt_list_None (map2 (vol off) (map df x) eu)); auto.
  rewrite (map2_seq _ _ _ (length x) (df 0) PosInf) by (rewrite ?map_length; auto).
  apply in_map_iff. exists j. split; [|apply in_seq; lia]. rewrite map_nth, Ej, Da. unfold vol. destruct (nth j eu PosInf); auto using fdiv_0.
Qed.

(** ** inserting *)
Lemma insert_map {A B} (g : A -> B) l i v : insert_at (map g l) i (g v) = map g (insert_at l i v).
Proof. unfold insert_at. rewrite firstn_map, skipn_map, map_app. reflexivity. Qed.
Lemma insert_perm {A} (l : list A) i v : Permutation (insert_at l i v) (v :: l).
Proof. unfold insert_at. rewrite <- (firstn_skipn i l) at 3. symmetry. apply Permutation_middle. Qed.
Lemma insert_sorted x v : StronglySorted Rle x -> StronglySorted Rle (insert_at x (searchsorted_left x v) v).
Proof.
  unfold insert_at, searchsorted_left. induction 1 as [|a l H IH HF]; [repeat constructor|].
  cbn [filter]. destruct (Rltb_dec a v) as [[L E]|[L E]]; cbn [nltb RNum]; rewrite E.
  - cbn [length firstn skipn app]. constructor; auto.
    rewrite Forall_forall in *. intros c Hc.
    apply (Permutation_in (l' := v :: l)) in Hc.
    + destruct Hc as [<-|Hc]; [lra|auto].
    + exact (insert_perm l _ v).
  - rewrite (filter_none _ l).
    + cbn [length firstn skipn app]. constructor; [constructor; auto|]. constructor; auto.
      rewrite Forall_forall in *. intros c Hc. specialize (HF c Hc). lra.
    + intros c Hc. rewrite Forall_forall in HF. specialize (HF c Hc). apply Rltb_false. lra.
Qed.

Lemma hd_min x : StronglySorted Rle x -> forall c, In c x -> hd 0 x <= c.
Proof. intros H c Hc. inversion H as [|a l H1 H2]; subst; [contradiction|]. destruct Hc as [<-|Hc]; simpl; [lra|]. rewrite Forall_forall in H2. auto. Qed.
Lemma last_max x : StronglySorted Rle x -> forall c, In c x -> c <= last x 0.
Proof.
  induction 1 as [|a l H IH HF]; intros c Hc; [contradiction|]. destruct l as [|b l].
  - destruct Hc as [<-|[]]. simpl. lra.
  - change (last (a :: b :: l) 0) with (last (b :: l) 0). destruct Hc as [<-|Hc]; [|auto].
    rewrite Forall_forall in HF. apply Rle_trans with b; [apply HF; left; auto|apply IH; left; auto].
Qed.
Lemma hd_In (x : list R) : x <> [] -> In (hd 0 x) x.
Proof. destruct x; [contradiction|left; auto]. Qed.
Lemma last_In (x : list R) : x <> [] -> In (last x 0) x.
Proof. intros H. destruct (exists_last H) as (l & a & ->). rewrite last_last. apply in_or_app; right; left; auto. Qed.

Section Loop.
Context (lb ub : ext) (f df : R -> R) (maxp : nat).
Hypothesis HC : strictly_concave_on lb ub f df.

Lemma good_insert h v : good_hull lb ub f df h -> dom lb ub v ->
  let i := searchsorted_left (h_x h) v in
  good_hull lb ub f df (mk_hull (insert_at (h_x h) i v) (insert_at (h_fx h) i (f v)) (insert_at (h_dfx h) i (df v))).
Proof.
  intros (G1 & G2 & G3 & G4 & G5 & G6 & G7) Hv i. unfold good_hull. cbn [h_x h_fx h_dfx]. rewrite G1, G2, !insert_map.
  pose proof (insert_perm (h_x h) i v) as P. set (x' := insert_at (h_x h) i v) in *.
  assert (S' : StronglySorted Rle x') by (apply insert_sorted; auto).
  assert (N' : x' <> []) by (intros E; rewrite E in P; apply Permutation_nil in P; discriminate).
  assert (F' : Forall (dom lb ub) x') by (eapply Permutation_Forall; [symmetry; exact P|constructor; auto]).
  assert (LL : length x' = S (length (h_x h))) by (rewrite (Permutation_length P); auto).
  repeat split; auto.
  - intros E. specialize (G6 E).
    pose proof (hd_min x' S' (hd 0 (h_x h)) ltac:(eapply Permutation_in; [symmetry; exact P|right; apply hd_In; auto])) as [L| ->]; auto.
    rewrite Forall_forall in F', G4. eapply Rlt_trans; [exact G6|]. apply (proj2 HC); auto; [apply F', hd_In; auto|apply G4, hd_In; auto].
  - specialize (G7 H) as [G7 _].
    pose proof (last_max x' S' (last (h_x h) 0) ltac:(eapply Permutation_in; [symmetry; exact P|right; apply last_In; auto])) as [L|E]; [|rewrite <- E; auto].
    rewrite Forall_forall in F', G4. eapply Rlt_trans; [|exact G7]. apply (proj2 HC); auto; [apply G4, last_In; auto|apply F', last_In; auto].
  - specialize (G7 H) as [_ G7]. lia.
Qed.

Lemma step_ok h : good_hull lb ub f df h -> total_if uniform_pos (ars_step f df lb ub maxp h)
  (fun r => match r with
    | None => True
    | Some (h', Some v) => h' = h /\ accepted_by lb ub f df (h_x h) v
    | Some (h', None) => good_hull lb ub f df h' /\ exists v, rejected_by lb ub f df (h_x h) v /\
        ((length (h_x h) < maxp)%nat /\ Permutation (h_x h') (v :: h_x h) \/ (maxp <= length (h_x h))%nat /\ h' = h)
    end).
Proof.
  intros G. pose proof G as (G1 & G2 & G3 & G4 & G5 & G6 & G7). unfold ars_step. rewrite G1, G2.
  destruct (strict_or_dup _ G3) as [SS|(j & Hj & E)].
  2:{ unfold hull_breaks. rewrite (dup_none f df _ j Hj E). apply total_ret. exact I. }
  assert (SUP : supports lb ub (h_x h)) by (repeat split; auto).
  rewrite (hull_breaks_ok lb ub f df _ HC SUP).
  assert (ZZ : (exists a, In a (h_x h) /\ df a = 0) \/ (forall a, In a (h_x h) -> df a <> 0)).
  { clear. induction (h_x h) as [|a l IH]; [right; intros ? []|]. destruct (Req_EM_T (df a) 0) as [Z|Z].
    - left. exists a. split; [left|]; auto.
    - destruct IH as [(b & Hb & Eb)|IH]; [left; exists b; split; [right|]; auto|right]. intros b [<-|Hb]; auto. }
  destruct ZZ as [ZZ|NZ].
  { intros o k HV HU. unfold bind at 1, sample_envelope. rewrite (zero_none f df (h_x h) _ ZZ) by (apply breaks_length; auto).
    exact I. }
  eapply total_bind with (Q := fun xo => exists p, xo = Some p /\ dom lb ub p).
  { intros o k HV HU.
    assert (Z : 0 < ora_r o k (DUniform 0 1) < 1).
    { split; [apply HU; lra|]. destruct (proj1 HV k (DUniform 0 1)) as (w & W & ->). lra. }
    destruct (envelope_inverse lb ub f df (h_x h) HC SUP NZ G6 G7 o k _ eq_refl Z) as (p & i & _ & _ & -> & Hi & B1 & B2 & B3 & _).
    exists p. auto. }
  intros xo (p & -> & Dp).
  destruct (eval_lower_ok lb ub f df (h_x h) p (strictly_concave _ _ _ _ HC) SUP Dp) as (lo & EL & LO & _).
  destruct (eval_upper_ok lb ub f df (h_x h) p HC SUP Dp) as (up & EU & U1 & U2 & U3).
  rewrite EL, EU.
  eapply total_bind with (Q := fun v => v = lo); [intros o k _ _; reflexivity|]. intros ? ->.
  eapply total_bind with (Q := fun v => v = up); [intros o k _ _; reflexivity|]. intros ? ->.
  eapply total_bind with (Q := fun u => 0 < u < 1).
  { intros o k HV HU. split; [apply HU; lra|]. destruct (proj1 HV k (DUniform 0 1)) as (w & W & ->). lra. }
  intros u Hu. cbv zeta. destruct (Reqb_dec u 0) as [[Q _]|[_ EZ]]; [lra|]. rewrite EZ.
  match goal with |- total_if _ (if ?b then _ else _) _ => destruct b eqn:EB end.
  { apply total_ret. split; auto. split; auto. exists up, u. repeat split; try tauto; try lra.
    destruct lo as [|w|]; try discriminate; [|contradiction]. apply Rltb_true in EB. simpl in LO. lra. }
  destruct (Rltb_dec (ln u) (f p - up)) as [[L ->]|[L ->]].
  { apply total_ret. split; auto. split; auto. exists up, u. repeat split; try tauto; try lra. }
  assert (RJ : rejected_by lb ub f df (h_x h) p) by (split; auto; exists up, u; repeat split; try tauto; try lra).
  destruct (Nat.ltb_spec (length (h_x h)) maxp).
  - apply total_ret. split.
    + rewrite <- G1, <- G2. apply good_insert; auto.
    + exists p. split; auto. left. split; auto. apply insert_perm.
  - apply total_ret. split; auto. exists p. split; auto.
Qed.

Lemma run_ok n : forall draws h, good_hull lb ub f df h -> total_if uniform_pos (ars_run n f df lb ub maxp draws h)
  (fun r => match r with
    | None => True
    | Some (ys, h') => good_hull lb ub f df h' /\ incl (h_x h) (h_x h') /\
        (length (h_x h) <= length (h_x h') <= Nat.max (length (h_x h)) maxp)%nat /\
        match draws with Some d => (length ys <= d)%nat | None => True end /\
        (length (h_x h') + length ys <= length (h_x h) + n)%nat /\
        Forall (fun v => exists x, incl x (h_x h') /\ incl (h_x h) x /\ accepted_by lb ub f df x v) ys
    end).
Proof.
  induction n as [|n IH]; intros draws h G.
  - cbn [ars_run]. apply total_ret. split; [auto|]. split; [apply incl_refl|]. split; [lia|]. split; [destruct draws; simpl; lia|]. split; [simpl; lia|constructor].
  - destruct draws as [[|d]|].
    + cbn [ars_run]. apply total_ret. split; [auto|]. split; [apply incl_refl|]. split; [lia|]. split; [simpl; lia|]. split; [simpl; lia|constructor].
    + cbn [ars_run]. eapply total_bind; [apply step_ok; auto|]. intros [[h1 [v|]]|]; cbv beta.
      * intros [-> HA]. eapply total_bind; [apply (IH (option_map Nat.pred (Some (S d))) h G)|]. intros [[ys h2]|]; cbv beta; [|intros _; apply total_ret; exact I].
        intros (A1 & A2 & A3 & A4 & A5 & A6). apply total_ret. cbn [option_map fst snd length] in *. cbn [Nat.pred] in A4.
        split; [auto|]. split; [auto|]. split; [auto|]. split; [lia|]. split; [lia|]. constructor; auto. exists (h_x h). split; [auto|]. split; [apply incl_refl|auto].
      * intros (G' & v & _ & HR). eapply total_weaken; [apply (IH (Some (S d)) h1 G')|]. intros [[ys h2]|]; auto.
        intros (A1 & A2 & A3 & A4 & A5 & A6).
        assert (I1 : incl (h_x h) (h_x h1)).
        { destruct HR as [[_ P]|[_ ->]]; [|apply incl_refl]. intros c Hc. eapply Permutation_in; [symmetry; exact P|right; auto]. }
        assert (L1 : (length (h_x h1) = length (h_x h) /\ h1 = h \/ length (h_x h1) = S (length (h_x h)) /\ length (h_x h) < maxp)%nat).
        { destruct HR as [[Q P]|[_ ->]]; [right|left]; auto. apply Permutation_length in P. simpl in P. auto. }
        split; [auto|]. split; [eapply incl_tran; eauto|]. split; [lia|]. split; [auto|]. split; [lia|].
        eapply Forall_impl; [|exact A6]. intros w (x & B1 & B2 & B3). exists x. split; [auto|]. split; [eapply incl_tran; eauto|auto].
      * intros _. apply total_ret. exact I.
    + cbn [ars_run]. eapply total_bind; [apply step_ok; auto|]. intros [[h1 [v|]]|]; cbv beta.
      * intros [-> HA]. eapply total_bind; [apply (IH (option_map Nat.pred None) h G)|]. intros [[ys h2]|]; cbv beta; [|intros _; apply total_ret; exact I].
        intros (A1 & A2 & A3 & A4 & A5 & A6). apply total_ret. cbn [option_map fst snd length] in *.
        split; [auto|]. split; [auto|]. split; [auto|]. split; [auto|]. split; [lia|]. constructor; auto. exists (h_x h). split; [auto|]. split; [apply incl_refl|auto].
      * intros (G' & v & _ & HR). eapply total_weaken; [apply (IH None h1 G')|]. intros [[ys h2]|]; auto.
        intros (A1 & A2 & A3 & A4 & A5 & A6).
        assert (I1 : incl (h_x h) (h_x h1)).
        { destruct HR as [[_ P]|[_ ->]]; [|apply incl_refl]. intros c Hc. eapply Permutation_in; [symmetry; exact P|right; auto]. }
        assert (L1 : (length (h_x h1) = length (h_x h) /\ h1 = h \/ length (h_x h1) = S (length (h_x h)) /\ length (h_x h) < maxp)%nat).
        { destruct HR as [[Q P]|[_ ->]]; [right|left]; auto. apply Permutation_length in P. simpl in P. auto. }
        split; [auto|]. split; [eapply incl_tran; eauto|]. split; [lia|]. split; [auto|]. split; [lia|].
        eapply Forall_impl; [|exact A6]. intros w (x & B1 & B2 & B3). exists x. split; [auto|]. split; [eapply incl_tran; eauto|auto].
      * intros _. apply total_ret. exact I.
Qed.
End Loop.

(** ** starting points *)
Lemma brace_good lb ub f df mode : strictly_concave_on lb ub f df -> dom lb ub mode -> df mode = 0 ->
  let '(l, u) := brace mode lb ub in
  dom lb ub l /\ dom lb ub u /\ l < mode < u /\ 0 < df l /\ df u < 0 /\ good_hull lb ub f df (hull_init f df [l; u]).
Proof.
  intros HC [D1 D2] Z. destruct (brace mode lb ub) as [l u] eqn:E. unfold brace in E. injection E as El Eu.
  assert (HL : dom lb ub l /\ l < mode).
  { subst l. split; [split|]; destruct lb as [|a|], ub as [|b|]; simpl in *; auto; try contradiction; lra. }
  assert (HU : dom lb ub u /\ mode < u).
  { subst u. split; [split|]; destruct lb as [|a|], ub as [|b|]; simpl in *; auto; try contradiction; lra. }
  destruct HL as [DL LL]. destruct HU as [DU LU].
  assert (0 < df l) by (rewrite <- Z; apply (proj2 HC); auto; split; auto).
  assert (df u < 0) by (rewrite <- Z; apply (proj2 HC); auto; split; auto).
  split; [auto|]. split; [auto|]. split; [lra|]. split; [auto|]. split; [auto|].
  unfold good_hull, hull_init. cbn [h_x h_fx h_dfx].
  assert (ES : np_sort [l; u] = [l; u]).
  { cbn. destruct (Rleb_dec l u) as [[_ ->]|[Q _]]; [auto|lra]. }
  rewrite ES. split; [auto|]. split; [auto|]. split; [repeat constructor; lra|]. split; [constructor; [auto|constructor; [auto|constructor]]|]. split; [discriminate|].
  split; intros _; simpl; auto.
Qed.

(** a uniform draw of exactly 0 *)
Lemma envelope_zero_wrong : exists f df x o p m, strictly_concave_on NegInf PosInf f df /\ supports NegInf PosInf x /\
  (forall a, In a x -> df a <> 0) /\ 0 < df (hd 0 x) /\ df (last x 0) < 0 /\ valid o /\ ora_r o 0%nat (DUniform 0 1) = 0 /\
  exists y y1, hull_breaks NegInf PosInf x (map f x) (map df x) = Some y /\ nth 1 y PosInf = Fin y1 /\
  fst (sample_envelope x (map f x) (map df x) y o 0%nat) = Ok (Some p) /\ p < y1 /\ mass f df (hd 0 x) NegInf (Fin p) m /\ 0 < m.
Proof.
  set (o := oracle_of (script_const 0 1 (1/2) 1 0)).
  assert (V : valid o) by (apply oracle_of_valid, script_const_ok; lra).
  assert (SUP : supports NegInf PosInf [-(1); 1]).
  { split; [repeat constructor; lra|]. split; [repeat constructor; simpl; auto|discriminate]. }
  assert (NZ : forall a, In a [-(1); 1] -> ndf a <> 0) by (intros a [<-|[<-|[]]]; unfold ndf; lra).
  exists nf, ndf, [-(1); 1], o, (- ln 3), (exp (1 / 2 - ln 3)).
  split; [apply nf_concave|]. split; [auto|]. split; [auto|]. split; [unfold ndf; simpl; lra|]. split; [unfold ndf; simpl; lra|].
  split; [auto|]. split; [simpl; ring|].
  exists (breaks NegInf PosInf nf ndf [-(1); 1]), 0. split; [apply hull_breaks_ok; auto; apply nf_concave|].
  assert (Y1 : nth 1 (breaks NegInf PosInf nf ndf [-(1); 1]) PosInf = Fin 0).
  { rewrite breaks_mid by (simpl; lia). f_equal. unfold inter, nf, ndf. simpl. field. }
  split; [auto|]. split; [|split; [|split]].
  - destruct (envelope_zero NegInf PosInf nf ndf [-(1); 1] nf_concave SUP NZ (fun _ => ltac:(unfold ndf; simpl; lra)) (fun _ => ltac:(unfold ndf; simpl; split; [lra|lia])) o 0%nat ltac:(simpl; ring) ltac:(unfold ndf; simpl; lra)) as (p & -> & EP).
    do 2 f_equal. change (length [-(1); 1]) with 2%nat in EP. cbn [rsum Nat.sub] in EP. rewrite Y1 in EP.
    change (nth 0 (breaks NegInf PosInf nf ndf [-(1); 1]) PosInf) with NegInf in EP. change (nth 2 (breaks NegInf PosInf nf ndf [-(1); 1]) PosInf) with PosInf in EP.
    cbn [nth] in EP. unfold val, tangent, nf, ndf in EP.
    replace (- (1) ^ 2 / 2 + (p - 1) * - (1)) with (1/2 - p) in EP by field.
    replace (- (1) ^ 2 / 2 + (0 - 1) * - (1)) with (1/2) in EP by field.
    replace (- (- (1)) ^ 2 / 2 + (0 - - (1)) * - - (1)) with (1/2) in EP by field.
    assert (Q : exp (1/2 - p) = exp (1/2 + ln 3)) by (rewrite EP, exp_plus, exp_ln by lra; field).
    apply exp_inv in Q. f_equal. lra.
  - assert (0 < ln 3) by (rewrite <- ln_1; apply ln_increasing; lra). lra.
  - replace (exp (1 / 2 - ln 3)) with ((val nf ndf (hd 0 [-(1); 1]) (Fin (- ln 3)) - val nf ndf (hd 0 [-(1); 1]) NegInf) / ndf (hd 0 [-(1); 1])).
    + apply mass_ok; unfold ndf; simpl; auto; lra.
    + unfold val, tangent, nf, ndf. cbn [hd]. replace (- - (1)) with 1 by ring. replace (- (-(1)) ^ 2 / 2 + (- ln 3 - - (1)) * 1) with (1/2 - ln 3) by (simpl; field). field.
  - apply exp_pos.
Qed.

(** ** statements in terms of hull_breaks *)
Lemma breaks_statement lb ub f df x : strictly_concave_on lb ub f df -> supports lb ub x ->
  exists y, hull_breaks lb ub x (map f x) (map df x) = Some y /\ length y = S (length x) /\
   nth 0 y PosInf = lb /\ nth (length x) y PosInf = ub /\
   (forall j, (j < length x)%nat -> elt (nth j y PosInf) (Fin (nth j x 0)) /\ elt (Fin (nth j x 0)) (nth (S j) y PosInf)) /\
   (forall j v, (S j < length x)%nat -> nth (S j) y PosInf = Fin v -> tangent f df (nth j x 0) v = tangent f df (nth (S j) x 0) v).
Proof.
  intros HC HS. exists (breaks lb ub f df x). split; [apply hull_breaks_ok; auto|]. split; [apply breaks_length, HS|].
  split; [reflexivity|]. split; [apply breaks_last, HS|]. split; [intros; apply breaks_around; auto|].
  intros j v Hj E. rewrite breaks_mid in E by auto. inversion E as [E']. destruct HS as (HS & HD & _). rewrite Forall_forall in HD.
  pose proof (proj2 HC (nth j x 0) (nth (S j) x 0) ltac:(apply HD, nth_In; lia) ltac:(apply HD, nth_In; lia) ltac:(apply sorted_nth_lt; auto; lia)) as D.
  unfold inter, tangent. field. lra.
Qed.
Lemma upper_statement lb ub f df x y v : strictly_concave_on lb ub f df -> supports lb ub x -> dom lb ub v ->
  hull_breaks lb ub x (map f x) (map df x) = Some y ->
  exists up, eval_upper x (map f x) (map df x) y v = Ok up /\ f v <= up /\
    (exists a, In a x /\ up = tangent f df a v) /\ (forall a, In a x -> up <= tangent f df a v).
Proof. intros HC HS Hv E. rewrite (hull_breaks_ok lb ub f df x HC HS) in E. inversion E; subst. apply eval_upper_ok; auto. Qed.
Lemma envelope_statement lb ub f df x y : strictly_concave_on lb ub f df -> supports lb ub x ->
  (forall a, In a x -> df a <> 0) -> (lb = NegInf -> 0 < df (hd 0 x)) ->
  (ub = PosInf -> df (last x 0) < 0 /\ (2 <= length x)%nat) ->
  hull_breaks lb ub x (map f x) (map df x) = Some y ->
  forall o k z, ora_r o k (DUniform 0 1) = z -> 0 < z < 1 ->
  exists p, fst (sample_envelope x (map f x) (map df x) y o k) = Ok (Some p) /\ dom lb ub p /\ envelope_quantile f df x y z p.
Proof.
  intros HC HS NZ H1 H2 E o k z EZ HZ. rewrite (hull_breaks_ok lb ub f df x HC HS) in E. inversion E; subst y.
  destruct (envelope_inverse lb ub f df x HC HS NZ H1 H2 o k z EZ HZ) as (p & i & M & m & A1 & A2 & A3 & A4 & A5 & A6 & A7 & A8).
  exists p. split; [auto|]. split; [auto|]. exists i, M, m. auto 10.
Qed.
