(** The sections of the two chains on known paths. *)
From Coquelicot Require Import Rcomplements Hierarchy RInt.
From Coq Require Import Reals List Bool Arith ZArith Lra Lia Psatz Permutation FunctionalExtensionality.
From Verif Require Import Base Np Rng L_list L_rng M_mjp M_hit M_path M_skel M_seed SpecSkel SpecSeed SpecSw L_seed M_bf M_models M_sw M_mcem M_ito SpecIto SpecLaw SpecCoin SpecEst SpecExact SpecExact2 SpecFactory Mat
  L_law L_law2 L_law3 L_law4 L_law5 L_law6 L_exact3 L_exact4 L_sde3 L_exact6 L_exact7 L_mat L_occ L_step3 L_sw L_sw4 L_sw11 L_em5 L_em6 L_step L_step2 L_ito L_ito2.
Import ListNotations.
Local Open Scope R_scope.

Lemma Forall2_index : forall A B (Q : A -> B -> Prop) l m, length l = length m -> (forall i a b, nth_error l i = Some a -> nth_error m i = Some b -> Q a b) -> Forall2 Q l m.
Proof.
  intros A B Q l. induction l as [|a l IH]; intros [|b m] L H; try discriminate; constructor; [apply (H 0%nat); reflexivity|]. apply IH; [cbn in L; lia|]. intros i. apply (H (S i)).
Qed.
Definition data {B} (z : list B) (d : B) (q e : nat -> R) : list (B * R * R) := map (fun j => (nth j z d, exp (- q j), e j)) (seq 0 (length z)).
Lemma data_payload : forall B (z : list B) d q e, map (fun d => fst (fst d)) (data z d q e) = z.
Proof.
  intros B z d q e. unfold data. rewrite map_map. cbn [fst]. apply nth_ext with (d := d) (d' := d); [rewrite map_length, seq_length; reflexivity|].
  intros i Hi. rewrite map_length, seq_length in Hi. rewrite (nth_indep _ d (nth 0 z d)) by (rewrite map_length, seq_length; exact Hi). rewrite (map_nth (fun j => nth j z d)), seq_nth by exact Hi. reflexivity.
Qed.
Lemma data_prods : forall B (z : list B) d q e, prods (data z d q e) = exp (- rsum (length z) q).
Proof.
  intros B z d q e. unfold prods, data. rewrite map_map. cbn [fst snd]. rewrite <- rsum_list. generalize (seq 0 (length z)). intros l. induction l as [|j l IH]; cbn [map fold_right]; [rewrite Ropp_0, exp_0; reflexivity|].
  rewrite IH, <- exp_plus. f_equal. ring.
Qed.
Lemma data_errs : forall B (z : list B) d q e, errs (data z d q e) = rsum (length z) e.
Proof. intros B z d q e. unfold errs, data. rewrite map_map. cbn [snd]. apply rsum_list. Qed.
Lemma data_nth : forall B (z : list B) d q e i x, nth_error (data z d q e) i = Some x -> exists s, nth_error z i = Some s /\ x = (s, exp (- q i), e i).
Proof.
  intros B z d q e i x H. unfold data in H. rewrite nth_error_map in H. destruct (nth_error (seq 0 (length z)) i) eqn:E; [|discriminate]. cbn in H. injection H as <-.
  assert (Hi : (i < length z)%nat). { rewrite <- (seq_length (length z) 0). apply nth_error_Some. congruence. }
  apply nth_error_nth with (d := 0%nat) in E. rewrite seq_nth in E by exact Hi. cbn in E. subst. exists (nth n z d). split; [apply nth_error_nth'; exact Hi|reflexivity].
Qed.
Lemma exp_unit : forall x, 0 <= x -> 0 <= exp (- x) <= 1.
Proof. intros x H. split; [apply Rlt_le, exp_pos|]. rewrite <- exp_0. destruct H as [H| <-]; [apply Rlt_le, exp_increasing; lra|rewrite Ropp_0; lra]. Qed.
Lemma regular_pos : forall f T b v, regular f T b v -> 0 <= v.
Proof. intros f T b v (HT & Hb & Hf & Hv & _). replace 0 with ((T - 0) * 0) by ring. refine (is_RInt_le _ _ 0 T _ _ _ (is_RInt_const 0 T 0) Hv _); [lra|]. intros u Hu. apply Hf. lra. Qed.
Definition dseed : skel := mk_skel [] [] 0 0 0 None.

(** ** hidden states *)
Lemma hidden_coins_good : forall path vol disc bounds z h n v le ue batch, known_hidden path vol disc bounds z h n v le ue -> (0 < batch)%nat ->
  good (hidden_coins_with (pinned path) vol disc bounds batch z h)
    (z, exp (- rsum n (fun j => v j - span (a_t h) j * le j)), rsum n (overflow (fun j => (ue j - le j) * span (a_t h) j) batch)).
Proof.
  intros path vol disc bounds z h n v le ue batch [(Hn & Hz & H1 & H2 & H3) HK] HB. unfold hidden_coins_with.
  set (q := fun j => v j - span (a_t h) j * le j). set (e := overflow (fun j => (ue j - le j) * span (a_t h) j) batch).
  assert (LZ : length (zip3 z (a_y h) (sw_normops vol h)) = n) by (unfold zip3; rewrite !combine_length, (normops_len _ _ n) by auto; lia).
  pose proof (coins_all _ _ (fun p : skel * nat * (normop * normop) => let '(z_, y0, n) := p in do r <- seed_coin_with (pinned path) (fst n) (snd n) z_ (disc y0) (bounds y0) batch; ret (fst (fst r), snd r))
    (zip3 z (a_y h) (sw_normops vol h)) (data z dseed q e)) as C.
  rewrite data_payload, data_prods, data_errs, Hz in C. apply C; clear C.
  - intros E. rewrite E in LZ. cbn in LZ. lia.
  - apply Forall2_index; [rewrite LZ; unfold data; rewrite map_length, seq_length; auto|]. intros i p x E D. apply data_nth in D as (s & Es & ->).
    assert (Hi : (i < n)%nat) by (rewrite <- Hz; apply nth_error_Some; congruence).
    unfold zip3 in E. rewrite !nth_error_combine, Es in E. rewrite (nth_error_nth' (a_y h) 0%nat) in E by lia. rewrite (sw_normops_nth _ _ n) in E by auto. cbv zeta in E. injection E as <-.
    specialize (HK i s Es). cbv zeta in HK. fold (span (a_t h) i). cbn [fst snd]. set (y := nth i (a_y h) 0%nat) in *. set (T := span (a_t h) i) in *.
    destruct (seed_coin_law path _ _ (disc y) (bounds y) s T (sqrt T * vol y) _ _ (v i) (le i) (ue i) batch (sw_operators (vol y) T (nth i (a_v h) 0) (nth (S i) (a_v h) 0)) HK HB) as (RS & TT & p & Hp & HE).
    set (m := seed_coin_with _ _ _ _ _ _ _) in *. split; [|split].
    + intros o k V. specialize (TT o k V). specialize (RS o k V). unfold bind. destruct (m o k) as [[r|x|] k1]; try contradiction. cbn in *. apply RS.
    + apply exp_unit. apply (regular_pos _ _ _ _ (proj2 HK)).
    + exists p. split; [|exact HE]. unfold chance. apply (average_map _ _ m (fun r => (fst (fst r), snd r))). exact Hp.
Qed.
Lemma weight_known : forall path vol disc bounds z h n v le ue, known_hidden path vol disc bounds z h n v le ue ->
  rsum n (low_integral vol bounds h z) = - rsum n (fun j => span (a_t h) j * le j).
Proof.
  intros path vol disc bounds z h n v le ue [(Hn & Hz & H1 & H2 & H3) HK]. replace (- rsum n (fun j => span (a_t h) j * le j)) with (-1 * rsum n (fun j => span (a_t h) j * le j)) by ring. rewrite <- rsum_scal_l. apply rsum_ext. intros j Hj.
  unfold low_integral. destruct (nth_error z j) as [s|] eqn:E; [|apply nth_error_None in E; lia]. specialize (HK j s E). cbv zeta in *. unfold span in *. rewrite (low_exact _ _ _ _ _ _ _ _ _ _ _ HK). ring.
Qed.
Lemma scaled_error : forall w p x q E, x = w + - q -> Rabs (p - exp (- q)) <= E -> Rabs (exp w * p - exp x) <= exp w * E.
Proof.
  intros w p x q E -> H. rewrite exp_plus, <- Rmult_minus_distr_l, Rabs_mult, Rabs_pos_eq by (apply Rlt_le, exp_pos). apply Rmult_le_compat_l; [apply Rlt_le, exp_pos|exact H].
Qed.
Definition balanced (pre : bool) (pr dn dp acc stay acc' stay' : R) : Prop :=
  dn * acc = dp * acc' /\ (pre = false -> acc + stay = acc' + stay') /\ (pre = false -> pr = 0 -> acc * (dn + dp) = dp * (acc + stay)).
Lemma hidden_law : forall path vol disc bounds loglik batch pre pr maxf zn hn zp hp nn np vn len uen vp lep uep,
  known_hidden path vol disc bounds zn hn nn vn len uen -> known_hidden path vol disc bounds zp hp np vp lep uep -> (0 < batch)%nat -> 0 <= pr <= 1 ->
  let L h := fst (loglik h None) + snd (loglik h None) : R in
  exists dn dp acc stay acc' stay',
    Rabs (dn - exp (L hn - rsum nn vn)) <= exp (L hn - rsum nn (fun j => span (a_t hn) j * len j)) * rsum nn (overflow (fun j => (uen j - len j) * span (a_t hn) j) batch) /\
    Rabs (dp - exp (L hp - rsum np vp)) <= exp (L hp - rsum np (fun j => span (a_t hp) j * lep j)) * rsum np (overflow (fun j => (uep j - lep j) * span (a_t hp) j) batch) /\
    (forall f, average (hidden_section_with (pinned path) vol disc bounds loglik batch pre pr maxf zn hn zp hp) f (acc * f (true, zp, hp) + stay * f (false, zn, hn))) /\
    (forall f, average (hidden_section_with (pinned path) vol disc bounds loglik batch pre pr maxf zp hp zn hn) f (acc' * f (true, zn, hn) + stay' * f (false, zp, hp))) /\
    dn * acc = dp * acc' /\ (pre = false -> acc + stay = acc' + stay') /\ (pre = false -> pr = 0 -> acc * (dn + dp) = dp * (acc + stay)).
Proof.
  intros path vol disc bounds loglik batch pre pr maxf zn hn zp hp nn np vn len uen vp lep uep KN KP HB HP L.
  pose proof (hidden_coins_good _ _ _ _ _ _ _ _ _ _ batch KN HB) as (TN & _ & pn & PN & EN). pose proof (hidden_coins_good _ _ _ _ _ _ _ _ _ _ batch KP HB) as (TP & _ & pp & PP & EP).
  set (wn := L hn - rsum nn (fun j => span (a_t hn) j * len j)). set (wp := L hp - rsum np (fun j => span (a_t hp) j * lep j)).
  assert (LAW : forall z1 h1 z2 h2 w1 w2 p1 p2, (forall o k, eval_hidden_weight vol bounds loglik z1 h1 o k = (Ok w1, k)) -> (forall o k, eval_hidden_weight vol bounds loglik z2 h2 o k = (Ok w2, k)) ->
    total (hidden_coins_with (pinned path) vol disc bounds batch z1 h1) (fun r => snd r = z1) -> total (hidden_coins_with (pinned path) vol disc bounds batch z2 h2) (fun r => snd r = z2) ->
    chance (hidden_coins_with (pinned path) vol disc bounds batch z1 h1) fst p1 -> chance (hidden_coins_with (pinned path) vol disc bounds batch z2 h2) fst p2 ->
    forall f, average (hidden_section_with (pinned path) vol disc bounds loglik batch pre pr maxf z2 h2 z1 h1) f
      (let c := exp w1 / (exp w1 + exp w2) in total_hit p1 p2 pr maxf pre c c * f (true, z1, h1) + total_keep p1 p2 pr maxf pre c c * f (false, z2, h2))).
  { intros z1 h1 z2 h2 w1 w2 p1 p2 W1 W2 T1 T2 P1 P2 f. cbv zeta. unfold hidden_section_with. set (c1 := hidden_coins_with (pinned path) vol disc bounds batch z1 h1) in *. set (c2 := hidden_coins_with (pinned path) vol disc bounds batch z2 h2) in *.
    eapply average_comp. { intros o k V. rewrite (run_bind _ _ _ _ _ _ (W2 o k)), (run_bind _ _ _ _ _ _ (W1 o k)). reflexivity. }
    unfold hidden_step. match goal with |- average (bind (barker_step _ _ _ (run_twocoin ?fl _ _ _ _) _ _ _ _ _ _) _) _ _ =>
      assert (SF : forall (first : bool) o k, valid o -> fl first (z1, z2) o k = (do r <- (if first then c1 else c2); ret (r, (z1, z2))) o k) end.
    { intros first o' k' V'. destruct first; cbn [fst snd].
      - specialize (T1 o' k' V'). fold c1. unfold bind, ret in *. destruct (c1 o' k') as [[r|x|] k1]; try contradiction. cbn in *. rewrite T1. reflexivity.
      - specialize (T2 o' k' V'). fold c2. unfold bind, ret in *. destruct (c2 o' k') as [[r|x|] k1]; try contradiction. cbn in *. rewrite T2. reflexivity. }
    match goal with |- average (bind (barker_step _ _ _ ?run _ _ _ _ _ _) _) _ _ => pose proof (run_known _ (z1, z2) c1 c2 z1 z2 p1 p2 pr maxf SF T1 T2 P1 P2 HP : run_law z1 z2 p1 p2 pr maxf run) as RL end.
    pose proof (step_law z1 z2 p1 p2 pr maxf _ _ (false, z2, h2) (fun accept z_acc => (accept, z_acc, if (accept : bool) then h1 else h2)) pre w1 w2 w1 w2 (z1, z2) RL eq_refl f) as SL. exact SL. }
  assert (WN : forall o k, eval_hidden_weight vol bounds loglik zn hn o k = (Ok wn, k)).
  { intros o k. pose proof KN as [(Hn & Hz & H1 & H2 & H3) _]. rewrite (hidden_weight_value _ _ _ _ _ nn) by auto. rewrite (weight_known _ _ _ _ _ _ _ _ _ _ KN). do 2 f_equal. unfold wn, L. ring. }
  assert (WP : forall o k, eval_hidden_weight vol bounds loglik zp hp o k = (Ok wp, k)).
  { intros o k. pose proof KP as [(Hn & Hz & H1 & H2 & H3) _]. rewrite (hidden_weight_value _ _ _ _ _ np) by auto. rewrite (weight_known _ _ _ _ _ _ _ _ _ _ KP). do 2 f_equal. unfold wp, L. ring. }
  destruct (step_balance pre wp wn pp pn pr maxf (chance_range _ _ _ _ PP) (chance_range _ _ _ _ PN) HP) as (B1 & B2 & B3).
  eexists (exp wn * pn), (exp wp * pp), _, _, _, _.
  split; [refine (scaled_error wn pn _ _ _ _ EN); unfold wn; rewrite rsum_minus; ring|]. split; [refine (scaled_error wp pp _ _ _ _ EP); unfold wp; rewrite rsum_minus; ring|].
  split; [exact (LAW zp hp zn hn wp wn pp pn WP WN TP TN PP PN)|]. split; [exact (LAW zn hn zp hp wn wp pn pp WN WP TN TP PN PP)|].
  split; [exact B1|]. split; [exact B2|exact B3].
Qed.
