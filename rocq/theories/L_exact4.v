(** The bridge update of the Ito chain on known paths. *)
From Coquelicot Require Import Rcomplements Hierarchy RInt.
From Coq Require Import Reals List Bool Arith ZArith Lra Lia Psatz.
From Coq Require Import FunctionalExtensionality.
From Verif Require Import Base Np Rng L_list L_rng M_mjp M_hit M_path M_skel M_seed SpecSkel SpecSeed L_seed M_bf M_models M_sw M_mcem M_ito SpecIto SpecLaw SpecCoin SpecEst SpecExact SpecFactory
  L_law L_law2 L_law5 L_law6 L_exact L_exact2 L_exact3 L_sde3 L_step3 L_ito L_ito2.
Import ListNotations.
Local Open Scope R_scope.

Lemma bridge_instance : forall fuel mp maxp reduce disc bounds batch pr maxf i thi zn zp t vt o k,
  update_sde_bridge fuel mp maxp reduce disc bounds batch pr maxf i thi zn zp t vt o k = bridge_with (interpolate_skeleton fuel mp maxp) reduce disc bounds batch pr maxf i thi zn zp t vt o k.
Proof.
  assert (L : forall fuel mp maxp n norm denorm disc bd t le p s, seed_loop fuel mp maxp n norm denorm disc bd t le p s = seed_loop_with (interpolate_skeleton fuel mp maxp) n norm denorm disc bd t le p s).
  { intros fuel mp maxp n norm denorm disc bd t le. induction n as [|n IH]; intros p s; [reflexivity|]. cbn [seed_loop seed_loop_with]. f_equal. apply functional_extensionality. intros [[bt p']|]; [|reflexivity]. cbv zeta.
    change (interp_seed_with (interpolate_skeleton fuel mp maxp)) with (interpolate_seed fuel mp maxp). f_equal. apply functional_extensionality. intros q. f_equal. apply functional_extensionality. intros low. rewrite IH. reflexivity. }
  intros. assert (C : forall norm denorm s dc bd m, seed_poisson_coin fuel mp maxp norm denorm s dc bd m = seed_coin_with (interpolate_skeleton fuel mp maxp) norm denorm s dc bd m).
  { intros. unfold seed_poisson_coin, seed_coin_with. f_equal. apply functional_extensionality. intros [[ts le] ue]. destruct (all_some (gaps ue le)); [|reflexivity].
    f_equal. apply functional_extensionality. intros it. f_equal. apply functional_extensionality. intros ft. f_equal. apply functional_extensionality. intros p. rewrite L. reflexivity. }
  assert (F : forall z ts vs, flip_sde_coins fuel mp maxp reduce disc bounds batch thi z ts vs = flip_coins_with (interpolate_skeleton fuel mp maxp) reduce disc bounds batch thi z ts vs).
  { intros. unfold flip_sde_coins, flip_coins_with. f_equal. f_equal. apply functional_extensionality. intros p. rewrite C. reflexivity. }
  unfold update_sde_bridge, bridge_with. f_equal. f_equal. apply functional_extensionality. intros ts.
  match goal with |- bind _ (fun a => bind _ (fun b => bind (sample_twocoin ?f _ _ _ _ _ _) _)) = bind _ (fun a' => bind _ (fun b' => bind (sample_twocoin ?g _ _ _ _ _ _) _)) => replace g with f; [reflexivity|] end.
  apply functional_extensionality. intros first. apply functional_extensionality. intros s. rewrite !F. reflexivity.
Qed.

(** ** coins that leave the state alone *)
Section Still.
Context {A St : Type} (flip : bool -> St -> M ((bool * A) * St)) (st : St) (c1 c2 : M (bool * A)).
Hypothesis HF : forall (first : bool) o k, valid o -> flip first st o k = (do r <- (if first then c1 else c2); ret (r, st)) o k.
Lemma still_loop : forall v e esc n o k, valid o ->
  twocoin_loop (m := M) (@ret) (@bind) o_ulog_lt o_u_lt flip v e esc n st o k =
  (do r <- twocoin_loop (m := M) (@ret) (@bind) o_ulog_lt o_u_lt (memoryless c1 c2) v e esc n tt; ret (fst r, st)) o k.
Proof.
  intros v e esc n. induction n as [|n IH]; intros o k V; [reflexivity|]. cbn [twocoin_loop].
  unfold bind at 1. symmetry. unfold bind at 1. unfold bind at 1. symmetry. destruct (o_ulog_lt v o k) as [[first|x|] k1]; try reflexivity.
  unfold bind at 1. rewrite (HF first o k1 V). unfold memoryless. unfold bind at 1. symmetry. unfold bind at 1. unfold bind at 1. symmetry.
  destruct ((if first then c1 else c2) o k1) as [[[success prop]|x|] k2]; try reflexivity. unfold ret at 1. symmetry. unfold ret at 1. symmetry. cbv iota beta.
  destruct success; [reflexivity|]. unfold bind at 1. symmetry. unfold bind at 1. symmetry. destruct (o_u_lt e o k2) as [[ee|x|] k3]; try reflexivity. destruct ee; [reflexivity|].
  rewrite (IH o k3 V). reflexivity.
Qed.
Lemma still_sampler : forall w1 w2 e prop0 n o k, valid o ->
  sample_twocoin flip w1 w2 e prop0 n st o k = (do r <- sample_twocoin (memoryless c1 c2) w1 w2 e prop0 n tt; ret (fst r, st)) o k.
Proof.
  intros w1 w2 e prop0 n o k V. unfold sample_twocoin, twocoin. unfold bind at 1. rewrite (still_loop _ _ _ _ o k V). unfold bind.
  match goal with |- context [twocoin_loop (m := M) ?x1 ?x2 ?x3 ?x4 ?x5 ?x6 ?x7 ?x8 n tt o k] => destruct (twocoin_loop (m := M) x1 x2 x3 x4 x5 x6 x7 x8 n tt o k) as [[[[x|] []]|x|] k1] end; reflexivity.
Qed.
End Still.
(** ** the law of the sampler for coins that hand back what they were given *)
Lemma known_law : forall A (c1 c2 : M (bool * A)) (a1 a2 : A) w1 w2 p1 p2 e n,
  total c1 (fun r => snd r = a1) -> total c2 (fun r => snd r = a2) -> chance c1 fst p1 -> chance c2 fst p2 -> 0 <= e <= 1 ->
  let c := exp w1 / (exp w1 + exp w2) in
  let q := (c * (1 - p1) + (1 - c) * (1 - p2)) * (1 - e) in
  forall f, average (do r <- sample_twocoin (memoryless c1 c2) w1 w2 e a2 n tt; ret (snd (fst r))) f
    (c * p1 * geometric q n * f a1 + (c * (1 - p1) * e + (1 - c) * (p2 + e * (1 - p2))) * geometric q n * f a2).
Proof.
  intros A c1 c2 a1 a2 w1 w2 p1 p2 e n T1 T2 P1 P2 He c q f. apply average_map.
  assert (T1' : total c1 (fun _ => True)) by (intros o k V; specialize (T1 o k V); destruct (fst (c1 o k)); auto).
  assert (T2' : total c2 (fun _ => True)) by (intros o k V; specialize (T2 o k V); destruct (fst (c2 o k)); auto).
  assert (R1 : forall g h : bool * A -> R, (forall b, g (b, a1) = h (b, a1)) -> forall v, average c1 g v -> average c1 h v).
  { intros g h E v. apply average_swap. intros o k V. specialize (T1 o k V). destruct (fst (c1 o k)) as [[b a]|x|]; auto. cbn in T1. subst a. apply E. }
  assert (R2 : forall g h : bool * A -> R, (forall b, g (b, a2) = h (b, a2)) -> forall v, average c2 g v -> average c2 h v).
  { intros g h E v. apply average_swap. intros o k V. specialize (T2 o k V). destruct (fst (c2 o k)) as [[b a]|x|]; auto. cbn in T2. subst a. apply E. }
  pose proof (chance_not _ _ _ _ P1 T1') as N1. pose proof (chance_not _ _ _ _ P2 T2') as N2.
  assert (Ee : clip01 e = e) by (unfold clip01; rewrite Rmin_left, Rmax_right by lra; reflexivity).
  assert (Ec : clip01 (exp (w1 - logaddexp w1 w2)) = c) by apply barker_clip.
  unfold sample_twocoin, twocoin. apply strip.
  assert (S1 : average c1 (fun r => if fst r then f (snd r) else 0) (f a1 * p1)) by (refine (R1 _ _ _ _ (average_scal _ _ _ _ (f a1) P1)); intros []; cbn; ring).
  assert (S2 : average c2 (fun r => if fst r then f (snd r) else 0) (f a2 * p2)) by (refine (R2 _ _ _ _ (average_scal _ _ _ _ (f a2) P2)); intros []; cbn; ring).
  assert (Y1 : average c1 (fun r => if fst r then 0 else f a2) (f a2 * (1 - p1))) by (refine (R1 _ _ _ _ (average_scal _ _ _ _ (f a2) N1)); intros []; cbn; ring).
  assert (Y2 : average c2 (fun r => if fst r then 0 else f a2) (f a2 * (1 - p2))) by (refine (R2 _ _ _ _ (average_scal _ _ _ _ (f a2) N2)); intros []; cbn; ring).
  pose proof (L_law6.loop_law c1 c2 (w1 - logaddexp w1 w2) e (fun _ => a2) f f f f 0 (f a1 * p1) (f a2 * p2) (f a2 * (1 - p1)) (f a2 * (1 - p2)) p1 p2 S1 S2 Y1 Y2 N1 N2 n) as L.
  rewrite Ec, Ee in L. fold q in L.
  refine (average_ext _ _ _ _ _ _ (average_eq _ _ _ _ _ _ L)); [|ring].
  intros [[[[[|] [|]] a]|] []]; reflexivity.
Qed.
(** ** the bridge *)
Lemma coin_one : forall path reduce disc bounds batch thi s d v0 v1 v le ue, exact_on path (disc thi) (bounds thi) s d (sqrt d) (reduce thi v0) (reduce thi v1) v le ue -> (0 < batch)%nat ->
  let c := do r <- flip_coins_with (pinned path) reduce disc bounds batch thi [s] [0; d] [v0; v1]; do q <- only (snd r); ret (fst r, q) in
  total c (fun r => snd r = s) /\ exists p, chance c fst p /\ Rabs (p - exp (- (v - d * le))) <= poisson_tail ((ue - le) * d) batch.
Proof.
  intros path reduce disc bounds batch thi s d v0 v1 v le ue HX HB c.
  destruct (seed_coin_law path _ _ (disc thi) (bounds thi) s d (sqrt d) _ _ v le ue batch (ito_operators d (reduce thi v0) (reduce thi v1)) HX HB) as (RS & TT & p & Hp & HE).
  set (m := seed_coin_with (pinned path) (ito_norm d (reduce thi v0) (reduce thi v1)) (ito_denorm d (reduce thi v0) (reduce thi v1)) s (disc thi) (bounds thi) batch) in *.
  assert (RUN : forall o k, c o k = (do r <- m; ret (fst (fst r), snd r)) o k).
  { intros o k. unfold c, flip_coins_with, ito_normops. cbn [np_diff map tl zip3 combine fst snd]. unfold zip3. cbn [combine map map_m fst snd]. simpl nsub. replace (d - 0) with d by ring. fold m.
    unfold bind. destruct (m o k) as [[r|x|] k1]; try reflexivity. unfold ret, collect_coins, only. cbn [forallb map fst snd]. rewrite andb_true_r. reflexivity. }
  split.
  - intros o k V. rewrite RUN. specialize (TT o k V). specialize (RS o k V). unfold bind. destruct (m o k) as [[r|x|] k1]; cbn in *; auto. apply RS.
  - exists p. split; [|exact HE]. unfold chance. apply (average_comp _ _ _ _ _ (fun o k _ => RUN o k)). apply average_map. exact Hp.
Qed.
Lemma low_exact : forall path disc bounds s T scale x0 x1 v le ue, exact_on path disc bounds s T scale x0 x1 v le ue -> low_level bounds scale x0 x1 s = le.
Proof. intros path disc bounds s T scale x0 x1 v le ue [[inf E] _]. unfold low_level. rewrite E. reflexivity. Qed.
Lemma bridge_law : forall path reduce disc bounds batch pr maxf i thi zn zp t vt a b v0 v1 vn len uen vp lep uep,
  nth_error t i = Some a -> nth_error t (S i) = Some b -> nth_error vt i = Some v0 -> nth_error vt (S i) = Some v1 ->
  let d := b - a in
  exact_on path (disc thi) (bounds thi) zn d (sqrt d) (reduce thi v0) (reduce thi v1) vn len uen ->
  exact_on path (disc thi) (bounds thi) zp d (sqrt d) (reduce thi v0) (reduce thi v1) vp lep uep -> (0 < batch)%nat -> 0 <= pr <= 1 ->
  exists dn dp acc stay acc' stay',
    Rabs (dn - exp (- vn)) <= exp (- d * len) * poisson_tail ((uen - len) * d) batch /\
    Rabs (dp - exp (- vp)) <= exp (- d * lep) * poisson_tail ((uep - lep) * d) batch /\
    (forall f, average (bridge_with (pinned path) reduce disc bounds batch pr maxf i thi zn zp t vt) f (acc * f zp + stay * f zn)) /\
    (forall f, average (bridge_with (pinned path) reduce disc bounds batch pr maxf i thi zp zn t vt) f (acc' * f zn + stay' * f zp)) /\
    dn * acc = dp * acc' /\ acc + stay = acc' + stay' /\ (pr = 0 -> acc * (dn + dp) = dp * (acc + stay)).
Proof.
  intros path reduce disc bounds batch pr maxf i thi zn zp t vt a b v0 v1 vn len uen vp lep uep T1 T2 V1 V2 d XN XP HB HP.
  set (coin := fun s => do r <- flip_coins_with (pinned path) reduce disc bounds batch thi [s] [0; d] [v0; v1]; do q <- only (snd r); ret (fst r, q)).
  destruct (coin_one path reduce disc bounds batch thi zn d v0 v1 vn len uen XN HB) as (TN & pn & PN & EN).
  destruct (coin_one path reduce disc bounds batch thi zp d v0 v1 vp lep uep XP HB) as (TP & pp & PP & EP).
  fold (coin zn) in TN, PN. fold (coin zp) in TP, PP.
  set (wn := - d * len). set (wp := - d * lep).
  assert (RUN : forall z1 z2 w1 w2, w1 = - d * low_level (bounds thi) (sqrt d) (reduce thi v0) (reduce thi v1) z1 -> w2 = - d * low_level (bounds thi) (sqrt d) (reduce thi v0) (reduce thi v1) z2 ->
    total (coin z1) (fun r => snd r = z1) -> total (coin z2) (fun r => snd r = z2) -> forall o k, valid o ->
    bridge_with (pinned path) reduce disc bounds batch pr maxf i thi z2 z1 t vt o k = (do r <- sample_twocoin (memoryless (coin z1) (coin z2)) w1 w2 pr z2 maxf tt; ret (snd (fst r))) o k).
  { intros z1 z2 w1 w2 E1 E2 Z1 Z2 o k V. unfold bridge_with. rewrite (sub_t_two _ _ _ _ T1 T2), (sub_v_two _ _ _ _ V1 V2). fold d.
    erewrite run_bind by reflexivity. rewrite (run_bind _ _ _ _ _ _ (one_weight reduce bounds thi d v0 v1 z2 o k)), (run_bind _ _ _ _ _ _ (one_weight reduce bounds thi d v0 v1 z1 o k)), <- E1, <- E2.
    match goal with |- bind (sample_twocoin ?f _ _ _ _ _ _) _ o k = _ =>
      assert (SF : forall (first : bool) o k, valid o -> f first (z1, z2) o k = (do r <- (if first then coin z1 else coin z2); ret (r, (z1, z2))) o k) end.
    { intros first o' k' V'. destruct first; cbn [fst snd].
      - specialize (Z1 o' k' V'). unfold coin, bind, ret in *. destruct (flip_coins_with _ _ _ _ _ _ [z1] _ _ o' k') as [[r|x|] k1]; try reflexivity. destruct (only (snd r) o' k1) as [[q|x|] k2]; try reflexivity. cbn in *. rewrite Z1. reflexivity.
      - specialize (Z2 o' k' V'). unfold coin, bind, ret in *. destruct (flip_coins_with _ _ _ _ _ _ [z2] _ _ o' k') as [[r|x|] k1]; try reflexivity. destruct (only (snd r) o' k1) as [[q|x|] k2]; try reflexivity. cbn in *. rewrite Z2. reflexivity. }
    unfold bind at 1. rewrite (still_sampler _ (z1, z2) (coin z1) (coin z2) SF w1 w2 pr z2 maxf o k V). unfold bind, ret. destruct (sample_twocoin _ w1 w2 pr z2 maxf tt o k) as [[r|x|] k1]; reflexivity. }
  pose proof (low_exact _ _ _ _ _ _ _ _ _ _ _ XN) as LN. pose proof (low_exact _ _ _ _ _ _ _ _ _ _ _ XP) as LP.
  assert (Wn : wn = - d * low_level (bounds thi) (sqrt d) (reduce thi v0) (reduce thi v1) zn) by (rewrite LN; reflexivity).
  assert (Wp : wp = - d * low_level (bounds thi) (sqrt d) (reduce thi v0) (reduce thi v1) zp) by (rewrite LP; reflexivity).
  pose proof (known_law _ (coin zp) (coin zn) zp zn wp wn pp pn pr maxf TP TN PP PN HP) as KF. cbv zeta in KF.
  pose proof (known_law _ (coin zn) (coin zp) zn zp wn wp pn pp pr maxf TN TP PN PP HP) as KB. cbv zeta in KB.
  pose proof (exp_pos wn) as Xn. pose proof (exp_pos wp) as Xp.
  assert (C1 : exp wn / (exp wn + exp wp) = 1 - exp wp / (exp wp + exp wn)) by (field; lra).
  set (c := exp wp / (exp wp + exp wn)) in *. rewrite C1 in KB.
  replace ((1 - c) * (1 - pn) + (1 - (1 - c)) * (1 - pp)) with (c * (1 - pp) + (1 - c) * (1 - pn)) in KB by ring.
  set (g := geometric ((c * (1 - pp) + (1 - c) * (1 - pn)) * (1 - pr)) maxf) in *.
  exists (exp wn * pn), (exp wp * pp), (c * pp * g), ((c * (1 - pp) * pr + (1 - c) * (pn + pr * (1 - pn))) * g), ((1 - c) * pn * g), (((1 - c) * (1 - pn) * pr + (1 - (1 - c)) * (pp + pr * (1 - pp))) * g).
  assert (ERR : forall w p v le, w = - d * le -> forall tl, Rabs (p - exp (- (v - d * le))) <= tl -> Rabs (exp w * p - exp (- v)) <= exp w * tl).
  { intros w p v le -> tl H. replace (exp (- v)) with (exp (- d * le) * exp (- (v - d * le))) by (rewrite <- exp_plus; f_equal; ring).
    rewrite <- Rmult_minus_distr_l, Rabs_mult, Rabs_pos_eq by (apply Rlt_le, exp_pos). apply Rmult_le_compat_l; [apply Rlt_le, exp_pos|exact H]. }
  split; [apply (ERR wn pn vn len eq_refl _ EN)|]. split; [apply (ERR wp pp vp lep eq_refl _ EP)|].
  split; [intros f; apply (average_comp _ _ _ _ _ (RUN zp zn wp wn Wp Wn TP TN)), KF|].
  split; [intros f; apply (average_comp _ _ _ _ _ (RUN zn zp wn wp Wn Wp TN TP)), KB|].
  assert (CE : c * exp wn = (1 - c) * exp wp) by (unfold c; field; lra).
  split; [|split].
  - transitivity (c * exp wn * (pn * pp * g)); [ring|]. rewrite CE. ring.
  - ring.
  - intros ->. transitivity (pp * g * (c * exp wn * pn + c * exp wp * pp)); [ring|]. rewrite CE. ring.
Qed.
