(** The parameter sections of the two chains on known paths. *)
From Coquelicot Require Import Rcomplements Hierarchy RInt.
From Coq Require Import Reals List Bool Arith ZArith Lra Lia Psatz Permutation FunctionalExtensionality.
From Verif Require Import Base Np Rng L_list L_rng M_mjp M_hit M_path M_skel M_seed SpecSkel SpecSeed SpecSw L_seed M_bf M_models M_sw M_mcem M_ito SpecIto SpecLaw SpecCoin SpecEst SpecExact SpecExact2 SpecFactory Mat
  L_law L_law2 L_law3 L_law4 L_law5 L_law6 L_exact3 L_exact4 L_sde3 L_exact6 L_exact7 L_exact8 L_mat L_occ L_step3 L_sw L_sw4 L_sw11 L_em5 L_em6 L_step L_step2 L_ito L_ito2.
Import ListNotations.
Local Open Scope R_scope.

Lemma compared_diff : forall path f g s T c x0 x1 c' y0 y1 C vf vg a b, compared path f g s T c x0 x1 c' y0 y1 C vf vg a b -> vg - vf = b - a.
Proof.
  intros path f g s T c x0 x1 c' y0 y1 C vf vg a b (HF & HG & (_ & _ & _ & HA & _) & (_ & _ & _ & HB & _)).
  pose proof (is_RInt_minus (V := R_NormedModule) _ _ _ _ _ _ HG HF) as P. pose proof (is_RInt_minus (V := R_NormedModule) _ _ _ _ _ _ HB HA) as Q.
  apply (is_RInt_uniq _ 0 T _ _ P). refine (is_RInt_ext _ _ _ _ _ _ Q). intros u _. unfold minus, plus, opp; cbn.
  set (x := f _). set (y := g _). unfold Rmax. destruct (Rle_dec 0 (y - x)), (Rle_dec 0 (x - y)); lra.
Qed.
Lemma compared_swap : forall path f g s T c x0 x1 c' y0 y1 C vf vg a b, compared path f g s T c x0 x1 c' y0 y1 C vf vg a b -> compared path g f s T c' y0 y1 c x0 x1 C vg vf b a.
Proof. intros path f g s T c x0 x1 c' y0 y1 C vf vg a b (HF & HG & HA & HB). split; [exact HG|]. split; [exact HF|]. split; assumption. Qed.
Lemma compared_coin : forall path f g s T c x0 x1 c' y0 y1 C vf vg a b norm denorm norm' denorm' up batch, compared path f g s T c x0 x1 c' y0 y1 C vf vg a b ->
  operators norm denorm T c x0 x1 -> operators norm' denorm' T c' y0 y1 -> (0 < batch)%nat ->
  good (dual_coin_with (pinned path) s C norm denorm f norm' denorm' g up batch) (s, exp (- (if up then b else a)), poisson_tail (C * T) batch) /\
  forall o k, valid o -> dual_coin_with (pinned path) s C norm denorm f norm' denorm' g up batch o k = dual_coin_with (pinned path) s C norm' denorm' g norm denorm f (negb up) batch o k.
Proof.
  intros path f g s T c x0 x1 c' y0 y1 C vf vg a b norm denorm norm' denorm' up batch (HF & HG & HA & HB) OP OP' H0.
  assert (RG : regular (fun u => Rmax 0 (if (up : bool) then g (segment_path path s T c' y0 y1 u) - f (segment_path path s T c x0 x1 u) else f (segment_path path s T c x0 x1 u) - g (segment_path path s T c' y0 y1 u))) T C (if up then b else a)) by (destruct up; assumption).
  split; [|exact (dual_swap _ _ _ _ _ _ _ _ _ _ _ _ _ _ _ _ _ _ _ OP OP' RG)].
  destruct (dual_coin_law path norm denorm norm' denorm' T c x0 x1 c' y0 y1 OP OP' (proj1 RG) f g up s C _ batch RG H0) as (TT & p & HP & HE).
  split; [exact TT|]. split; [apply exp_unit, (regular_pos _ _ _ _ RG)|]. exists p. split; assumption.
Qed.
Lemma map_m_valid : forall A B (F G : A -> M B) l, (forall a, In a l -> forall o k, valid o -> F a o k = G a o k) -> forall o k, valid o -> map_m F l o k = map_m G l o k.
Proof.
  intros A B F G l. induction l as [|a l IH]; intros H o k V; [reflexivity|]. cbn [map_m]. unfold bind at 1. symmetry. unfold bind at 1. symmetry. rewrite (H a (or_introl eq_refl) o k V). destruct (G a o k) as [[r|x|] k1]; try reflexivity.
  unfold bind. rewrite (IH (fun a' Ha => H a' (or_intror Ha)) o k1 V). reflexivity.
Qed.
(** ** intensities *)
Lemma updating_sym : forall A (x y : list R) (l : list A), updating x y l = updating y x l.
Proof.
  intros A x. unfold updating. induction x as [|a x IH]; intros [|b y] l; try reflexivity. destruct l as [|c l]; [reflexivity|]. cbn [combine filter fst snd map].
  assert (E : Reqb a b = Reqb b a) by (destruct (Reqb b a) eqn:E; [apply Reqb_true in E; subst; apply Reqb_true; reflexivity|destruct (Reqb a b) eqn:E'; [apply Reqb_true in E'; subst; rewrite (proj2 (Reqb_true b b) eq_refl) in E; discriminate|reflexivity]]).
  rewrite E. destruct (negb (Reqb b a)); cbn [map]; rewrite IH; reflexivity.
Qed.
Lemma moved_sym : forall x y : list R, map Rabs (updating x y (map (fun p => fst p - snd p) (combine x y))) = map Rabs (updating y x (map (fun p => fst p - snd p) (combine y x))).
Proof.
  intros x. unfold updating. induction x as [|a x IH]; intros [|b y]; try reflexivity. cbn [combine filter fst snd map].
  assert (E : Reqb a b = Reqb b a) by (destruct (Reqb b a) eqn:E; [apply Reqb_true in E; subst; apply Reqb_true; reflexivity|destruct (Reqb a b) eqn:E'; [apply Reqb_true in E'; subst; rewrite (proj2 (Reqb_true b b) eq_refl) in E; discriminate|reflexivity]]).
  rewrite E. destruct (negb (Reqb b a)); cbn [map fst snd]; rewrite IH; [rewrite Rabs_minus_sym|]; reflexivity.
Qed.
Lemma sw_intensity_sym : forall x y l, sw_intensity x y l = sw_intensity y x l.
Proof. intros. unfold sw_intensity. rewrite moved_sym, (updating_sym _ x y l). reflexivity. Qed.
Lemma ito_intensity_sym : forall x y l, ito_intensity x y l = ito_intensity y x l.
Proof. intros. unfold ito_intensity. rewrite moved_sym, (updating_sym _ x y l). reflexivity. Qed.
Lemma grads_sym : forall x y T v0 v1 lo hi,
  ou_bounds_grad x y T v0 v1 lo hi = ou_bounds_grad y x T v0 v1 lo hi /\ cir_bounds_grad x y T v0 v1 lo hi = cir_bounds_grad y x T v0 v1 lo hi /\
  ou1_bounds_grad x y T v0 v1 lo hi = ou1_bounds_grad y x T v0 v1 lo hi /\ ou2_bounds_grad x y T v0 v1 lo hi = ou2_bounds_grad y x T v0 v1 lo hi /\ ou3_bounds_grad x y T v0 v1 lo hi = ou3_bounds_grad y x T v0 v1 lo hi.
Proof.
  intros. unfold ou_bounds_grad, cir_bounds_grad, ou1_bounds_grad, ou2_bounds_grad, ou3_bounds_grad. cbv zeta.
  rewrite (Rmax_comm (par x 0) (par y 0)), (Rmax_comm (par x 1) (par y 1)), (Rmin_comm (par x 1) (par y 1)). repeat split.
Qed.
(** ** a section *)
Lemma list_set_back : forall A (l : list A) i a b, nth_error l i = Some a -> list_set (list_set l i b) i a = l.
Proof. intros A l. induction l as [|c l IH]; intros [|i] a b H; try discriminate; cbn in *; [injection H as ->; reflexivity|]. f_equal. apply IH. exact H. Qed.
Lemma list_set_at : forall A (l : list A) i a b, nth_error l i = Some a -> nth_error (list_set l i b) i = Some b.
Proof. intros A l. induction l as [|c l IH]; intros [|i] a b H; try discriminate; cbn in *; [reflexivity|]. eapply IH, H. Qed.
Lemma joint_section : forall (coins : bool -> partition -> M (bool * partition)) z p1 p2 B (X Y : B) (kept : bool -> partition -> B) pre pr maxf pw1 pw2 w1 w2, 0 <= pr <= 1 ->
  total (coins true z) (fun r => snd r = z) -> total (coins false z) (fun r => snd r = z) -> chance (coins true z) fst p1 -> chance (coins false z) fst p2 -> kept true z = X -> kept false z = Y ->
  forall f, average (do r <- barker_step (m := M) (@ret) (@bind) o_ulog_lt (run_twocoin_joint (fun first s => do r <- coins first s; ret (r, snd r)) (fun s => ret s) pr maxf z) pre pw1 pw2 w1 w2 z; after_step Y kept r) f
    (let c0 := exp pw1 / (exp pw1 + exp pw2) in let c := exp w1 / (exp w1 + exp w2) in total_hit p1 p2 pr maxf pre c0 c * f X + total_keep p1 p2 pr maxf pre c0 c * f Y).
Proof.
  intros coins z p1 p2 B X Y kept pre pr maxf pw1 pw2 w1 w2 HP T1 T2 P1 P2 KX KY f.
  set (fl := fun (first : bool) (s : partition) => do r <- coins first s; ret (r, snd r)).
  assert (SF : forall (first : bool) o k, valid o -> fl first z o k = (do r <- (if first then coins true z else coins false z); ret (r, z)) o k).
  { intros first o k V. unfold fl. destruct first; [specialize (T1 o k V); unfold bind, ret; destruct (coins true z o k) as [[r|x|] k1]|specialize (T2 o k V); unfold bind, ret; destruct (coins false z o k) as [[r|x|] k1]]; try contradiction; cbn in *; congruence. }
  pose proof (joint_known fl z (coins true z) (coins false z) z z p1 p2 pr maxf SF T1 T2 P1 P2 HP eq_refl) as RL.
  pose proof (step_law z z p1 p2 pr maxf _ _ Y kept pre pw1 pw2 w1 w2 z RL KY f) as SL. rewrite KX in SL. exact SL.
Qed.
Lemma total_hit_pre : forall p1 p2 e n pre c0 c, total_hit p1 p2 e n pre c0 c = total_hit p1 p2 e n pre (if pre then c0 else c) (if pre then c0 else c).
Proof. intros. destruct pre; reflexivity. Qed.
Lemma total_keep_pre : forall p1 p2 e n pre c0 c, total_keep p1 p2 e n pre c0 c = total_keep p1 p2 e n pre (if pre then c0 else c) (if pre then c0 else c).
Proof. intros. destruct pre; reflexivity. Qed.
(** ** the switching chain *)
Lemma known_params_swap : forall path vol disc grad thi thi' z h i n C vf vg a b, (forall x y T v0 v1 lo hi, grad x y T v0 v1 lo hi = grad y x T v0 v1 lo hi) ->
  known_params path vol disc grad thi thi' z h i n C vf vg a b -> known_params path vol disc grad thi' thi z h i n C vg vf b a.
Proof.
  intros path vol disc grad thi thi' z h i n C vf vg a b GS [PO HK]. split; [exact PO|]. intros j s E Y. specialize (HK j s E Y). cbv zeta in *. destruct HK as [HC HK]. split.
  - rewrite HC, sw_intensity_sym, GS. reflexivity.
  - apply compared_swap. exact HK.
Qed.
Lemma sw_coins_good : forall path vol disc grad thi thi' z h i n C vf vg a b up batch, known_params path vol disc grad thi thi' z h i n C vf vg a b -> (0 < batch)%nat ->
  good (sw_coins_with (pinned path) vol disc grad batch thi thi' z h up i) (z, exp (- rsum n (within h i (if up then b else a))), rsum n (within h i (overflow (fun j => C j * span (a_t h) j) batch))).
Proof.
  intros path vol disc grad thi thi' z h i n C vf vg a b up batch [(Hn & Hz & H1 & H2 & H3) HK] HB. unfold sw_coins_with.
  set (q := within h i (if up then b else a)). set (e := within h i (overflow (fun j => C j * span (a_t h) j) batch)).
  set (l := combine (zip4 (np_diff (a_t h)) (a_y h) (a_v h) (tl (a_v h))) z).
  assert (LZ : length l = n) by (unfold l, zip4; rewrite !combine_length, np_diff_length, tl_length; lia).
  pose proof (coins_all _ _ (fun p : R * nat * R * R * skel => let '((dt, y0, v0, v1), z_) := p in
                    if Nat.eqb y0 i then sw_coin_with (pinned path) vol disc grad thi thi' dt y0 v0 v1 z_ up batch else ret (true, z_)) l (data z dseed q e)) as CA.
  rewrite data_payload, data_prods, data_errs, Hz in CA. apply CA; clear CA.
  - intros E. rewrite E in LZ. cbn in LZ. lia.
  - apply Forall2_index; [rewrite LZ; unfold data; rewrite map_length, seq_length; auto|]. intros j p x E D. apply data_nth in D as (s & Es & ->).
    assert (Hj : (j < n)%nat) by (rewrite <- Hz; apply nth_error_Some; congruence).
    unfold l, zip4 in E. rewrite !nth_error_combine, Es in E. rewrite (nth_error_nth' (np_diff (a_t h)) 0) in E by (rewrite np_diff_length; lia). rewrite (nth_error_nth' (a_y h) 0%nat) in E by lia.
    rewrite (nth_error_nth' (a_v h) 0), (nth_error_nth' (tl (a_v h)) 0) in E by (rewrite ?tl_length; lia). rewrite nth_diff, nth_tl in E by lia. injection E as <-. fold (span (a_t h) j).
    unfold q, e, within. destruct (Nat.eqb_spec (nth j (a_y h) 0%nat) i) as [EY|NY].
    + specialize (HK j s Es EY). cbv zeta in HK. destruct HK as [HC HK]. unfold sw_coin_with. rewrite EY, <- HC, Rminus_0_r. unfold overflow.
      replace ((if up then b else a) j) with (if up then b j else a j) by (destruct up; reflexivity).
      apply (compared_coin path _ _ s _ _ _ _ _ _ _ (C j) _ _ (a j) (b j) _ _ _ _ up batch HK); [apply sw_operators|apply sw_operators|exact HB].
    + split; [intros o k V; reflexivity|]. rewrite Ropp_0, exp_0. split; [lra|]. exists 1. split; [exact (average_ret _ (true, s) (fun r => ind (fst r)))|]. rewrite Rminus_diag_eq, Rabs_R0 by reflexivity. lra.
Qed.
Lemma sw_coins_swap : forall path vol disc grad thi thi' z h i n C vf vg a b up batch, (forall x y T v0 v1 lo hi, grad x y T v0 v1 lo hi = grad y x T v0 v1 lo hi) ->
  known_params path vol disc grad thi thi' z h i n C vf vg a b -> (0 < batch)%nat -> forall o k, valid o ->
  sw_coins_with (pinned path) vol disc grad batch thi thi' z h up i o k = sw_coins_with (pinned path) vol disc grad batch thi' thi z h (negb up) i o k.
Proof.
  intros path vol disc grad thi thi' z h i n C vf vg a b up batch GS [(Hn & Hz & H1 & H2 & H3) HK] HB o k V. unfold sw_coins_with. unfold bind. erewrite map_m_valid; [reflexivity| |exact V].
  intros [[[[dt y] v0] v1] s] HI o' k' V'. cbv beta iota. apply In_nth_error in HI as [j E].
  unfold zip4 in E. rewrite !nth_error_combine in E. destruct (nth_error (np_diff (a_t h)) j) eqn:E1; [|discriminate]. destruct (nth_error (a_y h) j) eqn:E2; [|discriminate]. destruct (nth_error (a_v h) j) eqn:E3; [|discriminate].
  destruct (nth_error (tl (a_v h)) j) eqn:E4; [|discriminate]. destruct (nth_error z j) eqn:E5; [|discriminate]. injection E as -> -> -> -> ->.
  assert (Hj : (j < n)%nat) by (rewrite <- Hz; apply nth_error_Some; congruence).
  apply nth_error_nth with (d := 0) in E1, E3, E4. apply nth_error_nth with (d := 0%nat) in E2. rewrite nth_diff in E1 by lia. rewrite nth_tl in E4. fold (span (a_t h) j) in E1. subst.
  destruct (Nat.eqb_spec (nth j (a_y h) 0%nat) i) as [EY|NY]; [|reflexivity]. specialize (HK j s E5 EY). cbv zeta in HK. destruct HK as [HC HK]. unfold sw_coin_with. rewrite EY, Rminus_0_r.
  rewrite (sw_intensity_sym (row thi' i)), (GS (row thi' i)), <- HC.
  exact (proj2 (compared_coin path _ _ s _ _ _ _ _ _ _ (C j) _ _ (a j) (b j) _ _ _ _ up batch HK (sw_operators _ _ _ _) (sw_operators _ _ _ _) HB) o' k' V').
Qed.
Lemma within_minus : forall h i f g j, within h i (fun j => f j - g j) j = within h i f j - within h i g j.
Proof. intros. unfold within. destruct (Nat.eqb _ _); ring. Qed.
Lemma common_factor : forall path vol disc grad thi thi' z h i n C vf vg a b, known_params path vol disc grad thi thi' z h i n C vf vg a b ->
  rsum n (within h i (fun j => vg j - b j)) = rsum n (within h i (fun j => vf j - a j)).
Proof.
  intros path vol disc grad thi thi' z h i n C vf vg a b [(Hn & Hz & _) HK]. apply rsum_ext. intros j Hj. unfold within. destruct (Nat.eqb_spec (nth j (a_y h) 0%nat) i) as [EY|NY]; [|reflexivity].
  destruct (nth_error z j) as [s|] eqn:E; [|apply nth_error_None in E; lia]. specialize (HK j s E EY). cbv zeta in HK. destruct HK as [_ HK]. apply compared_diff in HK. lra.
Qed.
Lemma params_law : forall path vol disc grad log_prior loglik batch pre pr maxf thi q0 q lf lb z h i n C vf vg a b,
  (forall x y T v0 v1 lo hi, grad x y T v0 v1 lo hi = grad y x T v0 v1 lo hi) -> nth_error thi i = Some q0 ->
  let thi' := list_set thi i q in
  known_params path vol disc grad thi thi' z h i n C vf vg a b -> (0 < batch)%nat -> 0 <= pr <= 1 ->
  let W (x : list (list R)) (l : R) := fst (loglik x h (Some i)) + log_prior x + l in
  let err := rsum n (within h i (overflow (fun j => C j * span (a_t h) j) batch)) in
  exists dn dp acc stay acc' stay',
    Rabs (dn - exp (W thi lf - rsum n (within h i vf))) <= exp (W thi lf - rsum n (within h i (fun j => vf j - a j))) * err /\
    Rabs (dp - exp (W thi' lb - rsum n (within h i vg))) <= exp (W thi' lb - rsum n (within h i (fun j => vg j - b j))) * err /\
    (forall f, average (params_section_with (pinned path) vol disc grad log_prior loglik batch pre pr maxf (ret (q, lf, lb)) thi z h i) f (acc * f (true, thi', z) + stay * f (false, thi, z))) /\
    (forall f, average (params_section_with (pinned path) vol disc grad log_prior loglik batch pre pr maxf (ret (q0, lb, lf)) thi' z h i) f (acc' * f (true, thi, z) + stay' * f (false, thi', z))) /\
    dn * acc = dp * acc' /\ (pre = false -> acc + stay = acc' + stay') /\ (pre = false -> pr = 0 -> acc * (dn + dp) = dp * (acc + stay)).
Proof.
  intros path vol disc grad log_prior loglik batch pre pr maxf thi q0 q lf lb z h i n C vf vg a b GS HQ thi' HK HB HP W err.
  pose proof (sw_coins_good _ _ _ _ _ _ _ _ _ _ _ _ _ _ _ true batch HK HB) as (TU & _ & pu & PU & EU). pose proof (sw_coins_good _ _ _ _ _ _ _ _ _ _ _ _ _ _ _ false batch HK HB) as (TD & _ & pd & PD & ED).
  fold err in EU, ED. cbv iota in EU, ED.
  assert (SU : forall o k, valid o -> sw_coins_with (pinned path) vol disc grad batch thi' thi z h true i o k = sw_coins_with (pinned path) vol disc grad batch thi thi' z h false i o k).
  { intros o k V. symmetry. exact (sw_coins_swap _ _ _ _ _ _ _ _ _ _ _ _ _ _ _ false batch GS HK HB o k V). }
  assert (SD : forall o k, valid o -> sw_coins_with (pinned path) vol disc grad batch thi' thi z h false i o k = sw_coins_with (pinned path) vol disc grad batch thi thi' z h true i o k).
  { intros o k V. symmetry. exact (sw_coins_swap _ _ _ _ _ _ _ _ _ _ _ _ _ _ _ true batch GS HK HB o k V). }
  assert (LAW : forall x x' r l l' p1 p2, list_set x i r = x' ->
    total (sw_coins_with (pinned path) vol disc grad batch x x' z h true i) (fun r => snd r = z) -> total (sw_coins_with (pinned path) vol disc grad batch x x' z h false i) (fun r => snd r = z) ->
    chance (sw_coins_with (pinned path) vol disc grad batch x x' z h true i) fst p1 -> chance (sw_coins_with (pinned path) vol disc grad batch x x' z h false i) fst p2 ->
    forall f, average (params_section_with (pinned path) vol disc grad log_prior loglik batch pre pr maxf (ret (r, l, l')) x z h i) f
      (let c := exp (W x' l') / (exp (W x' l') + exp (W x l)) in total_hit p1 p2 pr maxf pre c c * f (true, x', z) + total_keep p1 p2 pr maxf pre c c * f (false, x, z))).
  { intros x x' r l l' p1 p2 EX T1 T2 P1 P2 f.
    cbv zeta. unfold params_section_with. eapply average_comp. { intros o k _. erewrite run_bind by reflexivity. cbv beta iota. rewrite EX. unfold switching_step. reflexivity. }
    exact (joint_section (fun up s => sw_coins_with (pinned path) vol disc grad batch x x' s h up i) z p1 p2 _ (true, x', z) (false, x, z) (fun accept z_acc => (accept, if (accept : bool) then x' else x, z_acc)) pre pr maxf (W x' l') (W x l) (W x' l') (W x l) HP T1 T2 P1 P2 eq_refl eq_refl f). }
  set (m := rsum n (within h i (fun j => vf j - a j))). pose proof (common_factor _ _ _ _ _ _ _ _ _ _ _ _ _ _ _ HK) as CF. fold m in CF. rewrite CF.
  assert (EM : rsum n (within h i vf) = m + rsum n (within h i a)). { unfold m. rewrite <- rsum_plus. apply rsum_ext. intros j _. rewrite within_minus. ring. }
  assert (EM' : rsum n (within h i vg) = m + rsum n (within h i b)). { rewrite <- CF, <- rsum_plus. apply rsum_ext. intros j _. rewrite within_minus. ring. }
  destruct (step_balance pre (W thi' lb) (W thi lf) pu pd pr maxf (chance_range _ _ _ _ PU) (chance_range _ _ _ _ PD) HP) as (B1 & B2 & B3). cbv zeta in B1, B2, B3.
  eexists (exp (W thi lf - m) * pd), (exp (W thi' lb - m) * pu), _, _, _, _.
  split; [refine (scaled_error _ pd _ _ _ _ ED); rewrite EM; ring|]. split; [refine (scaled_error _ pu _ _ _ _ EU); rewrite EM'; ring|].
  split; [exact (LAW thi thi' q lf lb pu pd eq_refl TU TD PU PD)|].
  split; [refine (LAW thi' thi q0 lb lf pd pu (list_set_back _ _ _ _ _ HQ) _ _ _ _)|].
  { intros o k V. rewrite SU by exact V. apply (TD o k V). }
  { intros o k V. rewrite SD by exact V. apply (TU o k V). }
  { unfold chance. apply (average_comp _ _ _ _ _ SU). exact PD. }
  { unfold chance. apply (average_comp _ _ _ _ _ SD). exact PU. }
  assert (XM : forall w, exp (w - m) = exp w * exp (- m)) by (intros w; rewrite <- exp_plus; reflexivity). rewrite !XM.
  split; [|split; [exact B2|]].
  - match type of B1 with ?l = ?r => transitivity (exp (- m) * l); [ring|rewrite B1; ring] end.
  - intros HPre H0. specialize (B3 HPre H0). match type of B3 with ?l = ?r => transitivity (exp (- m) * l); [ring|rewrite B3; ring] end.
Qed.
