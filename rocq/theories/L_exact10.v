(** The parameter update of the Ito chain on known paths. *)
From Coquelicot Require Import Rcomplements Hierarchy RInt.
From Coq Require Import Reals List Bool Arith ZArith Lra Lia Psatz Permutation FunctionalExtensionality.
From Verif Require Import Base Np Rng L_list L_rng M_mjp M_hit M_path M_skel M_seed SpecSkel SpecSeed SpecSw L_seed M_bf M_models M_sw M_mcem M_ito SpecIto SpecLaw SpecCoin SpecEst SpecExact SpecExact2 SpecFactory Mat
  L_law L_law2 L_law3 L_law4 L_law5 L_law6 L_exact3 L_exact4 L_sde3 L_exact6 L_exact7 L_exact8 L_exact9 L_mat L_ito L_ito2.
Import ListNotations.
Local Open Scope R_scope.

Section Ito.
Context (path : skel -> R -> R) (reduce disc : list R -> R -> R) (grad : list R -> list R -> R -> R -> R -> R -> R -> list R) (batch : nat) (t vt : list R) (n : nat) (HB : (0 < batch)%nat) (Ht : length t = S n) (Hv : length vt = S n).
Lemma piece_run : forall thi thi' up j s o k, (j < n)%nat ->
  (do ts <- lift_opt IndexError (sub_t t j); do fin <- lift_opt IndexError (last_opt ts); do v0 <- lift_opt IndexError (hd_error (sub_v vt j)); do v1 <- lift_opt IndexError (last_opt (sub_v vt j));
   ito_coin_with (pinned path) reduce disc grad thi thi' fin v0 v1 s up batch) o k = ito_coin_with (pinned path) reduce disc grad thi thi' (span t j) (nth j vt 0) (nth (S j) vt 0) s up batch o k.
Proof.
  intros thi thi' up j s o k Hj. rewrite (sub_t_two t j (nth j t 0) (nth (S j) t 0)) by (apply nth_error_nth'; lia). rewrite (sub_v_two vt j (nth j vt 0) (nth (S j) vt 0)) by (apply nth_error_nth'; lia).
  reflexivity.
Qed.
Lemma ito_coins_good : forall thi thi' z C vf vg a b up, known_ito path reduce disc grad thi thi' z t vt n C vf vg a b ->
  good (ito_coins_with (pinned path) reduce disc grad batch thi thi' z t vt up) (z, exp (- rsum n (if up then b else a)), rsum n (overflow (fun j => C j * span t j) batch)).
Proof.
  intros thi thi' z C vf vg a b up (Hn & Hz & _ & _ & HK). unfold ito_coins_with.
  set (q := if up then b else a). set (e := overflow (fun j => C j * span t j) batch).
  set (l := combine (seq 0 (length z)) z). assert (LZ : length l = n) by (unfold l; rewrite combine_length, seq_length; lia).
  pose proof (coins_all _ _ (fun p : nat * skel => do ts <- lift_opt IndexError (sub_t t (fst p)); do fin <- lift_opt IndexError (last_opt ts); do v0 <- lift_opt IndexError (hd_error (sub_v vt (fst p)));
     do v1 <- lift_opt IndexError (last_opt (sub_v vt (fst p))); ito_coin_with (pinned path) reduce disc grad thi thi' fin v0 v1 (snd p) up batch) l (data z dseed q e)) as CA.
  rewrite data_payload, data_prods, data_errs, Hz in CA. apply CA; clear CA.
  - intros E. rewrite E in LZ. cbn in LZ. lia.
  - apply Forall2_index; [rewrite LZ; unfold data; rewrite map_length, seq_length; auto|]. intros j p x E D. apply data_nth in D as (s & Es & ->).
    assert (Hj : (j < n)%nat) by (rewrite <- Hz; apply nth_error_Some; congruence).
    unfold l in E. rewrite nth_error_combine, Es in E. rewrite (nth_error_nth' (seq 0 (length z)) 0%nat) in E by (rewrite seq_length; lia). rewrite seq_nth in E by lia. injection E as <-. cbn [fst snd plus].
    specialize (HK j s Es). cbv zeta in HK. destruct HK as [HC HK].
    refine (good_map _ (ito_coin_with (pinned path) reduce disc grad thi thi' (span t j) (nth j vt 0) (nth (S j) vt 0) s up batch) _ _ s _ _ s _ _).
    + unfold ito_coin_with. rewrite <- HC, Rminus_0_r. unfold q, e, overflow. replace ((if up then b else a) j) with (if up then b j else a j) by (destruct up; reflexivity).
      exact (proj1 (compared_coin path _ _ s _ _ _ _ _ _ _ (C j) _ _ (a j) (b j) _ _ _ _ up batch HK (ito_operators _ _ _) (ito_operators _ _ _) HB)).
    + intros o k V. rewrite (piece_run thi thi' up j s o k Hj).
      assert (TT : total (ito_coin_with (pinned path) reduce disc grad thi thi' (span t j) (nth j vt 0) (nth (S j) vt 0) s up batch) (fun r => snd r = s)).
      { unfold ito_coin_with. rewrite <- HC, Rminus_0_r. exact (proj1 (proj1 (compared_coin path _ _ s _ _ _ _ _ _ _ (C j) _ _ (a j) (b j) _ _ _ _ up batch HK (ito_operators _ _ _) (ito_operators _ _ _) HB))). }
      specialize (TT o k V). unfold bind. destruct (ito_coin_with _ _ _ _ _ _ _ _ _ _ _ _ o k) as [[[r1 r2]|x|] k1]; try contradiction. cbn in *. rewrite TT. reflexivity.
Qed.
Lemma ito_coins_swap : forall thi thi' z C vf vg a b up, (forall x y T v0 v1 lo hi, grad x y T v0 v1 lo hi = grad y x T v0 v1 lo hi) -> known_ito path reduce disc grad thi thi' z t vt n C vf vg a b ->
  forall o k, valid o -> ito_coins_with (pinned path) reduce disc grad batch thi thi' z t vt up o k = ito_coins_with (pinned path) reduce disc grad batch thi' thi z t vt (negb up) o k.
Proof.
  intros thi thi' z C vf vg a b up GS (Hn & Hz & _ & _ & HK) o k V. unfold ito_coins_with. unfold bind at 1. symmetry. unfold bind at 1. symmetry. erewrite map_m_valid; [reflexivity| |exact V].
  intros [j s] HI o' k' V'. cbn [fst snd]. apply In_nth_error in HI as [i E]. rewrite nth_error_combine in E. destruct (nth_error (seq 0 (length z)) i) eqn:E1; [|discriminate]. destruct (nth_error z i) eqn:E2; [|discriminate]. injection E as -> ->.
  assert (Hj : (i < n)%nat) by (rewrite <- Hz; apply nth_error_Some; congruence). apply nth_error_nth with (d := 0%nat) in E1. rewrite seq_nth in E1 by lia. cbn in E1. subst j.
  rewrite !piece_run by exact Hj. specialize (HK i s E2). cbv zeta in HK. destruct HK as [HC HK]. unfold ito_coin_with. rewrite Rminus_0_r, (ito_intensity_sym thi'), (GS thi'), <- HC.
  exact (proj2 (compared_coin path _ _ s _ _ _ _ _ _ _ (C i) _ _ (a i) (b i) _ _ _ _ up batch HK (ito_operators _ _ _) (ito_operators _ _ _) HB) o' k' V').
Qed.
End Ito.
Lemma ito_factor : forall path reduce disc grad thi thi' z t vt n C vf vg a b, known_ito path reduce disc grad thi thi' z t vt n C vf vg a b -> rsum n (fun j => vg j - b j) = rsum n (fun j => vf j - a j).
Proof.
  intros path reduce disc grad thi thi' z t vt n C vf vg a b (Hn & Hz & _ & _ & HK). apply rsum_ext. intros j Hj.
  destruct (nth_error z j) as [s|] eqn:E; [|apply nth_error_None in E; lia]. specialize (HK j s E). cbv zeta in HK. destruct HK as [_ HK]. apply compared_diff in HK. lra.
Qed.
Lemma ito_law : forall path reduce disc grad log_prior loglik batch pre pr maxf thi q0 q lf lb z t vt i n C vf vg a b,
  (forall x y T v0 v1 lo hi, grad x y T v0 v1 lo hi = grad y x T v0 v1 lo hi) -> nth_error thi i = Some q0 ->
  let thi' := list_set thi i q in
  known_ito path reduce disc grad thi thi' z t vt n C vf vg a b -> (0 < batch)%nat -> 0 <= pr <= 1 ->
  let W (x : list R) (l : R) := (if (pre : bool) then 0 else loglik x t vt) + log_prior x + l in
  let err := rsum n (overflow (fun j => C j * span t j) batch) in
  exists dn dp acc stay acc' stay',
    Rabs (dn - exp (W thi lf - rsum n vf)) <= exp (W thi lf - rsum n (fun j => vf j - a j)) * err /\
    Rabs (dp - exp (W thi' lb - rsum n vg)) <= exp (W thi' lb - rsum n (fun j => vg j - b j)) * err /\
    (forall f, average (ito_sector_with (pinned path) reduce disc grad log_prior loglik batch pre pr maxf (fun _ => ret (q, lf, lb)) thi z t vt i) f (acc * f (i, true, thi', z) + stay * f (i, false, thi, z))) /\
    (forall f, average (ito_sector_with (pinned path) reduce disc grad log_prior loglik batch pre pr maxf (fun _ => ret (q0, lb, lf)) thi' z t vt i) f (acc' * f (i, true, thi, z) + stay' * f (i, false, thi', z))) /\
    dn * acc = dp * acc' /\ (pre = false -> acc + stay = acc' + stay') /\ (pre = false -> pr = 0 -> acc * (dn + dp) = dp * (acc + stay)).
Proof.
  intros path reduce disc grad log_prior loglik batch pre pr maxf thi q0 q lf lb z t vt i n C vf vg a b GS HQ thi' HK HB HP W err.
  pose proof HK as (_ & _ & Ht & Hv & _).
  pose proof (ito_coins_good path reduce disc grad batch t vt n HB Ht Hv _ _ _ _ _ _ _ _ true HK) as (TU & _ & pu & PU & EU). pose proof (ito_coins_good path reduce disc grad batch t vt n HB Ht Hv _ _ _ _ _ _ _ _ false HK) as (TD & _ & pd & PD & ED).
  fold err in EU, ED. cbv iota in EU, ED.
  assert (SU : forall o k, valid o -> ito_coins_with (pinned path) reduce disc grad batch thi' thi z t vt true o k = ito_coins_with (pinned path) reduce disc grad batch thi thi' z t vt false o k).
  { intros o k V. symmetry. exact (ito_coins_swap path reduce disc grad batch t vt n HB Ht Hv _ _ _ _ _ _ _ _ false GS HK o k V). }
  assert (SD : forall o k, valid o -> ito_coins_with (pinned path) reduce disc grad batch thi' thi z t vt false o k = ito_coins_with (pinned path) reduce disc grad batch thi thi' z t vt true o k).
  { intros o k V. symmetry. exact (ito_coins_swap path reduce disc grad batch t vt n HB Ht Hv _ _ _ _ _ _ _ _ true GS HK o k V). }
  assert (LAW : forall x x' r l l' p1 p2, list_set x i r = x' ->
    total (ito_coins_with (pinned path) reduce disc grad batch x x' z t vt true) (fun r => snd r = z) -> total (ito_coins_with (pinned path) reduce disc grad batch x x' z t vt false) (fun r => snd r = z) ->
    chance (ito_coins_with (pinned path) reduce disc grad batch x x' z t vt true) fst p1 -> chance (ito_coins_with (pinned path) reduce disc grad batch x x' z t vt false) fst p2 ->
    forall f, average (ito_sector_with (pinned path) reduce disc grad log_prior loglik batch pre pr maxf (fun _ => ret (r, l, l')) x z t vt i) f
      (let c := exp (W x' l') / (exp (W x' l') + exp (W x l)) in total_hit p1 p2 pr maxf pre c c * f (i, true, x', z) + total_keep p1 p2 pr maxf pre c c * f (i, false, x, z))).
  { intros x x' r l l' p1 p2 EX T1 T2 P1 P2 f. cbv zeta. unfold ito_sector_with. eapply average_comp. { intros o k _. erewrite run_bind by reflexivity. cbv beta iota. rewrite EX. unfold ito_step. reflexivity. }
    pose proof (joint_section (fun up s => ito_coins_with (pinned path) reduce disc grad batch x x' s t vt up) z p1 p2 _ (i, true, x', z) (i, false, x, z) (fun accept z_acc => (i, accept, if (accept : bool) then x' else x, z_acc)) pre pr maxf
      (log_prior x' + l') (log_prior x + l) (loglik x' t vt + log_prior x' + l') (loglik x t vt + log_prior x + l) HP T1 T2 P1 P2 eq_refl eq_refl f) as J.
    cbv zeta in J. rewrite total_hit_pre, total_keep_pre in J. unfold W. destruct pre; [rewrite !Rplus_0_l|]; exact J. }
  set (m := rsum n (fun j => vf j - a j)). pose proof (ito_factor _ _ _ _ _ _ _ _ _ _ _ _ _ _ _ HK) as CF. fold m in CF. rewrite CF.
  assert (EM : rsum n vf = m + rsum n a). { unfold m. rewrite <- rsum_plus. apply rsum_ext. intros j _. ring. }
  assert (EM' : rsum n vg = m + rsum n b). { rewrite <- CF, <- rsum_plus. apply rsum_ext. intros j _. ring. }
  destruct (step_balance pre (W thi' lb) (W thi lf) pu pd pr maxf (chance_range _ _ _ _ PU) (chance_range _ _ _ _ PD) HP) as (B1 & B2 & B3). cbv zeta in B1, B2, B3.
  eexists (exp (W thi lf - m) * pd), (exp (W thi' lb - m) * pu), _, _, _, _.
  split; [refine (scaled_error _ pd _ _ _ _ ED); rewrite EM; ring|]. split; [refine (scaled_error _ pu _ _ _ _ EU); rewrite EM'; ring|].
  split; [exact (LAW thi thi' q lf lb pu pd eq_refl TU TD PU PD)|].
  split; [refine (LAW thi' thi q0 lb lf pd pu (list_set_back _ _ _ _ _ HQ) _ _ _ _)|].
  { intros o k V. rewrite SU by exact V. apply (TD o k V). }
  { intros o k V. rewrite SD by exact V. apply (TU o k V). }
  { unfold chance. apply (average_comp _ _ _ _ _ SU). exact PD. }
  { unfold chance. apply (average_comp _ _ _ _ _ SD). exact PU. }
  assert (XM : forall w, exp (w - m) = exp w * exp (- m)) by (intros w; rewrite <- exp_plus; reflexivity). rewrite !XM.
  split; [|split; [exact B2|]].
  - match type of B1 with ?l = ?r => transitivity (exp (- m) * l); [ring|rewrite B1; ring] end.
  - intros HPre H0. specialize (B3 HPre H0). match type of B3 with ?l = ?r => transitivity (exp (- m) * l); [ring|rewrite B3; ring] end.
Qed.
