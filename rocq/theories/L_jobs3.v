(** The parameters of all regimes updated at once. *)
From Coquelicot Require Import Rcomplements Hierarchy RInt.
From Coq Require Import Reals List Bool Arith ZArith Lra Lia Psatz Permutation FunctionalExtensionality.
From Verif Require Import Base Np Rng L_list L_rng M_mjp M_hit M_path M_skel M_seed SpecSkel SpecSeed SpecSw L_seed M_bf M_models M_sw M_mcem M_ito SpecIto SpecLaw SpecCoin SpecEst SpecExact SpecExact2 SpecFactory Mat
  L_law L_law2 L_law3 L_law4 L_law5 L_law6 L_exact3 L_exact4 L_sde3 L_exact6 L_exact7 L_exact8 L_mat L_occ L_step3 L_sw L_sw4 L_sw11 L_em5 L_em6 L_step L_step2 L_ito L_ito2 L_exact9 SpecJobs L_jobs.
Import ListNotations.
Local Open Scope R_scope.

Lemma rsum_change : forall n f g i, (i < n)%nat -> (forall j, j <> i -> f j = g j) -> rsum n f - f i = rsum n g - g i.
Proof.
  induction n as [|n IH]; intros f g i Hi H; [lia|]. cbn [rsum]. destruct (Nat.eq_dec i n) as [->|NE].
  - rewrite (rsum_ext n f g) by (intros j Hj; apply H; lia). ring.
  - specialize (IH f g i ltac:(lia) H). rewrite (H n) by auto. lra.
Qed.
Lemma coins_local : forall interp vol disc grad batch x x' y y' z h up i,
  (forall a b j, row a j = row b j -> vol a j = vol b j /\ disc a j = disc b j) -> row x i = row y i -> row x' i = row y' i ->
  sw_coins_with interp vol disc grad batch x x' z h up i = sw_coins_with interp vol disc grad batch y y' z h up i.
Proof.
  intros interp vol disc grad batch x x' y y' z h up i HL H1 H2. unfold sw_coins_with. f_equal. f_equal. extensionality p. destruct p as [[[[dt y0] v0] v1] s].
  destruct (Nat.eqb_spec y0 i) as [->|]; [|reflexivity]. unfold sw_coin_with. rewrite H1, H2. destruct (HL _ _ _ H1) as [-> ->]. destruct (HL _ _ _ H2) as [-> ->]. reflexivity.
Qed.
Lemma shifted_barker : forall A B a b, A - B = a - b -> exp A / (exp A + exp B) = exp a / (exp a + exp b).
Proof.
  intros A B a b H. replace A with (a + (B - b)) by lra. replace (exp B) with (exp b * exp (B - b)) by (rewrite <- exp_plus; f_equal; ring). rewrite exp_plus.
  pose proof (exp_pos a). pose proof (exp_pos b). pose proof (exp_pos (B - b)). field. split; nra.
Qed.
Lemma row_list_set : forall x i r j, (i < length x)%nat -> row (list_set x i r) j = if Nat.eqb i j then r else row x j.
Proof.
  intros x i r j Hi. unfold row. rewrite L_skel.list_set_nth. destruct (Nat.eqb_spec i j) as [<-|]; [|reflexivity]. rewrite (proj2 (Nat.ltb_lt _ _) Hi). reflexivity.
Qed.
Section All.
Context (path : skel -> R -> R) (vol : list (list R) -> nat -> R) (disc : list (list R) -> nat -> R -> R) (grad : list R -> list R -> R -> R -> R -> R -> R -> list R)
  (log_prior : list (list R) -> R) (loglik : list (list R) -> anchorage -> option nat -> R * R) (batch : nat) (pre : bool) (pr : R) (maxf : nat)
  (m : nat) (opt : nat -> bool -> list R) (lp : nat -> bool -> R) (prior lik : nat -> list R -> R) (z : partition) (h : anchorage).
Context (HV : forall x y i, row x i = row y i -> vol x i = vol y i /\ disc x i = disc y i)
  (HG : forall x y T v0 v1 lo hi, grad x y T v0 v1 lo hi = grad y x T v0 v1 lo hi)
  (HL : forall x i, length x = m -> (i < m)%nat -> fst (loglik x h (Some i)) = lik i (row x i))
  (HPr : forall x, length x = m -> log_prior x = rsum m (fun i => prior i (row x i))).
Let thi (c : list bool) : list (list R) := map (fun i => opt i (of_part c i)) (seq 0 m).
Let job (c : list bool) (i : nat) := params_section_with (pinned path) vol disc grad log_prior loglik batch pre pr maxf
  (ret (opt i (negb (of_part c i)), lp i (of_part c i), lp i (negb (of_part c i)))) (thi c) z h i.
Let W (i : nat) (b : bool) : R := lik i (opt i b) + prior i (opt i b) + lp i b.
Lemma thi_length : forall c, length (thi c) = m. Proof. intros c. unfold thi. rewrite map_length, seq_length. reflexivity. Qed.
Lemma thi_row : forall c i, (i < m)%nat -> row (thi c) i = opt i (of_part c i).
Proof.
  intros c i Hi. unfold row. apply nth_error_nth. unfold thi. rewrite nth_error_map. rewrite (nth_error_nth' (seq 0 m) 0%nat) by (rewrite seq_length; exact Hi). rewrite seq_nth by exact Hi. reflexivity.
Qed.
Lemma section_known : forall i n C vf vg a b, (i < m)%nat -> known_params path vol disc grad (thi []) (list_set (thi []) i (opt i true)) z h i n C vf vg a b -> (0 < batch)%nat -> 0 <= pr <= 1 ->
  let err := rsum n (within h i (overflow (fun j => C j * span (a_t h) j) batch)) in
  exists (w : bool -> R) (k : bool -> bool -> R),
    Rabs (w false - exp (W i false - rsum n (within h i vf))) <= exp (W i false - rsum n (within h i (fun j => vf j - a j))) * err /\
    Rabs (w true - exp (W i true - rsum n (within h i vg))) <= exp (W i true - rsum n (within h i (fun j => vg j - b j))) * err /\
    (forall c f, average (job c i) f (k (of_part c i) true * f (xorb (of_part c i) true, list_set (thi c) i (opt i true), z) + k (of_part c i) false * f (xorb (of_part c i) false, list_set (thi c) i (opt i false), z))) /\
    w false * k false true = w true * k true false.
Proof.
  intros i n C vf vg a b Hi HK HB HP err. set (x0 := thi []) in *. set (x1 := list_set x0 i (opt i true)) in *.
  pose proof (sw_coins_good _ _ _ _ _ _ _ _ _ _ _ _ _ _ _ true batch HK HB) as (TU & _ & pu & PU & EU). pose proof (sw_coins_good _ _ _ _ _ _ _ _ _ _ _ _ _ _ _ false batch HK HB) as (TD & _ & pd & PD & ED).
  fold err in EU, ED. cbv iota in EU, ED.
  assert (SU : forall o k, valid o -> sw_coins_with (pinned path) vol disc grad batch x1 x0 z h true i o k = sw_coins_with (pinned path) vol disc grad batch x0 x1 z h false i o k).
  { intros o k V. symmetry. exact (sw_coins_swap _ _ _ _ _ _ _ _ _ _ _ _ _ _ _ false batch HG HK HB o k V). }
  assert (SD : forall o k, valid o -> sw_coins_with (pinned path) vol disc grad batch x1 x0 z h false i o k = sw_coins_with (pinned path) vol disc grad batch x0 x1 z h true i o k).
  { intros o k V. symmetry. exact (sw_coins_swap _ _ _ _ _ _ _ _ _ _ _ _ _ _ _ true batch HG HK HB o k V). }
  assert (R0 : row x0 i = opt i false) by (unfold x0; rewrite thi_row by exact Hi; unfold of_part; destruct i; reflexivity).
  assert (R1 : row x1 i = opt i true) by (unfold x1; rewrite row_list_set, Nat.eqb_refl; [reflexivity|unfold x0; rewrite thi_length; exact Hi]).
  assert (SAME : forall c, list_set (thi c) i (opt i (of_part c i)) = thi c).
  { intros c. apply (nth_ext _ _ [] []); [rewrite L_skel.list_set_length; reflexivity|]. intros j _. rewrite L_skel.list_set_nth. destruct (Nat.eqb_spec i j) as [<-|]; [|reflexivity]. rewrite <- thi_row by exact Hi. destruct (Nat.ltb i (length (thi c))); reflexivity. }
  assert (LAW : forall c p1 p2, let x := thi c in let t := of_part c i in let x' := list_set x i (opt i (negb t)) in
    total (sw_coins_with (pinned path) vol disc grad batch x x' z h true i) (fun r => snd r = z) -> total (sw_coins_with (pinned path) vol disc grad batch x x' z h false i) (fun r => snd r = z) ->
    chance (sw_coins_with (pinned path) vol disc grad batch x x' z h true i) fst p1 -> chance (sw_coins_with (pinned path) vol disc grad batch x x' z h false i) fst p2 ->
    forall f, average (job c i) f
      (let q := exp (W i (negb t)) / (exp (W i (negb t)) + exp (W i t)) in total_hit p1 p2 pr maxf pre q q * f (true, x', z) + total_keep p1 p2 pr maxf pre q q * f (false, x, z))).
  { intros c p1 p2 x t x' T1 T2 P1 P2 f. cbv zeta. unfold job, params_section_with. fold x t.
    eapply average_comp. { intros o k _. erewrite run_bind by reflexivity. cbv beta iota. fold x'. unfold switching_step. reflexivity. }
    assert (LX : length x = m) by apply thi_length. assert (LX' : length x' = m) by (unfold x'; rewrite L_skel.list_set_length; exact LX).
    set (A := fst (loglik x' h (Some i)) + log_prior x' + lp i (negb t)). set (B := fst (loglik x h (Some i)) + log_prior x + lp i t).
    assert (Q : exp A / (exp A + exp B) = exp (W i (negb t)) / (exp (W i (negb t)) + exp (W i t))).
    { apply shifted_barker. unfold A, B, W. rewrite !HL by (auto; fail). rewrite !HPr by (auto; fail).
      assert (RX : row x i = opt i t) by (apply thi_row; exact Hi). assert (RX' : row x' i = opt i (negb t)) by (unfold x'; rewrite row_list_set, Nat.eqb_refl by (rewrite LX; exact Hi); reflexivity).
      pose proof (rsum_change m (fun j => prior j (row x' j)) (fun j => prior j (row x j)) i Hi) as RC. cbv beta in RC. rewrite RX, RX' in *.
      assert (rsum m (fun j => prior j (row x' j)) - prior i (opt i (negb t)) = rsum m (fun j => prior j (row x j)) - prior i (opt i t)); [|lra].
      apply RC. intros j NE. unfold x'. rewrite row_list_set by (rewrite LX; exact Hi). destruct (Nat.eqb_spec i j); [congruence|reflexivity]. }
    rewrite <- Q.
    exact (joint_section (fun up s => sw_coins_with (pinned path) vol disc grad batch x x' s h up i) z p1 p2 _ (true, x', z) (false, x, z) (fun accept z_acc => (accept, if (accept : bool) then x' else x, z_acc)) pre pr maxf A B A B HP T1 T2 P1 P2 eq_refl eq_refl f). }
  set (mm := rsum n (within h i (fun j => vf j - a j))). pose proof (common_factor _ _ _ _ _ _ _ _ _ _ _ _ _ _ _ HK) as CF. fold mm in CF. rewrite CF.
  assert (EM : rsum n (within h i vf) = mm + rsum n (within h i a)). { unfold mm. rewrite <- rsum_plus. apply rsum_ext. intros j _. rewrite within_minus. ring. }
  assert (EM' : rsum n (within h i vg) = mm + rsum n (within h i b)). { rewrite <- CF, <- rsum_plus. apply rsum_ext. intros j _. rewrite within_minus. ring. }
  destruct (step_balance pre (W i true) (W i false) pu pd pr maxf (chance_range _ _ _ _ PU) (chance_range _ _ _ _ PD) HP) as (B1 & _). cbv zeta in B1.
  set (q := exp (W i true) / (exp (W i true) + exp (W i false))) in *. set (q' := exp (W i false) / (exp (W i false) + exp (W i true))) in *.
  exists (fun t : bool => if t then exp (W i true - mm) * pu else exp (W i false - mm) * pd),
    (fun t t' : bool => if t then (if t' then total_keep pd pu pr maxf pre q' q' else total_hit pd pu pr maxf pre q' q') else (if t' then total_hit pu pd pr maxf pre q q else total_keep pu pd pr maxf pre q q)).
  cbv iota. split; [refine (scaled_error _ pd _ _ _ _ ED); rewrite EM; ring|]. split; [refine (scaled_error _ pu _ _ _ _ EU); rewrite EM'; ring|]. split.
  - intros c f. assert (RX : row (thi c) i = opt i (of_part c i)) by (apply thi_row; exact Hi).
    assert (RX' : row (list_set (thi c) i (opt i (negb (of_part c i)))) i = opt i (negb (of_part c i))) by (rewrite row_list_set, Nat.eqb_refl; [reflexivity|rewrite thi_length; exact Hi]).
    pose proof (SAME c) as SC. specialize (LAW c). destruct (of_part c i) eqn:EC; cbn [negb xorb] in *.
    + cbv zeta in LAW. assert (CE : forall up, sw_coins_with (pinned path) vol disc grad batch (thi c) (list_set (thi c) i (opt i false)) z h up i = sw_coins_with (pinned path) vol disc grad batch x1 x0 z h up i).
      { intros up. apply coins_local; [exact HV|congruence|congruence]. }
      specialize (LAW pd pu). rewrite !CE in LAW. rewrite SC. cbn [xorb].
      refine (average_eq _ _ _ _ _ _ (LAW _ _ _ _ f)); [fold q'; apply Rplus_comm| | | |].
      { intros o k V. rewrite SU by exact V. apply (TD o k V). }
      { intros o k V. rewrite SD by exact V. apply (TU o k V). }
      { unfold chance. apply (average_comp _ _ _ _ _ SU). exact PD. }
      { unfold chance. apply (average_comp _ _ _ _ _ SD). exact PU. }
    + cbv zeta in LAW. assert (CE : forall up, sw_coins_with (pinned path) vol disc grad batch (thi c) (list_set (thi c) i (opt i true)) z h up i = sw_coins_with (pinned path) vol disc grad batch x0 x1 z h up i).
      { intros up. apply coins_local; [exact HV|congruence|congruence]. }
      specialize (LAW pu pd). rewrite !CE in LAW. rewrite SC. cbn [xorb].
      exact (LAW TU TD PU PD f).
  - assert (XM : forall w, exp (w - mm) = exp w * exp (- mm)) by (intros w; rewrite <- exp_plus; reflexivity). rewrite !XM.
    match type of B1 with ?l = ?r => transitivity (exp (- mm) * l); [ring|rewrite B1; ring] end.
Qed.
(** ** putting the parts together *)
Lemma all_ok_some : forall A (l : list A), all_ok (map Some l) = Ok l.
Proof. intros A l. induction l as [|a l IH]; [reflexivity|]. cbn. rewrite IH. reflexivity. Qed.
Lemma assembled : forall c d (flag : nat -> bool), Forall (fun y => (y < m)%nat) (a_y h) -> length z = (length (a_y h) - 1)%nat ->
  assemble (map (fun i => (flag i, list_set (thi c) i (opt i (of_part d i)), z)) (seq 0 m)) (a_y h) = Ok (thi d, z).
Proof.
  intros c d flag HY HZ. unfold assemble. rewrite map_length, seq_length.
  set (parts := map (fun i => (flag i, list_set (thi c) i (opt i (of_part d i)), z)) (seq 0 m)).
  assert (PN : forall i, (i < m)%nat -> nth_error parts i = Some (flag i, list_set (thi c) i (opt i (of_part d i)), z)).
  { intros i Hi. unfold parts. rewrite nth_error_map, (nth_error_nth' (seq 0 m) 0%nat) by (rewrite seq_length; exact Hi). rewrite seq_nth by exact Hi. reflexivity. }
  rewrite (map_ext_in _ (fun i => Some (opt i (of_part d i)))).
  2:{ intros i Hi. apply in_seq in Hi. rewrite PN by lia. rewrite (nth_error_nth' _ []) by (rewrite L_skel.list_set_length, thi_length; lia). change (nth i (list_set (thi c) i (opt i (of_part d i))) []) with (row (list_set (thi c) i (opt i (of_part d i))) i). rewrite row_list_set, Nat.eqb_refl by (rewrite thi_length; lia). reflexivity. }
  rewrite <- (map_map (fun i => opt i (of_part d i)) Some), all_ok_some. cbn [rbind].
  rewrite (map_ext_in _ (fun p => nth_error z (fst p))).
  2:{ intros [j y] HI. cbn [fst snd]. apply in_combine_r in HI. assert (Hy : (y < m)%nat). { rewrite Forall_forall in HY. apply HY. clear - HI. induction (a_y h) as [|a l IH]; [destruct HI|]. destruct l as [|b l]; [destruct HI|]. destruct HI as [->|HI]; [left; reflexivity|right; apply IH; exact HI]. }
      rewrite PN by exact Hy. reflexivity. }
  assert (LR : length (removelast (a_y h)) = (length (a_y h) - 1)%nat) by (rewrite removelast_firstn_len, firstn_length; lia).
  replace (map (fun p : nat * nat => nth_error z (fst p)) (combine (seq 0 (length (a_y h) - 1)) (removelast (a_y h)))) with (map Some z); [rewrite all_ok_some; reflexivity|].
  rewrite <- (map_map fst (nth_error z)). replace (map fst (combine (seq 0 (length (a_y h) - 1)) (removelast (a_y h)))) with (seq 0 (length z)).
  - apply (nth_ext _ _ None None); [rewrite !map_length, seq_length; reflexivity|]. rewrite map_length. intros j Hj. rewrite (nth_indep _ None (Some dseed)) by (rewrite map_length; exact Hj). rewrite map_nth.
    rewrite (nth_indep _ None (nth_error z 0)) by (rewrite map_length, seq_length; exact Hj). rewrite map_nth, seq_nth by exact Hj. cbn. symmetry. apply nth_error_nth'. exact Hj.
  - rewrite HZ. symmetry. clear - LR. assert (G : forall (a b : list nat), length a = length b -> map fst (combine a b) = a) by (induction a as [|x a IH]; intros [|y b] E; try discriminate; cbn; [reflexivity|]; f_equal; apply IH; cbn in E; lia).
    apply G. rewrite seq_length, LR. reflexivity.
Qed.
Lemma params_jobs : forall (n : nat) (C : nat -> nat -> R) (v e : nat -> bool -> nat -> R), Forall (fun y => (y < m)%nat) (a_y h) -> pieces_of z h n ->
  (forall i, (i < m)%nat -> known_params path vol disc grad (thi []) (list_set (thi []) i (opt i true)) z h i n (C i) (v i false) (v i true) (e i false) (e i true)) -> (0 < batch)%nat -> 0 <= pr <= 1 ->
  exists (w : nat -> bool -> R) (k : nat -> bool -> bool -> R),
    (forall i b, (i < m)%nat -> Rabs (w i b - exp (W i b - rsum n (within h i (v i b)))) <=
       exp (W i b - rsum n (within h i (fun j => v i b j - e i b j))) * rsum n (within h i (overflow (fun j => C i j * span (a_t h) j) batch))) /\
    (forall c F, independently (map (job c) (seq 0 m)) (fun parts => match assemble parts (a_y h) with Ok r => F (map (fun p => fst (fst p)) parts, fst r, snd r) | _ => 0 end)
       (sum_over (patterns m) (fun d => product m (fun i => k i (of_part c i) (of_part d i)) * F (map (fun i => xorb (of_part c i) (of_part d i)) (seq 0 m), thi d, z)))) /\
    (forall c d, product m (fun i => w i (of_part c i)) * product m (fun i => k i (of_part c i) (of_part d i)) =
                 product m (fun i => w i (of_part d i)) * product m (fun i => k i (of_part d i) (of_part c i))).
Proof.
  intros n C v e HY PO HK HB HP.
  destruct (finite_choice ((bool -> R) * (bool -> bool -> R)) (fun _ => 0, fun _ _ => 0) m (fun i q =>
    (forall b, Rabs (fst q b - exp (W i b - rsum n (within h i (v i b)))) <=
       exp (W i b - rsum n (within h i (fun j => v i b j - e i b j))) * rsum n (within h i (overflow (fun j => C i j * span (a_t h) j) batch))) /\
    (forall c f, average (job c i) f (snd q (of_part c i) true * f (xorb (of_part c i) true, list_set (thi c) i (opt i true), z) + snd q (of_part c i) false * f (xorb (of_part c i) false, list_set (thi c) i (opt i false), z))) /\
    fst q false * snd q false true = fst q true * snd q true false)) as [q Hq].
  { intros i Hi. destruct (section_known i n (C i) _ _ _ _ Hi (HK i Hi) HB HP) as (w & k & E1 & E2 & A & B). exists (w, k). cbn [fst snd]. split; [intros [|]; assumption|]. split; assumption. }
  exists (fun i => fst (q i)), (fun i => snd (q i)). split; [|split].
  - intros i b Hi. exact (proj1 (Hq i Hi) b).
  - intros c F. pose proof (joint_law0 _ m (job c) (fun i => snd (q i) (of_part c i)) (fun i b => (xorb (of_part c i) b, list_set (thi c) i (opt i b), z)) (fun i Hi => proj1 (proj2 (Hq i Hi)) c)
      (fun parts => match assemble parts (a_y h) with Ok r => F (map (fun p => fst (fst p)) parts, fst r, snd r) | _ => 0 end)) as JL. cbv beta in JL.
    refine (independently_eq _ _ _ _ _ _ JL). apply sum_over_ext. intros d _. destruct PO as (Hn & Hz & H1 & H2 & H3). rewrite (assembled c d (fun i => xorb (of_part c i) (of_part d i)) HY) by lia. cbn [fst snd]. rewrite map_map. reflexivity.
  - exact (joint_balance m (fun i => fst (q i)) (fun i => snd (q i)) (fun i Hi => proj2 (proj2 (Hq i Hi)))).
Qed.
End All.
