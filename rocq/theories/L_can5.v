(** The MJP samplers can produce every path of positive probability density. *)
From Coq Require Import Reals List ZArith Bool Arith Lia Lra Sorted Permutation.
From Verif Require Import Base Np Rng M_mjp SpecCan SpecMjp SpecLin SpecSupport L_list L_rng L_mat L_sim L_race
  L_bridge L_unif L_bridge2 L_bridge3 L_stat L_simdemo L_can Mat.
Import ListNotations.
Local Open Scope R_scope.

Lemma can_fuel {A} (m : nat -> M A) P : can (fun n => m (S n)) P -> can m P.
Proof.
  intros H F. destruct (H F) as (l & n0 & a & H1 & H2 & H3 & H4 & H5). exists l, (S n0), a.
  split; [auto|]. split; [auto|]. split; [auto|]. split; [auto|]. intros s k [|fuel] HA Hf; [lia|]. apply H5; auto. lia.
Qed.

(** ** forward simulation *)
Definition wait (p : R * R) : ext := if Reqb (fst p) 0 then PosInf else Fin (snd p).
Lemma can_holds rs : forall vs, length vs = length rs -> Forall (fun r => 0 <= r) rs -> Forall (fun v => 0 < v) vs ->
  can (fun _ => draw_holds rs) (eq (map wait (combine rs vs))).
Proof.
  induction rs as [|r rs IH]; intros [|v vs] HL HR HV; try discriminate; cbn [draw_holds combine map].
  - apply can_ret. reflexivity.
  - inversion HR as [|? ? R1 R2]; subst. inversion HV as [|? ? V1 V2]; subst. injection HL as HL.
    apply (can_bind0 _ (fun _ h => do hs <- draw_holds rs; ret (h :: hs)) (eq (wait (r, v)))).
    + unfold wait; cbn [fst snd]. destruct (Rltb_dec r 0) as [[E ->]|[_ ->]]; [lra|].
      destruct (Reqb_dec r 0) as [[E ->]|[E ->]]; [apply can_ret; reflexivity|].
      apply (can_bind0 _ (fun _ x => ret (Fin x)) (eq v)); [apply (can_exp _ v); auto|]. intros ? <-. apply can_ret. reflexivity.
    + intros ? <-. apply (can_bind0 _ (fun _ hs => ret (wait (r, v) :: hs)) (eq (map wait (combine rs vs)))); [apply IH; auto|].
      intros ? <-. apply can_ret. reflexivity.
Qed.

Lemma eargmin_wins l m h : nth_error l m = Some (Fin h) ->
  (forall j a, j <> m -> nth_error l j = Some a -> elt (Fin h) a) -> eargmin l = Some m.
Proof.
  intros H1 H2. destruct (eargmin l) as [m'|] eqn:E.
  - destruct (Nat.eq_dec m' m) as [->|N]; auto. destruct (eargmin_min _ _ E) as (b & B1 & B2).
    specialize (B2 _ _ H1). specialize (H2 _ _ N B1). destruct b; cbn in *; try contradiction; lra.
  - destruct l; [destruct m; discriminate|discriminate].
Qed.

Section F.
Variables (dim : nat) (gen : mat) (T : R).
Hypothesis HD : (2 <= dim)%nat.
Hypothesis HG : generator dim gen.

Lemma row_nonneg x : (x < dim)%nat -> Forall (fun r => 0 <= r) (np_delete (row_list dim gen x) x).
Proof.
  intros Hx. rewrite Forall_forall. intros r Hr. apply In_nth_error in Hr as (j & Hj).
  assert (j < dim - 1)%nat by (rewrite <- (delete_row_length dim gen x Hx); apply nth_error_Some; congruence).
  rewrite delete_row_nth in Hj by auto. injection Hj as <-. apply (proj1 HG); auto; destruct (Nat.ltb_spec j x); lia.
Qed.
Lemma combine_nth_error {A B} (l : list A) : forall (m : list B) n a b, nth_error l n = Some a -> nth_error m n = Some b -> nth_error (combine l m) n = Some (a, b).
Proof. induction l; intros m n a0 b0 Ha Hb; destruct n, m; simpl in *; try discriminate; [congruence|auto]. Qed.

Lemma can_forwards_loop js : forall t x u lx, (lx < dim)%nat -> u < T -> jumping dim gen T u lx js ->
  can (fun fuel => forwards_loop fuel T dim gen t x (Fin u) lx) (eq (mk_skel (t ++ u :: map fst js) (x ++ lx :: map snd js) T)).
Proof.
  induction js as [|[v y] js IH]; intros t x u lx Hlx Hu HJ.
  - apply can_fuel. cbn [forwards_loop map]. destruct (Rltb_dec u T) as [[_ ->]|[E _]]; [|lra].
    set (rs := np_delete (row_list dim gen lx) lx). assert (LR : length rs = (dim - 1)%nat) by (apply delete_row_length; auto).
    set (vs := repeat (T - u + 1) (dim - 1)).
    apply (can_bind0 _ (fun fuel hold => do move <- lift_opt ValueError (eargmin hold);
      forwards_loop fuel T dim gen (t ++ [u]) (x ++ [lx]) (eadd_r u (nth move hold PosInf)) (move + (if Nat.leb lx move then 1 else 0)))
      (eq (map wait (combine rs vs)))).
    { apply can_holds; [unfold vs; rewrite repeat_length; auto|apply row_nonneg; auto|]. rewrite Forall_forall. intros a Ha. apply repeat_spec in Ha. subst. lra. }
    intros ? <-. set (hs := map wait (combine rs vs)).
    assert (LH : length hs = (dim - 1)%nat) by (unfold hs, vs; rewrite map_length, combine_length, repeat_length; lia).
    destruct (eargmin hs) as [m|] eqn:EM; [|destruct hs; [cbn in LH; lia|discriminate]].
    pose proof (eargmin_lt _ _ EM) as Hm.
    apply (can_bind0 _ (fun fuel move => forwards_loop fuel T dim gen (t ++ [u]) (x ++ [lx]) (eadd_r u (nth move hs PosInf)) (move + (if Nat.leb lx move then 1 else 0)))
      (eq m)); [exact (can_lift_opt _ _ m (eq m) eq_refl eq_refl)|]. intros ? <-.
    assert (HN : nth m hs PosInf = PosInf \/ nth m hs PosInf = Fin (T - u + 1)).
    { assert (HI : In (nth m hs PosInf) hs) by (apply nth_In; auto). revert HI. generalize (nth m hs PosInf). intros h HI. unfold hs in HI. apply in_map_iff in HI as ([r w] & <- & HI).
      apply in_combine_r in HI. apply repeat_spec in HI. subst w. unfold wait; cbn [fst snd]. destruct (Reqb r 0); auto. }
    apply can_fuel. cbn [forwards_loop]. destruct HN as [-> | ->]; cbn [eadd_r].
    + apply can_ret. reflexivity.
    + destruct (Rltb_dec (u + (T - u + 1)) T) as [[E _]|[_ ->]]; [lra|]. apply can_ret. reflexivity.
  - destruct HJ as (Hv & Hy & Ny & Hr & HJ). apply can_fuel. cbn [forwards_loop map fst snd]. destruct (Rltb_dec u T) as [[_ ->]|[E _]]; [|lra].
    set (rs := np_delete (row_list dim gen lx) lx). assert (LR : length rs = (dim - 1)%nat) by (apply delete_row_length; auto).
    set (m := if Nat.ltb y lx then y else (y - 1)%nat).
    set (vs := map (fun j => if Nat.eqb j m then v - u else v - u + 1) (seq 0 (dim - 1))).
    assert (LV : length vs = (dim - 1)%nat) by (unfold vs; rewrite map_length, seq_length; auto).
    assert (Hm : (m < dim - 1)%nat) by (unfold m; destruct (Nat.ltb_spec y lx); lia).
    assert (Em : (if Nat.ltb m lx then m else S m) = y).
    { unfold m. destruct (Nat.ltb_spec y lx); [destruct (Nat.ltb_spec y lx); lia|]. destruct (Nat.ltb_spec (y - 1) lx); lia. }
    assert (Em' : (m + (if Nat.leb lx m then 1 else 0))%nat = y).
    { unfold m. destruct (Nat.ltb_spec y lx); [destruct (Nat.leb_spec lx y); lia|]. destruct (Nat.leb_spec lx (y - 1)); lia. }
    assert (VN : forall j, (j < dim - 1)%nat -> nth_error vs j = Some (if Nat.eqb j m then v - u else v - u + 1)).
    { intros j Hj. unfold vs. rewrite nth_error_map. rewrite (nth_error_nth' (seq 0 (dim - 1)) 0%nat) by (rewrite seq_length; auto). rewrite seq_nth by auto. reflexivity. }
    apply (can_bind0 _ (fun fuel hold => do move <- lift_opt ValueError (eargmin hold);
      forwards_loop fuel T dim gen (t ++ [u]) (x ++ [lx]) (eadd_r u (nth move hold PosInf)) (move + (if Nat.leb lx move then 1 else 0)))
      (eq (map wait (combine rs vs)))).
    { apply can_holds; [congruence|apply row_nonneg; auto|]. rewrite Forall_forall. intros a Ha. unfold vs in Ha. apply in_map_iff in Ha as (j & <- & _). destruct (Nat.eqb j m); lra. }
    intros ? <-. set (hs := map wait (combine rs vs)).
    assert (HN : forall j, (j < dim - 1)%nat -> nth_error hs j = Some (wait (gen lx (if Nat.ltb j lx then j else S j), if Nat.eqb j m then v - u else v - u + 1))).
    { intros j Hj. unfold hs. rewrite nth_error_map. rewrite (combine_nth_error rs vs j _ _ (delete_row_nth dim gen HD lx j Hlx Hj) (VN j Hj)). reflexivity. }
    assert (HW : nth_error hs m = Some (Fin (v - u))).
    { rewrite HN, Em by auto. unfold wait; cbn [fst snd]. destruct (Reqb_dec (gen lx y) 0) as [[E _]|[_ ->]]; [lra|]. rewrite Nat.eqb_refl. reflexivity. }
    assert (EM : eargmin hs = Some m).
    { apply (eargmin_wins _ _ (v - u) HW). intros j a Nj Ha.
      assert (j < dim - 1)%nat. { assert (j < length hs)%nat by (apply nth_error_Some; congruence). unfold hs in H. rewrite map_length, combine_length in H. lia. }
      rewrite HN in Ha by auto. injection Ha as <-. unfold wait; cbn [fst snd]. destruct (Reqb _ 0); [exact Logic.I|].
      destruct (Nat.eqb_spec j m); [contradiction|]. cbn. lra. }
    apply (can_bind0 _ (fun fuel move => forwards_loop fuel T dim gen (t ++ [u]) (x ++ [lx]) (eadd_r u (nth move hs PosInf)) (move + (if Nat.leb lx move then 1 else 0)))
      (eq m)); [exact (can_lift_opt _ _ m (eq m) EM eq_refl)|]. intros ? <-.
    rewrite (nth_error_nth _ _ PosInf HW), Em'. cbn [eadd_r]. replace (u + (v - u)) with v by ring.
    eapply can_weaken; [apply IH; auto; lra|]. intros s <-. rewrite <- !app_assoc. reflexivity.
Qed.
Lemma can_forwards L x js : 0 < T -> (x < dim)%nat -> jumping dim gen T 0 x js ->
  can (fun fuel => sample_forwards L fuel T (Some x) dim gen) (eq (path T x js)).
Proof.
  intros HT Hx HJ. unfold sample_forwards.
  apply (can_bind0 _ (fun fuel x0 => forwards_loop fuel T dim gen [] [] (Fin 0) x0) (eq x)); [apply can_ret; reflexivity|]. intros ? <-.
  apply (can_forwards_loop js [] [] 0 x); auto.
Qed.
Lemma can_forwards_stat L x js : 0 < T -> pos_off dim gen -> solve_ok L dim (stat_matrix gen) stat_rhs -> (x < dim)%nat -> jumping dim gen T 0 x js ->
  can (fun fuel => sample_forwards L fuel T None dim gen) (eq (path T x js)).
Proof.
  intros HT HO HS Hx HJ. unfold sample_forwards.
  destruct (get_stat_prob dim gen ltac:(lia) (proj2 HG) HO L HS) as (p & E & P1 & P2 & _).
  apply (can_bind0 _ (fun fuel x0 => forwards_loop fuel T dim gen [] [] (Fin 0) x0) (eq x)).
  - apply (can_bind0 _ (fun _ p => choice (vec_list dim p)) (eq p)); [exact (can_lift_opt _ _ p (eq p) E eq_refl)|]. intros ? <-.
    apply (can_choice _ x); auto.
    + unfold is_prob_vector. apply andb_true_iff; split.
      * apply forallb_forall. intros v Hv. unfold vec_list in Hv. apply in_map_iff in Hv as (i & <- & Hi).
        apply in_seq in Hi. apply Rleb_true. specialize (P2 i ltac:(lia)). lra.
      * apply Reqb_true. unfold vec_list. rewrite rsum_list. auto.
    + unfold vec_list. rewrite (nth_indep _ 0 (p 0%nat)) by (rewrite map_length, seq_length; auto). rewrite map_nth, seq_nth by auto. apply P2. auto.
  - intros ? <-. apply (can_forwards_loop js [] [] 0 x); auto.
Qed.
End F.

(** ** bridges *)
Section G.
Variables (L : linalg) (dim : nat) (gen : mat) (T : R).
Hypothesis HG : generator dim gen.
Hypothesis HN : exists a, (a < dim)%nat /\ gen a a < 0.
Hypothesis HT : 0 < T.
Hypothesis HL : expm_exact L.
Let Hrb : 0 < rate_bound dim gen := neg_rate dim gen HN.
Let HP : stochastic dim (dtrans dim gen) := dtrans_stochastic dim gen HG Hrb.
Notation P := (dtrans dim gen).
Notation lam := (rate_bound dim gen * T).

Lemma last_state_cons x v y js : last_state x ((v, y) :: js) = last_state y js.
Proof. unfold last_state. cbn [map snd]. destruct js as [|[w z] js]; [reflexivity|]. cbn [map snd]. change (last (y :: z :: map snd js) x) with (last (z :: map snd js) x). revert z; induction js as [|[a b] js IH]; intros z; [reflexivity|]. cbn [map snd]. change (last (z :: b :: map snd js) x) with (last (b :: map snd js) x). rewrite IH. reflexivity. Qed.
Lemma last_state_lt js : forall u x, (x < dim)%nat -> jumping dim gen T u x js -> (last_state x js < dim)%nat.
Proof.
  induction js as [|[v y] js IH]; intros u x Hx HJ; [exact Hx|]. destruct HJ as (_ & Hy & _ & _ & HJ). rewrite last_state_cons. eauto.
Qed.
Lemma step_pos x y : (x < dim)%nat -> (y < dim)%nat -> y <> x -> 0 < gen x y -> 0 < P x y.
Proof.
  intros Hx Hy N Hr. unfold dtrans, mident. destruct (Nat.eqb_spec x y) as [->|_]; [contradiction|].
  assert (0 < gen x y / rate_bound dim gen) by (apply Rdiv_lt_0_compat; auto). lra.
Qed.
Lemma path_power js : forall u x, (x < dim)%nat -> jumping dim gen T u x js -> 0 < mpow dim P (length js) x (last_state x js).
Proof.
  induction js as [|[v y] js IH]; intros u x Hx HJ.
  - cbn. unfold mident, last_state. cbn. rewrite Nat.eqb_refl. lra.
  - pose proof (last_state_lt _ _ _ Hx HJ) as HF. destruct HJ as (Hv & Hy & Ny & Hr & HJ). rewrite last_state_cons in *. cbn [length].
    rewrite <- mpow_comm by auto. apply (rsum_pos dim _ y); auto.
    + intros k Hk. apply Rmult_le_pos; [apply HP; auto|]. apply (mpow_bounds dim P HP); auto.
    + apply Rmult_lt_0_compat; [apply step_pos; auto|]. eapply IH; eauto.
Qed.

Lemma can_n_trans x f n : (x < dim)%nat -> (f < dim)%nat -> 0 < mpow dim P n x f ->
  can (fun fuel => sample_n_trans fuel dim P (rate_bound dim gen) T (get_trans L dim T gen) x f) (eq (n, powers dim gen n)).
Proof.
  intros Hx Hf Hn. unfold sample_n_trans.
  set (ps := psum dim gen T x f). set (C := get_trans L dim T gen x f).
  assert (HlP : 0 < lam) by (apply Rmult_lt_0_compat; auto).
  assert (Hu : 0 < uterm dim P lam x f n).
  { unfold uterm. apply Rmult_lt_0_compat; auto. apply Rdiv_lt_0_compat; [apply pow_lt; auto|apply INR_fact_lt_0]. }
  pose proof (psum_le L dim gen T HG Hrb HT HL x f n Hx Hf) as Hle. fold ps C in Hle.
  set (a := match n with O => 0 | S m => ps m end).
  assert (E : ps n = a + uterm dim P lam x f n).
  { unfold a, ps, psum. destruct n as [|m]; cbn [rsum]; lra. }
  assert (Ha : 0 <= a) by (unfold a; destruct n; [lra|apply (psum_nonneg dim gen T HG Hrb HT); auto]).
  assert (HCe : 0 < C * exp lam) by lra.
  assert (HC : 0 < C). { apply (Rmult_lt_reg_r (exp lam)); [apply exp_pos|lra]. }
  apply (can_bind0 _ (fun fuel v => lift (n_trans_loop fuel dim P lam x f (eplus (eplus (eln v) (eln C)) (Fin lam)) 0 (if Nat.eqb x f then Fin 0 else NegInf) [mident]))
    (fun v => 0 < v < 1 /\ a < target L dim gen T v x f < ps n)).
  { apply (can_unif01 (a / (C * exp lam)) (ps n / (C * exp lam))).
    - apply Rmult_le_pos; [auto|left; apply Rinv_0_lt_compat; auto].
    - apply Rmult_lt_compat_r; [apply Rinv_0_lt_compat; auto|lra].
    - apply Rdiv_le_1; auto.
    - intros v [V1 V2]. assert (0 <= a / (C * exp lam)) by (apply Rmult_le_pos; [auto|left; apply Rinv_0_lt_compat; auto]).
      assert (ps n / (C * exp lam) <= 1) by (apply Rdiv_le_1; auto).
      split; [lra|]. unfold target. fold C. rewrite Rmult_assoc.
      split; [apply (Rmult_lt_compat_r _ _ _ HCe) in V1|apply (Rmult_lt_compat_r _ _ _ HCe) in V2];
        unfold Rdiv in *; rewrite Rmult_assoc, Rinv_l in * by lra; lra. }
  intros v (Hv & Ht). set (w := target L dim gen T v x f) in *.
  assert (EW : eplus (eplus (eln v) (eln C)) (Fin lam) = eln w).
  { rewrite (fin_eln lam). rewrite !eplus_eln; [reflexivity| | | |]; try lra; [apply Rmult_le_pos; lra|left; apply exp_pos]. }
  assert (Hw : 0 <= w) by lra.
  apply (can_det _ _ (n, powers dim gen n) eq_refl). exists (S n). intros fuel HF o k. unfold lift. rewrite EW, (psum_0 dim gen T).
  change [mident] with (rev (powers dim gen 0)).
  destruct (n_trans_loop_total dim gen T HG Hrb HT x f w Hx Hf Hw n ltac:(fold ps; lra) fuel 0 ltac:(lia) ltac:(lia)) as [m Em].
  rewrite Em. pose proof (n_trans_loop_search dim gen T HG Hrb HT fuel x f w Hx Hf Hw 0 m _ Em) as (_ & H2 & H3). fold ps in H2, H3.
  assert (m = n); [|subst; reflexivity].
  destruct (lt_eq_lt_dec m n) as [[H|H]|H]; [exfalso|auto|exfalso].
  - assert (ps m <= a). { unfold a. destruct n as [|n']; [lia|]. apply (psum_mono dim gen T HG Hrb HT); auto. lia. } lra.
  - specialize (H3 n ltac:(lia)). lra.
Qed.

Lemma can_states N : forall js x v y u, (x < dim)%nat -> jumping dim gen T u x ((v, y) :: js) -> (S (length js) <= N)%nat ->
  can (fun _ => bridge_states dim P (powers dim gen N) (last_state y js) (length js) x) (eq (removelast (y :: map snd js))).
Proof.
  induction js as [|[w z] js IH]; intros x v y u Hx HJ HLe.
  - cbn. apply can_ret. reflexivity.
  - pose proof (path_power _ _ _ Hx HJ) as HP1. pose proof (last_state_lt _ _ _ Hx HJ) as HF.
    destruct HJ as (Hv & Hy & Ny & Hr & HJ). pose proof (path_power _ _ _ Hy HJ) as HP2. rewrite last_state_cons in HP1, HF. cbn [length] in *. cbn [bridge_states].
    apply (can_bind0 _ (fun _ y' => do ys <- bridge_states dim P (powers dim gen N) (last_state y ((w, z) :: js)) (length js) y'; ret (y' :: ys)) (eq y)).
    + apply (can_choice _ y); auto.
      * apply choice_vector; auto. exists N; split; auto.
      * rewrite (bridge_probs_nth dim gen) by (auto; lia). apply Rdiv_lt_0_compat; auto. apply Rmult_lt_0_compat; auto. apply step_pos; auto.
    + intros ? <-. rewrite last_state_cons.
      apply (can_bind0 _ (fun _ ys => ret (y :: ys)) (eq (removelast (z :: map snd js)))).
      * apply (IH y w z v); auto. lia.
      * intros ? <-. apply can_ret. reflexivity.
Qed.

Lemma can_times eps (js : list (R * nat)) : 0 < eps -> forall u x lo, 0 <= lo <= u -> jumping dim gen T u x js ->
  can (fun _ => draw_rs (repeat (DUniform 0 T) (length js)))
    (fun us => Forall2 (fun a b => Rabs (a - b) < eps) (map fst js) us /\ StronglySorted Rlt us /\ Forall (fun b => lo < b < T) us).
Proof.
  intros He. induction js as [|[v y] js IH]; intros u x lo Hlo HJ; cbn [length repeat draw_rs map].
  - apply can_ret. split; [constructor|]. split; constructor.
  - destruct HJ as (Hv & Hy & Ny & Hr & HJ). set (m := Rmax lo (v - eps)).
    assert (M1 : lo <= m) by apply Rmax_l. assert (M2 : v - eps <= m) by apply Rmax_r. assert (M3 : m < v) by (apply Rmax_lub_lt; lra).
    apply (can_bind0 _ (fun _ b => do bs <- draw_rs (repeat (DUniform 0 T) (length js)); ret (b :: bs)) (fun b => m < b < v)).
    + apply (can_unif 0 T (m / T) (v / T)).
      * apply Rmult_le_pos; [lra|left; apply Rinv_0_lt_compat; auto].
      * apply Rmult_lt_compat_r; [apply Rinv_0_lt_compat; auto|lra].
      * apply Rdiv_le_1; lra.
      * intros b [B1 B2]. apply (Rmult_lt_compat_r _ _ _ HT) in B1. apply (Rmult_lt_compat_r _ _ _ HT) in B2.
        unfold Rdiv in *. rewrite Rmult_assoc, Rinv_l in B1, B2 by lra. lra.
    + intros b Hb. apply (can_bind0 _ (fun _ bs => ret (b :: bs)) (fun us => Forall2 (fun a b => Rabs (a - b) < eps) (map fst js) us /\ StronglySorted Rlt us /\ Forall (fun c => b < c < T) us)).
      * apply (IH v y b); auto. lra.
      * intros us (U1 & U2 & U3). apply can_ret. split; [constructor; auto; cbn; rewrite Rabs_right; lra|]. split.
        -- constructor; auto. eapply Forall_impl; [|apply U3]. cbn. intros; lra.
        -- constructor; [lra|]. eapply Forall_impl; [|apply U3]. cbn. intros; lra.
Qed.

Lemma mask_all {A} (l : list A) : forall bs, length bs = length l -> Forall (fun b => b = true) bs -> mask l bs = Some l.
Proof.
  induction l as [|a l IH]; intros [|b bs] HLn HB; try discriminate; [reflexivity|]. inversion HB; subst. cbn. rewrite IH; auto.
Qed.
Lemma jumps_real js : forall u x, jumping dim gen T u x js -> Forall (fun b => b = true) (not_virtual (x :: map snd js)) /\ length (not_virtual (x :: map snd js)) = S (length js).
Proof.
  enough (H : forall js u x, jumping dim gen T u x js -> Forall (fun b => b = false) (eq_pairs (map snd js) (but_last (x :: map snd js))) /\ length (eq_pairs (map snd js) (but_last (x :: map snd js))) = length js).
  { intros u x HJ. destruct (H js u x HJ) as [H1 H2]. unfold not_virtual. cbn [tl map negb]. split.
    - constructor; auto. rewrite Forall_forall in *. intros b Hb. apply in_map_iff in Hb as (c & <- & Hc). rewrite (H1 c Hc). reflexivity.
    - cbn [length]. rewrite map_length. congruence. }
  clear js. induction js as [|[v y] js IH]; intros u x HJ; [cbn; auto|]. destruct HJ as (_ & _ & Ny & _ & HJ). destruct (IH v y HJ) as [H1 H2].
  cbn [map snd] in *. change (but_last (x :: y :: map snd js)) with (x :: but_last (y :: map snd js)).
  change (eq_pairs (y :: map snd js) (x :: but_last (y :: map snd js))) with (Nat.eqb y x :: eq_pairs (map snd js) (but_last (y :: map snd js))).
  split; [constructor; auto; apply Nat.eqb_neq; auto|]. cbn [length]. f_equal. exact H2.
Qed.
Lemma sort_id l : StronglySorted Rlt l -> np_sort l = l.
Proof.
  induction 1 as [|a l H IH F]; [reflexivity|]. cbn [np_sort]. rewrite IH. destruct l as [|b l]; [reflexivity|]. cbn [sort_ins].
  inversion F; subst. match goal with |- context [if ?c then _ else _] => destruct c eqn:E end; auto; exfalso; revert E; cbn; try (destruct (Rltb_dec b a) as [[? ->]|[? ->]]); try (destruct (Rleb_dec a b) as [[? ->]|[? ->]]); try discriminate; lra.
Qed.

Lemma can_bridge eps x js : 0 < eps -> (x < dim)%nat -> jumping dim gen T 0 x js ->
  can (fun fuel => sample_bridge L fuel T x (last_state x js) dim gen) (near eps (path T x js)).
Proof.
  intros He Hx HJ. unfold sample_bridge.
  pose proof (last_state_lt _ _ _ Hx HJ) as HF. pose proof (path_power _ _ _ Hx HJ) as HPw.
  set (f := last_state x js) in *.
  apply (can_bind _ (fun fuel r => let '(n_trans, pows) := r in
    if Nat.eqb n_trans 0 || (Nat.eqb n_trans 1 && Nat.eqb x f) then ret (mk_skel [0] [x] T)
    else do mid <- bridge_states dim P pows f (n_trans - 1) x;
      let x' := x :: mid ++ [f] in
      do us <- draw_rs (repeat (DUniform 0 T) n_trans);
      let t := 0 :: np_sort us in
      do t' <- lift_opt IndexError (mask t (not_virtual x'));
      do x'' <- lift_opt IndexError (mask x' (not_virtual x'));
      ret (mk_skel t' x'' T)) (eq (length js, powers dim gen (length js)))).
  { apply can_n_trans; auto. }
  intros ? <-. destruct js as [|[v y] js'].
  { cbn. apply can_ret. unfold near, path; cbn. repeat split; auto. constructor; [rewrite Rminus_diag_eq, Rabs_R0 by auto; auto|constructor]. }
  set (js := (v, y) :: js') in *.
  assert (EB : Nat.eqb (length js) 0 || (Nat.eqb (length js) 1 && Nat.eqb x f) = false).
  { unfold js at 1 2. cbn [length Nat.eqb orb]. destruct js' as [|]; [|reflexivity]. cbn. apply Nat.eqb_neq. unfold f, js, last_state. cbn. destruct HJ as (_ & _ & Ny & _). auto. }
  rewrite EB.
  assert (Ef : f = last_state y js') by (unfold f, js; apply last_state_cons).
  replace (length js - 1)%nat with (length js') by (unfold js; cbn; lia).
  apply (can_bind0 _ (fun fuel mid => let x' := x :: mid ++ [f] in
      do us <- draw_rs (repeat (DUniform 0 T) (length js));
      let t := 0 :: np_sort us in
      do t' <- lift_opt IndexError (mask t (not_virtual x'));
      do x'' <- lift_opt IndexError (mask x' (not_virtual x'));
      ret (mk_skel t' x'' T)) (eq (removelast (y :: map snd js')))).
  { rewrite Ef. apply (can_states (length js) js' x v y 0); auto. }
  intros ? <-. assert (EX : x :: removelast (y :: map snd js') ++ [f] = x :: map snd js).
  { f_equal. symmetry. exact (app_removelast_last x (l := y :: map snd js') ltac:(discriminate)). }
  cbv zeta. rewrite EX.
  apply (can_bind0 _ (fun fuel us => do t' <- lift_opt IndexError (mask (0 :: np_sort us) (not_virtual (x :: map snd js)));
      do x'' <- lift_opt IndexError (mask (x :: map snd js) (not_virtual (x :: map snd js)));
      ret (mk_skel t' x'' T)) (fun us => Forall2 (fun a b => Rabs (a - b) < eps) (map fst js) us /\ StronglySorted Rlt us /\ Forall (fun c => 0 < c < T) us)).
  { apply (can_times eps js He 0 x 0); auto. lra. }
  intros us (U1 & U2 & U3). rewrite (sort_id us U2).
  destruct (jumps_real _ _ _ HJ) as [R1 R2].
  assert (LU : length us = length js) by (rewrite <- (map_length fst js); clear - U1; revert us U1; induction (map fst js); intros us U1; inversion U1; cbn; auto).
  pose proof (mask_all (0 :: us) _ (eq_trans R2 (f_equal S (eq_sym LU))) R1) as M1.
  pose proof (mask_all (x :: map snd js) _ (eq_trans R2 (f_equal S (eq_sym (map_length snd js)))) R1) as M2.
  rewrite M1, M2.
  apply (can_det _ _ (mk_skel (0 :: us) (x :: map snd js) T)); [|exists 0%nat; reflexivity].
  unfold near, path; cbn [sk_t sk_x sk_fin]. repeat split; auto. constructor; auto. rewrite Rminus_diag_eq, Rabs_R0 by auto; auto.
Qed.

Lemma can_backwards eps x js : 0 < eps -> (x < dim)%nat -> jumping dim gen T 0 x js ->
  can (fun fuel => sample_backwards L fuel T (last_state x js) dim gen) (near eps (path T x js)).
Proof.
  intros He Hx HJ. unfold sample_backwards.
  pose proof (last_state_lt _ _ _ Hx HJ) as HF. pose proof (path_power _ _ _ Hx HJ) as HPw.
  set (f := last_state x js) in *.
  destruct (backwards_choice L dim gen T HG HN HT HL f HF) as [B1 _].
  assert (NN : forall j, (j < dim)%nat -> 0 <= get_trans L dim T gen j f)
    by (intros j Hj; apply (trans_nonneg L dim gen T HG Hrb HT HL); auto).
  assert (HC : 0 < get_trans L dim T gen x f).
  { pose proof (psum_le L dim gen T HG Hrb HT HL x f (length js) Hx HF) as Hle.
    assert (0 < psum dim gen T x f (length js)).
    { apply (rsum_pos (S (length js)) _ (length js)); auto.
      - intros k Hk. apply (uterm_nonneg dim gen T HG Hrb HT); auto.
      - unfold uterm. apply Rmult_lt_0_compat; auto. apply Rdiv_lt_0_compat; [apply pow_lt, Rmult_lt_0_compat; auto|apply INR_fact_lt_0]. }
    apply (Rmult_lt_reg_r (exp lam)); [apply exp_pos|]. lra. }
  apply (can_bind0 _ (fun fuel x0 => sample_bridge L fuel T x0 f dim gen) (eq x)).
  - apply (can_choice _ x); auto.
    rewrite (nth_indep _ 0 ((fun i => get_trans L dim T gen i f / rsum dim (fun j => get_trans L dim T gen j f)) 0%nat))
      by (rewrite map_length, seq_length; auto).
    rewrite (map_nth (fun i => get_trans L dim T gen i f / rsum dim (fun j => get_trans L dim T gen j f))).
    rewrite seq_nth by auto. cbn. apply Rdiv_lt_0_compat; auto. apply (rsum_pos dim _ x); auto.
  - intros ? <-. apply can_bridge; auto.
Qed.
End G.
