(** The time of the minimum of a Brownian bridge: the two branches of the mixture. *)
From Coquelicot Require Import Rcomplements Hierarchy Rbar Lim_seq Continuity Derive RInt RInt_gen RInt_analysis AutoDerive.
From Coq Require Import Reals List Bool Arith Lra Lia Psatz.
From Verif Require Import Base Rng SpecLaw SpecArg L_rng L_law L_law2 L_law5 L_gauss L_arg.
Import ListNotations.
Local Open Scope R_scope.

Lemma half_line_limit : forall t, 0 < t -> exists L, filterlim (fun u => RInt (fun s => exp (- s ^ 2 / (2 * t))) 0 u) (Rbar_locally p_infty) (locally L).
Proof.
  intros t Ht. set (f := fun s : R => exp (- s ^ 2 / (2 * t))).
  assert (Cf : forall s, continuous f s) by (intros s; apply (ex_derive_continuous f); unfold f; auto_derive; exact Logic.I).
  assert (EX : forall a b, is_RInt f a b (RInt f a b)).
  { intros a b. apply (RInt_correct (V := R_CompleteNormedModule)), (ex_RInt_continuous (V := R_CompleteNormedModule)). intros; apply Cf. }
  assert (LE : forall s, f s <= (1 + 2 * t) / (1 + s ^ 2)).
  { intros s. unfold f. replace (- s ^ 2 / (2 * t)) with (- (s ^ 2 / (2 * t))) by (field; lra). rewrite exp_Ropp.
    pose proof (exp_ineq1_le (s ^ 2 / (2 * t))) as H. pose proof (exp_pos (s ^ 2 / (2 * t))). pose proof (pow2_ge_0 s).
    apply (Rmult_le_reg_r (exp (s ^ 2 / (2 * t)) * (1 + s ^ 2))); [apply Rmult_lt_0_compat; lra|].
    replace (/ exp (s ^ 2 / (2 * t)) * (exp (s ^ 2 / (2 * t)) * (1 + s ^ 2))) with (1 + s ^ 2) by (field; lra).
    replace ((1 + 2 * t) / (1 + s ^ 2) * (exp (s ^ 2 / (2 * t)) * (1 + s ^ 2))) with ((1 + 2 * t) * exp (s ^ 2 / (2 * t))) by (field; lra).
    apply Rle_trans with ((1 + 2 * t) * (1 + s ^ 2 / (2 * t))); [|apply Rmult_le_compat_l; lra].
    assert (0 <= s ^ 2 / (2 * t)) by (apply Rmult_le_pos; [lra|left; apply Rinv_0_lt_compat; lra]).
    replace (s ^ 2) with (2 * t * (s ^ 2 / (2 * t))) at 1 by (field; lra). nra. }
  destruct (gen_exists_ge f (at_point 0) (Rbar_locally p_infty) (fun s => 0 <= s) ((1 + 2 * t) * PI) 0 0 0) as (L & _ & HL); try typeclasses eauto; try lra.
  - intros s _. left. apply exp_pos.
  - intros a b s. lra.
  - intros a b Ha Hb H. exists (RInt f a b). split; [apply EX|].
    apply Rle_trans with ((1 + 2 * t) * atan b - (1 + 2 * t) * atan a).
    + apply (is_RInt_le f (fun s => (1 + 2 * t) / (1 + s ^ 2)) a b _ _ H (EX a b)); [|intros; apply LE].
      apply (is_RInt_derive (fun s => (1 + 2 * t) * atan s)).
      * intros s _. auto_derive; [exact Logic.I|]. unfold Rsqr. field. nra.
      * intros s _. apply (ex_derive_continuous (fun s => (1 + 2 * t) / (1 + s ^ 2))). auto_derive. nra.
    + pose proof (atan_bound a). pose proof (atan_bound b). nra.
  - intros a Ha. unfold at_point. lra.
  - intros b Hb. exists b. intros s Hs. lra.
  - apply (is_RInt_point (V := R_NormedModule) f 0).
  - exists L. intros P HP. destruct (HL P HP) as [Q T HQ HT HX]. unfold filtermap.
    eapply filter_imp; [|exact HT]. intros u Hu. destruct (HX 0 u HQ Hu) as (z & Iz & Pz). cbn [fst snd] in Iz.
    rewrite (is_RInt_unique _ _ _ _ Iz). exact Pz.
Qed.
(** continuity of products and of compositions on the half line *)
Lemma filter_pw : forall c, 0 < c -> filterlim (pw c) (Rbar_locally p_infty) (Rbar_locally p_infty).
Proof.
  intros c Hc P [M HM]. exists (exp (ln (Rmax 1 M) / c)). intros w Hw. apply HM.
  assert (1 <= Rmax 1 M) by apply Rmax_l. apply Rle_lt_trans with (Rmax 1 M); [apply Rmax_r|].
  rewrite <- (exp_ln (Rmax 1 M)) at 1 by lra. unfold pw. apply exp_increasing.
  assert (ln (exp (ln (Rmax 1 M) / c)) < ln w) by (apply ln_increasing; [apply exp_pos|exact Hw]).
  rewrite ln_exp in H0. apply (Rmult_lt_compat_l c) in H0; [|exact Hc]. replace (c * (ln (Rmax 1 M) / c)) with (ln (Rmax 1 M)) in H0 by (field; lra). exact H0.
Qed.
Lemma filter_pw_neg : forall c, 0 < c -> filterlim (pw (- c)) (at_right 0) (Rbar_locally p_infty).
Proof.
  intros c Hc P [M HM]. unfold filtermap. pose proof (at_right_below (exp (- (ln (Rmax 1 M + 1) / c))) (exp_pos _)) as HA.
  revert HA. apply (filter_imp (F := at_right 0)). intros w [Hw Hw2]. apply HM.
  assert (1 <= Rmax 1 M) by apply Rmax_l. apply Rlt_le_trans with (Rmax 1 M + 1); [pose proof (Rmax_r 1 M); lra|].
  rewrite <- (exp_ln (Rmax 1 M + 1)) at 1 by lra. unfold pw.
  assert (ln w <= - (ln (Rmax 1 M + 1) / c)).
  { rewrite <- (ln_exp (- (ln (Rmax 1 M + 1) / c))). destruct Hw2 as [Hw2| ->]; [left; apply ln_increasing; assumption|lra]. }
  set (l := ln (Rmax 1 M + 1)) in *.
  assert (l <= - c * ln w).
  { apply (Rmult_le_compat_l c) in H0; [|lra]. replace (c * - (l / c)) with (- l) in H0 by (field; lra). lra. }
  destruct H1 as [H1| <-]; [left; apply exp_increasing; exact H1|lra].
Qed.
Lemma balance : forall t x y Z1 Z2, 0 < t -> 0 < x -> 0 < y ->
  is_RInt_gen (k1 t x y) (at_right 0) (Rbar_locally p_infty) Z1 -> is_RInt_gen (k2 t x y) (at_right 0) (Rbar_locally p_infty) Z2 ->
  x * Z2 = y * Z1.
Proof.
  intros t x y Z1 Z2 Ht Hx Hy I1 I2.
  set (q := fun w => x * pw (1 / 2) w + y * pw (- (1 / 2)) w).
  set (f := fun s : R => exp (- s ^ 2 / (2 * t))). set (Phi := fun u => RInt f 0 u).
  assert (Cf : forall s, continuous f s) by (intros s; apply (ex_derive_continuous f); unfold f; auto_derive; exact Logic.I).
  assert (DP : forall u, is_derive Phi u (f u)).
  { intros u. apply (is_derive_RInt f Phi 0 u).
    - apply filter_forall. intros v. apply (RInt_correct (V := R_CompleteNormedModule)), (ex_RInt_continuous (V := R_CompleteNormedModule)). intros; apply Cf.
    - apply Cf. }
  destruct (half_line_limit t Ht) as [L HL]. fold f in HL. change (filterlim Phi (Rbar_locally p_infty) (locally L)) in HL.
  assert (Q1 : filterlim q (at_right 0) (Rbar_locally p_infty)).
  { intros P [M HM]. unfold filtermap. pose proof (filter_pw_neg (1 / 2) ltac:(lra) (fun v => Rmax 0 M / y < v)) as A.
    assert (HA : Rbar_locally p_infty (fun v => Rmax 0 M / y < v)) by (exists (Rmax 0 M / y); auto). specialize (A HA). unfold filtermap in A.
    revert A. apply (filter_imp (F := at_right 0)). intros w Hw. apply HM. unfold q. pose proof (pw_pos (1 / 2) w). pose proof (Rmax_r 0 M).
    apply (Rmult_lt_compat_l y) in Hw; [|exact Hy]. replace (y * (Rmax 0 M / y)) with (Rmax 0 M) in Hw by (field; lra). nra. }
  assert (Q2 : filterlim q (Rbar_locally p_infty) (Rbar_locally p_infty)).
  { intros P [M HM]. unfold filtermap. pose proof (filter_pw (1 / 2) ltac:(lra) (fun v => Rmax 0 M / x < v)) as A.
    assert (HA : Rbar_locally p_infty (fun v => Rmax 0 M / x < v)) by (exists (Rmax 0 M / x); auto). specialize (A HA). unfold filtermap in A.
    revert A. apply (filter_imp (F := Rbar_locally p_infty)). intros w Hw. apply HM. unfold q. pose proof (pw_pos (- (1 / 2)) w). pose proof (Rmax_r 0 M).
    apply (Rmult_lt_compat_l x) in Hw; [|exact Hx]. replace (x * (Rmax 0 M / x)) with (Rmax 0 M) in Hw by (field; lra). nra. }
  assert (EQ : forall w, 0 < w -> f (q w) = exp (- (x * y / t)) * ker t x y w).
  { intros w Hw. unfold f, ker. rewrite <- exp_plus. f_equal. unfold q.
    assert (E1 : pw (1 / 2) w * pw (1 / 2) w = w) by (rewrite <- pw_plus; replace (1 / 2 + 1 / 2) with 1 by lra; apply pw_1; exact Hw).
    assert (E2 : pw (1 / 2) w * pw (- (1 / 2)) w = 1) by (rewrite <- pw_plus; replace (1 / 2 + - (1 / 2)) with 0 by lra; unfold pw; rewrite Rmult_0_l; apply exp_0).
    pose proof (pw_pos (1 / 2) w) as P1. set (r := pw (1 / 2) w) in *. set (s := pw (- (1 / 2)) w) in *.
    assert (s = / r) as -> by (apply (Rmult_eq_reg_l r); [rewrite E2; field; lra|lra]).
    rewrite <- E1. field. lra. }
  assert (DQ : forall w, 0 < w -> is_derive q w (/ 2 * (x * pw (- (1 / 2)) w - y * pw (- (3 / 2)) w))).
  { intros w Hw. unfold q, pw. auto_derive; [lra|].
    assert (E1 : exp (- (1 / 2) * ln w) = exp (1 / 2 * ln w) / w).
    { unfold Rdiv. rewrite <- (exp_ln w Hw) at 3. rewrite <- exp_Ropp, <- exp_plus. f_equal. lra. }
    assert (E2 : exp (- (3 / 2) * ln w) = exp (- (1 / 2) * ln w) / w).
    { unfold Rdiv. rewrite <- (exp_ln w Hw) at 3. rewrite <- exp_Ropp, <- exp_plus. f_equal. lra. }
    rewrite E2. replace (exp (- (1 / 2) * ln w)) with (exp (1 / 2 * ln w) / w) at 2 by (symmetry; exact E1). 
    replace (exp (1 * / 2 * ln w)) with (exp (1 / 2 * ln w)) by reflexivity.
    replace (exp (- (1 * / 2) * ln w)) with (exp (- (1 / 2) * ln w)) by reflexivity. field. lra. }
  set (e := exp (- (x * y / t))). assert (He : 0 < e) by apply exp_pos.
  assert (I0 : is_RInt_gen (fun w => / 2 * (x * pw (- (1 / 2)) w - y * pw (- (3 / 2)) w) * f (q w)) (at_right 0) (Rbar_locally p_infty) (L - L)).
  { apply (gen_ftc _ (fun w => Phi (q w))); [typeclasses eauto|typeclasses eauto| | |].
    - eapply (filter_imp (F := filter_prod (at_right 0) (Rbar_locally p_infty))); [|exact right_above]. intros [a b] H. cbn [fst snd] in *.
      apply (is_RInt_derive (fun w => Phi (q w))).
      + intros w. rewrite Rmin_left, Rmax_right by lra. intros Hw.
        pose proof (is_derive_comp Phi q w (f (q w)) _ (DP (q w)) (DQ w ltac:(lra))) as K. exact K.
      + intros w. rewrite Rmin_left, Rmax_right by lra. intros Hw.
        apply (continuous_mult (fun w => / 2 * (x * pw (- (1 / 2)) w - y * pw (- (3 / 2)) w)) (fun w => f (q w))).
        * apply (ex_derive_continuous (fun w => / 2 * (x * pw (- (1 / 2)) w - y * pw (- (3 / 2)) w))). unfold pw. auto_derive. split; lra.
        * apply (continuous_comp q f); [|apply Cf]. apply (ex_derive_continuous q). eexists. apply DQ. lra.
    - apply (filterlim_comp R R R q Phi _ (Rbar_locally p_infty)); [exact Q1|exact HL].
    - apply (filterlim_comp R R R q Phi _ (Rbar_locally p_infty)); [exact Q2|exact HL]. }
  pose proof (is_RInt_gen_minus _ _ _ _ (is_RInt_gen_scal _ (/ 2 * e * x) _ I2) (is_RInt_gen_scal _ (/ 2 * e * y) _ I1)) as I3.
  unfold minus, plus, opp, scal in I3; cbn in I3; unfold mult in I3; cbn in I3.
  assert (I4 : is_RInt_gen (fun w => / 2 * e * x * k2 t x y w + - (/ 2 * e * y * k1 t x y w)) (at_right 0) (Rbar_locally p_infty) (L - L)).
  { refine (is_RInt_gen_ext _ _ _ _ I0). eapply filter_imp; [|exact right_above_pos]. intros ab H w Hw. specialize (H w Hw).
    rewrite EQ by exact H. unfold k1, k2. fold e. req. ring. }
  pose proof (is_RInt_gen_unique _ _ I3) as U1. rewrite (is_RInt_gen_unique _ _ I4) in U1.
  apply (Rmult_eq_reg_l (/ 2 * e)); [|lra]. lra.
Qed.

(** the law of the second argument, written in the variable of the first branch *)
Lemma swap_kernel : forall t x y h v, 0 < t -> 0 < x -> 0 < y -> (forall w, 0 < w -> continuous h w) ->
  is_RInt_gen (fun w => k2 t x y w * h w) (at_right 0) (Rbar_locally p_infty) v ->
  is_RInt_gen (fun w => k1 t y x w * h (1 / w)) (at_right 0) (Rbar_locally p_infty) v.
Proof.
  intros t x y h v Ht Hx Hy Ch HI.
  assert (K : is_RInt_gen (fun w => - - (1 / w ^ 2) * (k2 t x y (1 / w) * h (1 / w))) (at_right 0) (Rbar_locally p_infty) v).
  { apply (gen_subst (fun w => k2 t x y w * h w) (fun w => 1 / w) (fun w => - (1 / w ^ 2)) (at_right 0) (Rbar_locally p_infty) _ _ (fun w => 0 < w) (fun w => 0 < w)); try typeclasses eauto.
    - intros w Hw. apply (continuous_mult (k2 t x y) h); [apply k_cont; assumption|apply Ch; exact Hw].
    - intros w Hw. apply Rmult_lt_0_compat; [lra|apply Rinv_0_lt_compat; exact Hw].
    - intros w Hw. split; [auto_derive; [lra|field; lra]|]. apply (ex_derive_continuous (fun w => - (1 / w ^ 2))). auto_derive. nra.
    - intros a b w. lra.
    - apply at_right_all.
    - apply at_inf_all.
    - intros P [M HM]. unfold filtermap. assert (0 < 1 / (Rmax 0 M + 1)) by (pose proof (Rmax_l 0 M); apply Rmult_lt_0_compat; [lra|apply Rinv_0_lt_compat; lra]).
      pose proof (at_right_below _ H) as A. revert A. apply (filter_imp (F := at_right 0)). intros w [Hw Hw2]. apply HM.
      pose proof (Rmax_l 0 M). pose proof (Rmax_r 0 M). apply Rlt_le_trans with (Rmax 0 M + 1); [lra|].
      apply (Rmult_le_reg_r w); [exact Hw|]. replace (1 / w * w) with 1 by (field; lra).
      apply (Rmult_le_compat_l (Rmax 0 M + 1)) in Hw2; [|lra]. replace ((Rmax 0 M + 1) * (1 / (Rmax 0 M + 1))) with 1 in Hw2 by (field; lra). exact Hw2.
    - intros P [eps HP]. exists (1 / eps). intros w Hw. assert (0 < 1 / eps) by (apply Rmult_lt_0_compat; [lra|apply Rinv_0_lt_compat, cond_pos]).
      assert (0 < 1 / w) by (apply Rmult_lt_0_compat; [lra|apply Rinv_0_lt_compat; lra]).
      apply HP; [|exact H0]. unfold ball; cbn; unfold AbsRing_ball, abs, minus, plus, opp; cbn. replace (1 / w + - 0) with (1 / w) by ring.
      rewrite Rabs_pos_eq by lra. destruct eps as [e He]; cbn in *. apply (Rmult_lt_reg_r w); [lra|]. replace (1 / w * w) with 1 by (field; lra).
      apply (Rmult_lt_compat_l e) in Hw; [|exact He]. replace (e * (1 / e)) with 1 in Hw by (field; lra). exact Hw.
    - exact HI. }
  refine (is_RInt_gen_ext _ _ _ _ K). eapply filter_imp; [|exact right_above_pos]. intros ab H w Hw. specialize (H w Hw).
  assert (E : 1 / w ^ 2 * k2 t x y (1 / w) = k1 t y x w).
  { unfold k1, k2. replace (ker t x y (1 / w)) with (ker t y x w) by (unfold ker; f_equal; field; lra).
    rewrite <- Rmult_assoc. f_equal. unfold pw. replace (1 / w ^ 2) with (exp (- 2 * ln w)).
    - rewrite <- exp_plus. f_equal. unfold Rdiv at 2. rewrite Rmult_1_l, ln_Rinv by exact H. field.
    - replace (-2 * ln w) with (- (ln w + ln w)) by ring. rewrite exp_Ropp, exp_plus, exp_ln by exact H. field. lra. }
  rewrite <- E. req. ring.
Qed.
(** back to the time scale *)
Lemma time_kernel : forall t x y h v, 0 < t -> 0 < x -> 0 < y -> (forall u, 0 < u < t -> continuous h u) ->
  is_RInt_gen (fun w => (k1 t x y w + k2 t x y w) * h (t / (1 + w))) (at_right 0) (Rbar_locally p_infty) v ->
  is_RInt_gen (fun u => t ^ 2 * exp ((x ^ 2 + y ^ 2) / (2 * t)) * (argmin_weight t x y u * h u)) (at_right 0) (at_left t) v.
Proof.
  intros t x y h v Ht Hx Hy Ch HI.
  assert (IN : forall w, 0 < w -> 0 < t / (1 + w) < t).
  { intros w Hw. split; [apply Rmult_lt_0_compat; [lra|apply Rinv_0_lt_compat; lra]|].
    apply (Rmult_lt_reg_r (1 + w)); [lra|]. replace (t / (1 + w) * (1 + w)) with t by (field; lra). nra. }
  assert (LT : at_left t (fun u => 0 < u < t)).
  { exists (mkposreal t Ht). intros u Hu Hu2. unfold ball in Hu. cbn in Hu. unfold AbsRing_ball, abs, minus, plus, opp in Hu. cbn in Hu. apply Rabs_lt_between in Hu. lra. }
  assert (RT : at_right 0 (fun u => 0 < u < t)).
  { eapply filter_imp; [|apply (at_right_below (t / 2)); lra]. cbn beta. intros u Hu. lra. }
  assert (K : is_RInt_gen (fun u => - - (t / u ^ 2) * ((k1 t x y (t / u - 1) + k2 t x y (t / u - 1)) * h (t / (1 + (t / u - 1))))) (at_right 0) (at_left t) v).
  { apply (gen_subst (fun w => (k1 t x y w + k2 t x y w) * h (t / (1 + w))) (fun u => t / u - 1) (fun u => - (t / u ^ 2)) (at_right 0) (Rbar_locally p_infty) _ _ (fun w => 0 < w) (fun u => 0 < u < t)); try typeclasses eauto.
    - intros w Hw. apply (continuous_mult (fun w => k1 t x y w + k2 t x y w) (fun w => h (t / (1 + w)))).
      + apply (continuous_plus (k1 t x y) (k2 t x y)); apply k_cont; assumption.
      + apply (continuous_comp (fun w => t / (1 + w)) h); [|apply Ch, IN; exact Hw].
        apply (ex_derive_continuous (fun w => t / (1 + w))). auto_derive. lra.
    - intros u Hu. assert (1 < t / u); [|lra]. apply (Rmult_lt_reg_r u); [lra|]. replace (t / u * u) with t by (field; lra). lra.
    - intros u Hu. split; [auto_derive; [lra|field; lra]|]. apply (ex_derive_continuous (fun u => - (t / u ^ 2))). auto_derive. nra.
    - intros a b u. lra.
    - exact RT.
    - exact LT.
    - intros P [M HM]. unfold filtermap. assert (0 < t / (Rmax 0 M + 2)) by (pose proof (Rmax_l 0 M); apply Rmult_lt_0_compat; [lra|apply Rinv_0_lt_compat; lra]).
      pose proof (at_right_below _ H) as A. revert A. apply (filter_imp (F := at_right 0)). intros u [Hu Hu2]. apply HM.
      pose proof (Rmax_l 0 M). pose proof (Rmax_r 0 M). assert (Rmax 0 M + 2 <= t / u); [|lra].
      apply (Rmult_le_reg_r u); [exact Hu|]. replace (t / u * u) with t by (field; lra).
      apply (Rmult_le_compat_l (Rmax 0 M + 2)) in Hu2; [|lra]. replace ((Rmax 0 M + 2) * (t / (Rmax 0 M + 2))) with t in Hu2 by (field; lra). exact Hu2.
    - intros P [eps HP]. unfold filtermap.
      assert (HE : 0 < t * eps / (1 + eps)) by (pose proof (cond_pos eps); apply Rmult_lt_0_compat; [apply Rmult_lt_0_compat; lra|apply Rinv_0_lt_compat; lra]).
      assert (A : at_left t (fun u => t - t * eps / (1 + eps) < u /\ 0 < u < t)).
      { apply filter_and; [|exact LT]. exists (mkposreal _ HE). intros u Hu Hu2. unfold ball in Hu. cbn in Hu. unfold AbsRing_ball, abs, minus, plus, opp in Hu. cbn in Hu. apply Rabs_lt_between in Hu. lra. }
      revert A. apply (filter_imp (F := at_left t)). intros u [H1 H2].
      assert (1 < t / u) by (apply (Rmult_lt_reg_r u); [lra|]; replace (t / u * u) with t by (field; lra); lra).
      apply HP; [|lra]. unfold ball; cbn; unfold AbsRing_ball, abs, minus, plus, opp; cbn. replace (t / u - 1 + - 0) with (t / u - 1) by ring.
      rewrite Rabs_pos_eq by lra. destruct eps as [e He]; cbn in *. apply (Rmult_lt_reg_r u); [lra|]. replace ((t / u - 1) * u) with (t - u) by (field; lra).
      apply (Rmult_lt_compat_r (1 + e)) in H1; [|lra]. replace ((t - t * e / (1 + e)) * (1 + e)) with t in H1 by (field; lra). lra.
    - exact HI. }
  refine (is_RInt_gen_ext _ _ _ _ K).
  assert (IN2 : filter_prod (at_right 0) (at_left t) (fun ab : R * R => forall u, Rmin (fst ab) (snd ab) < u < Rmax (fst ab) (snd ab) -> 0 < u < t)).
  { apply (Filter_prod _ _ _ _ _ RT LT). intros a b Ha Hb u. cbn [fst snd]. unfold Rmin, Rmax. destruct (Rle_dec a b); lra. }
  eapply filter_imp; [|exact IN2]. intros ab H u Hu. specialize (H u Hu).
  replace (t / (1 + (t / u - 1))) with u by (field; lra).
  assert (E : t / u ^ 2 * (k1 t x y (t / u - 1) + k2 t x y (t / u - 1)) = t ^ 2 * exp ((x ^ 2 + y ^ 2) / (2 * t)) * argmin_weight t x y u).
  { set (w := t / u - 1). assert (Hw : 0 < w). { unfold w. assert (1 < t / u); [|lra]. apply (Rmult_lt_reg_r u); [lra|]. replace (t / u * u) with t by (field; lra). lra. }
    assert (E2 : k1 t x y w + k2 t x y w = (t / u) * (pw (- (3 / 2)) w * ker t x y w)).
    { unfold k1, k2. replace (pw (- (1 / 2)) w) with (pw (- (3 / 2)) w * w) by (rewrite <- (pw_1 w Hw) at 2; rewrite <- pw_plus; f_equal; lra).
      replace (t / u) with (1 + w) by (unfold w; ring). ring. }
    rewrite E2. unfold argmin_weight, pw, ker.
    replace (t / u ^ 2 * (t / u * (exp (- (3 / 2) * ln w) * exp (- (x ^ 2 * w + y ^ 2 / w) / (2 * t)))))
      with (t ^ 2 * (exp (-3 * ln u) * exp (- (3 / 2) * ln w) * exp (- (x ^ 2 * w + y ^ 2 / w) / (2 * t)))).
    - rewrite (Rmult_assoc (t ^ 2) (exp ((x ^ 2 + y ^ 2) / (2 * t)))). apply (f_equal (Rmult (t ^ 2))). rewrite <- !exp_plus. f_equal.
      assert (LW : ln w = ln (t - u) - ln u).
      { unfold w. replace (t / u - 1) with ((t - u) * / u) by (field; lra). rewrite ln_mult, ln_Rinv; [ring|lra|lra|apply Rinv_0_lt_compat; lra]. }
      rewrite LW. unfold w. field. lra.
    - replace (-3 * ln u) with (- (ln u + (ln u + ln u))) by ring. rewrite exp_Ropp, !exp_plus, exp_ln by lra. field. lra. }
  transitivity (t / u ^ 2 * (k1 t x y (t / u - 1) + k2 t x y (t / u - 1)) * h u); [req; ring|]. rewrite E. req. ring.
Qed.

(** the mixture of the two inverse Gaussian laws *)
Lemma wald_kernel : forall t x y w, 0 < t -> 0 < x -> 0 < y -> 0 < w -> wald_weight (y / x) (y ^ 2 / t) w = exp (x * y / t) * k1 t x y w.
Proof.
  intros t x y w Ht Hx Hy Hw. unfold wald_weight, k1, pw, ker. rewrite <- !exp_plus. f_equal. field. lra.
Qed.
Lemma mixture : forall t x y h C, 0 < t -> 0 < x -> 0 < y -> (forall u, 0 < u < t -> continuous h u) -> (forall u, 0 < u < t -> Rabs (h u) <= C) ->
  exists v v1 v2, under (argmin_weight t x y) (at_right 0) (at_left t) h v /\
    expect_r (DWald (y / x) (y ^ 2 / t)) (fun w => h (t / (1 + w))) v1 /\
    expect_r (DWald (x / y) (x ^ 2 / t)) (fun w => h (t / (1 + 1 / w))) v2 /\
    v = x / (x + y) * v1 + y / (x + y) * v2.
Proof.
  intros t x y h C Ht Hx Hy Ch Bh.
  assert (IN : forall w, 0 < w -> 0 < t / (1 + w) < t).
  { intros w Hw. split; [apply Rmult_lt_0_compat; [lra|apply Rinv_0_lt_compat; lra]|].
    apply (Rmult_lt_reg_r (1 + w)); [lra|]. replace (t / (1 + w) * (1 + w)) with t by (field; lra). nra. }
  set (H := fun w => h (t / (1 + w))).
  assert (CH : forall w, 0 < w -> continuous H w).
  { intros w Hw. unfold H. apply (continuous_comp (fun w => t / (1 + w)) h); [|apply Ch, IN; exact Hw].
    apply (ex_derive_continuous (fun w => t / (1 + w))). auto_derive. lra. }
  destruct (kernel_total t x y Ht Hx Hy) as (Z1 & Z2 & P1 & P2 & I1 & I2).
  destruct (kernel_test t x y Ht Hx Hy H C CH) as (u1 & u2 & J1 & J2); [intros w Hw; apply Bh, IN; exact Hw|].
  pose proof (balance t x y Z1 Z2 Ht Hx Hy I1 I2) as BAL.
  assert (SUM0 : is_RInt_gen (fun u => t ^ 2 * exp ((x ^ 2 + y ^ 2) / (2 * t)) * (argmin_weight t x y u * 1)) (at_right 0) (at_left t) (Z1 + Z2)).
  { apply (time_kernel t x y (fun _ => 1)); auto; [intros; apply continuous_const|].
    pose proof (is_RInt_gen_plus _ _ _ _ I1 I2) as P. unfold plus in P; cbn in P. refine (is_RInt_gen_ext _ _ _ _ P). apply filter_forall. intros p w _. req. ring. }
  assert (SUM1 : is_RInt_gen (fun u => t ^ 2 * exp ((x ^ 2 + y ^ 2) / (2 * t)) * (argmin_weight t x y u * h u)) (at_right 0) (at_left t) (u1 + u2)).
  { apply (time_kernel t x y h); auto.
    pose proof (is_RInt_gen_plus _ _ _ _ J1 J2) as P. unfold plus in P; cbn in P. refine (is_RInt_gen_ext _ _ _ _ P). apply filter_forall. intros p w _. unfold H. req. ring. }
  set (K := t ^ 2 * exp ((x ^ 2 + y ^ 2) / (2 * t))) in *. assert (HK : 0 < K) by (apply Rmult_lt_0_compat; [apply pow_lt; exact Ht|apply exp_pos]).
  assert (R1 : Z1 * (u1 / Z1) = u1) by (clear - P1; field; lra). assert (R2 : Z2 * (u2 / Z2) = u2) by (clear - P2; field; lra).
  assert (R3 : (Z1 + Z2) / K * ((u1 + u2) / (Z1 + Z2)) = / K * (u1 + u2)) by (clear - P1 P2 HK; field; split; lra).
  exists ((u1 + u2) / (Z1 + Z2)), (u1 / Z1), (u2 / Z2). split; [|split; [|split]].
  - exists ((Z1 + Z2) / K). split; [apply Rmult_lt_0_compat; [lra|apply Rinv_0_lt_compat; exact HK]|]. split.
    + pose proof (is_RInt_gen_scal _ (/ K) _ SUM0) as P. unfold scal in P; cbn in P; unfold mult in P; cbn in P.
      replace ((Z1 + Z2) / K) with (/ K * (Z1 + Z2)) by (unfold Rdiv; ring). refine (is_RInt_gen_ext _ _ _ _ P). apply filter_forall. intros p w _. req. field. lra.
    + pose proof (is_RInt_gen_scal _ (/ K) _ SUM1) as P. unfold scal in P; cbn in P; unfold mult in P; cbn in P.
      rewrite R3. refine (is_RInt_gen_ext _ _ _ _ P). apply filter_forall. intros p w _. req. field. lra.
  - left. split; [apply Rmult_lt_0_compat; [lra|apply Rinv_0_lt_compat; lra]|]. split; [apply Rmult_lt_0_compat; [apply pow_lt; exact Hy|apply Rinv_0_lt_compat; lra]|].
    apply (under_weight (k1 t x y) _ (exp (x * y / t)) _ _ (fun w => 0 < w)); [typeclasses eauto|typeclasses eauto|apply right_above_pos|apply exp_pos|intros w Hw; apply wald_kernel; assumption|].
    exists Z1. split; [exact P1|]. split; [exact I1|]. rewrite R1. exact J1.
  - left. split; [apply Rmult_lt_0_compat; [lra|apply Rinv_0_lt_compat; lra]|]. split; [apply Rmult_lt_0_compat; [apply pow_lt; exact Hx|apply Rinv_0_lt_compat; lra]|].
    apply (under_weight (k1 t y x) _ (exp (y * x / t)) _ _ (fun w => 0 < w)); [typeclasses eauto|typeclasses eauto|apply right_above_pos|apply exp_pos|intros w Hw; apply wald_kernel; assumption|].
    exists Z2. split; [exact P2|]. split.
    + assert (Q : is_RInt_gen (fun w => k2 t x y w * 1) (at_right 0) (Rbar_locally p_infty) Z2).
      { refine (is_RInt_gen_ext _ _ _ _ I2). apply filter_forall. intros p w _. req. ring. }
      pose proof (swap_kernel t x y (fun _ => 1) Z2 Ht Hx Hy (fun w _ => continuous_const _ _) Q) as S. refine (is_RInt_gen_ext _ _ _ _ S). apply filter_forall. intros p w _. req. ring.
    + rewrite R2. exact (swap_kernel t x y H u2 Ht Hx Hy CH J2).
  - assert (Z2 = y * Z1 / x) as -> by (apply (Rmult_eq_reg_l x); [rewrite BAL; field; lra|lra]). field. repeat split; nra.
Qed.
