(** Means under the normal and gamma distributions. *)
From Coquelicot Require Import Rcomplements Hierarchy Rbar Lim_seq Continuity Derive RInt RInt_gen RInt_analysis AutoDerive.
From Coq Require Import Reals List Bool Arith Lra Lia Psatz.
From Verif Require Import Base Rng SpecLaw L_law.
Import ListNotations.
Local Open Scope R_scope.

(** a nonnegative function with bounded integrals has an improper integral *)
Lemma gen_exists_ge : forall (w : R -> R) (Fa Fb : (R -> Prop) -> Prop) (D : R -> Prop) B a0 b0 v0,
  Filter Fa -> Filter Fb -> (forall x, D x -> 0 <= w x) ->
  (forall a b x, D a -> D b -> a <= x <= b -> D x) ->
  (forall a b, D a -> D b -> a <= b -> exists v, is_RInt w a b v /\ v <= B) ->
  (forall a, D a -> Fa (fun x => D x /\ x <= a)) -> (forall b, D b -> Fb (fun x => D x /\ b <= x)) ->
  D a0 -> D b0 -> a0 <= b0 -> is_RInt w a0 b0 v0 ->
  exists Z, v0 <= Z /\ is_RInt_gen w Fa Fb Z.
Proof.
  intros w Fa Fb D B a0 b0 v0 FA FB Hw HD HB HFa HFb Da Db Hab HI.
  set (E := fun v => exists a b, D a /\ D b /\ a <= b /\ is_RInt w a b v).
  assert (EB : bound E).
  { exists B. intros v (a & b & Ha & Hb & H & I1). destruct (HB a b Ha Hb H) as (v' & I2 & L).
    rewrite (is_RInt_uniq _ _ _ _ _ I1 I2). exact L. }
  assert (EN : E v0) by (exists a0, b0; auto).
  destruct (completeness E EB (ex_intro _ v0 EN)) as [Z [HZ1 HZ2]].
  exists Z. split; [apply (HZ1 _ EN)|].
  intros P [eps HP].
  assert (HE : exists v, E v /\ Z - eps < v).
  { destruct (Classical_Prop.classic (exists v, E v /\ Z - eps < v)) as [H|H]; [exact H|exfalso].
    assert (K : Z <= Z - eps); [|destruct eps as [e He]; cbn in K; lra].
    apply HZ2. intros v Ev. apply Rnot_lt_le. intros L. apply H. exists v. auto. }
  destruct HE as (v & (a & b & Ha & Hb & H & I1) & L).
  apply (Filter_prod _ _ _ _ _ (HFa a Ha) (HFb b Hb)).
  intros x y [Dx Lx] [Dy Ly]. cbn [fst snd].
  destruct (HB x y Dx Dy ltac:(lra)) as (v' & I2 & _).
  exists v'. split; [exact I2|]. apply HP.
  assert (U : v' <= Z) by (apply HZ1; exists x, y; repeat split; auto; lra).
  assert (V : v <= v').
  { destruct (HB x a Dx Ha Lx) as (p & Ip & _). destruct (HB b y Hb Dy Ly) as (q & Iq & _).
    pose proof (is_RInt_Chasles _ _ _ _ _ _ (is_RInt_Chasles _ _ _ _ _ _ Ip I1) Iq) as I3. unfold plus in I3; cbn in I3.
    pose proof (is_RInt_uniq _ _ _ _ _ I2 I3).
    assert (0 <= p).
    { apply (is_RInt_le (fun _ => 0) w x a 0 p Lx); [|exact Ip|].
      - pose proof (is_RInt_const x a 0) as Q. unfold scal in Q; cbn in Q; unfold mult in Q; cbn in Q. rewrite Rmult_0_r in Q. exact Q.
      - intros t Ht. apply Hw. apply (HD x a t Dx Ha). lra. }
    assert (0 <= q).
    { apply (is_RInt_le (fun _ => 0) w b y 0 q Ly); [|exact Iq|].
      - pose proof (is_RInt_const b y 0) as Q. unfold scal in Q; cbn in Q; unfold mult in Q; cbn in Q. rewrite Rmult_0_r in Q. exact Q.
      - intros t Ht. apply Hw. apply (HD b y t Hb Dy). lra. }
    lra. }
  unfold ball; cbn; unfold AbsRing_ball, abs, minus, plus, opp; cbn. apply Rabs_def1; lra.
Qed.

Lemma gen_exists : forall (w : R -> R) (Fa Fb : (R -> Prop) -> Prop) (D : R -> Prop) B a0 b0 v0,
  Filter Fa -> Filter Fb -> (forall x, D x -> 0 <= w x) ->
  (forall a b x, D a -> D b -> a <= x <= b -> D x) ->
  (forall a b, D a -> D b -> a <= b -> exists v, is_RInt w a b v /\ v <= B) ->
  (forall a, D a -> Fa (fun x => D x /\ x <= a)) -> (forall b, D b -> Fb (fun x => D x /\ b <= x)) ->
  D a0 -> D b0 -> a0 <= b0 -> is_RInt w a0 b0 v0 -> 0 < v0 ->
  exists Z, 0 < Z /\ is_RInt_gen w Fa Fb Z.
Proof.
  intros w Fa Fb D B a0 b0 v0 FA FB Hw HD HB HFa HFb Da Db Hab HI Hv.
  destruct (gen_exists_ge w Fa Fb D B a0 b0 v0 FA FB Hw HD HB HFa HFb Da Db Hab HI) as (Z & HZ & I1). exists Z. split; [lra|exact I1].
Qed.

(** the integral of a derivative over the whole range *)
Lemma gen_ftc : forall (f G : R -> R) (Fa Fb : (R -> Prop) -> Prop) la lb, Filter Fa -> Filter Fb ->
  filter_prod Fa Fb (fun ab => is_RInt f (fst ab) (snd ab) (G (snd ab) - G (fst ab))) ->
  filterlim G Fa (locally la) -> filterlim G Fb (locally lb) -> is_RInt_gen f Fa Fb (lb - la).
Proof.
  intros f G Fa Fb la lb FA FB HI Ha Hb P HP.
  assert (K : filterlim (fun ab : R * R => G (snd ab) - G (fst ab)) (filter_prod Fa Fb) (locally (lb - la))).
  { apply (filterlim_comp_2 (G := locally lb) (H := locally (- la)) (fun ab : R * R => G (snd ab)) (fun ab => - G (fst ab)) Rplus).
    - apply (filterlim_comp (R * R) R R snd G _ Fb); [apply filterlim_snd|exact Hb].
    - apply (filterlim_comp (R * R) R R fst (fun x => - G x) _ Fa); [apply filterlim_fst|].
      apply (filterlim_comp R R R G Ropp _ (locally la)); [exact Ha|apply (filterlim_opp la)].
    - apply (filterlim_plus (V := R_NormedModule) lb (- la)). }
  specialize (K P HP). unfold filtermap in K.
  pose proof (filter_and (F := filter_prod Fa Fb) _ _ HI K) as HK. unfold filtermapi. eapply (filter_imp (F := filter_prod Fa Fb)); [|exact HK].
  intros ab [H1 H2]. exists (G (snd ab) - G (fst ab)). split; assumption.
Qed.

(** * the standard normal distribution *)
Lemma normal_weight_le : forall x, normal_weight x <= 2 / (1 + x ^ 2).
Proof.
  intros x. unfold normal_weight. replace (- x ^ 2 / 2) with (- (x ^ 2 / 2)) by field. rewrite exp_Ropp.
  pose proof (exp_ineq1_le (x ^ 2 / 2)) as H. pose proof (pow2_ge_0 x) as Q.
  unfold Rdiv at 2. apply (Rmult_le_reg_r (exp (x ^ 2 / 2) * (1 + x ^ 2))).
  - apply Rmult_lt_0_compat; [apply exp_pos|lra].
  - pose proof (exp_pos (x ^ 2 / 2)). field_simplify; [|lra|lra]. nra.
Qed.
Lemma normal_weight_cont : forall x, continuous normal_weight x.
Proof. intros x. apply (ex_derive_continuous normal_weight). unfold normal_weight. auto_derive. exact Logic.I. Qed.
Lemma normal_total : exists Z, 0 < Z /\ is_RInt_gen normal_weight (Rbar_locally m_infty) (Rbar_locally p_infty) Z.
Proof.
  assert (EX : forall a b, ex_RInt normal_weight a b) by (intros a b; apply (ex_RInt_continuous (V := R_CompleteNormedModule)); intros; apply normal_weight_cont).
  apply (gen_exists normal_weight _ _ (fun _ => True) (2 * PI) 0 1 (RInt normal_weight 0 1)); try typeclasses eauto; auto.
  - intros x _. left. apply exp_pos.
  - intros a b _ _ H. exists (RInt normal_weight a b). split; [apply (RInt_correct (V := R_CompleteNormedModule)), EX|].
    apply Rle_trans with (2 * atan b - 2 * atan a); [|pose proof (atan_bound a); pose proof (atan_bound b); lra].
    apply (is_RInt_le normal_weight (fun x => 2 / (1 + x ^ 2)) a b _ _ H); [apply (RInt_correct (V := R_CompleteNormedModule)), EX| |intros x _; apply normal_weight_le].
    apply (is_RInt_derive (fun x => 2 * atan x)).
    + intros x _. auto_derive; [exact Logic.I|]. unfold Rsqr. field. nra.
    + intros x _. apply (ex_derive_continuous (fun x => 2 / (1 + x ^ 2))). auto_derive. nra.
  - intros a _. exists a. intros x Hx. split; [exact Logic.I|lra].
  - intros a _. exists a. intros x Hx. split; [exact Logic.I|lra].
  - lra.
  - apply (RInt_correct (V := R_CompleteNormedModule)), EX.
  - apply RInt_gt_0; [lra|intros; apply exp_pos|intros; apply normal_weight_cont].
Qed.
Lemma normal_ends : forall (G : R -> R) c, (forall x, Rabs (G x) <= c / (1 + Rabs x)) -> 0 < c ->
  filterlim G (Rbar_locally m_infty) (locally 0) /\ filterlim G (Rbar_locally p_infty) (locally 0).
Proof.
  intros G c H Hc.
  assert (K : forall (eps : posreal) x, c / eps <= Rabs x -> ball 0 eps (G x)).
  { intros eps x Hx. unfold ball; cbn; unfold AbsRing_ball, abs, minus, plus, opp; cbn.
    replace (G x + - 0) with (G x) by ring. eapply Rle_lt_trans; [apply H|]. destruct eps as [e He]; cbn in *.
    apply (Rmult_lt_reg_r (1 + Rabs x)); [pose proof (Rabs_pos x); lra|]. pose proof (Rabs_pos x).
    replace (c / (1 + Rabs x) * (1 + Rabs x)) with c by (field; lra).
    assert (c <= e * Rabs x); [|nra]. apply (Rmult_le_reg_r (/ e)); [apply Rinv_0_lt_compat; lra|].
    replace (e * Rabs x * / e) with (Rabs x) by (field; lra). exact Hx. }
  split; intros P [eps HP].
  - exists (- (c / eps)). intros x Hx. apply HP, K. rewrite <- Rabs_Ropp. eapply Rle_trans; [|apply Rle_abs]. lra.
  - exists (c / eps). intros x Hx. apply HP, K. eapply Rle_trans; [|apply Rle_abs]. lra.
Qed.
Lemma normal_tail : forall x, (1 + Rabs x) * normal_weight x <= 4 / (1 + Rabs x).
Proof.
  intros x. pose proof (normal_weight_le x) as H. pose proof (Rabs_pos x) as Q. rewrite <- (pow2_abs x) in H.
  set (y := Rabs x) in *. apply (Rmult_le_reg_r (1 + y)); [lra|].
  replace (4 / (1 + y) * (1 + y)) with 4 by (field; lra).
  apply Rle_trans with ((1 + y) * (1 + y) * (2 / (1 + y ^ 2))); [|].
  - replace ((1 + y) * normal_weight x * (1 + y)) with ((1 + y) * (1 + y) * normal_weight x) by ring.
    apply Rmult_le_compat_l; nra.
  - apply (Rmult_le_reg_r (1 + y ^ 2)); [nra|]. replace ((1 + y) * (1 + y) * (2 / (1 + y ^ 2)) * (1 + y ^ 2)) with (2 * ((1 + y) * (1 + y))) by (field; nra). pose proof (pow2_ge_0 (1 - y)). nra.
Qed.
Lemma normal_mean : expect_r DNormal (fun x => x) 0.
Proof.
  destruct normal_total as (Z & HZ & I0). exists Z. split; [exact HZ|]. split; [exact I0|].
  replace (Z * 0) with (0 - 0) by ring.
  destruct (normal_ends (fun x => - normal_weight x) 4) as [L1 L2].
  { intros x. rewrite Rabs_Ropp, Rabs_pos_eq by (left; apply exp_pos). eapply Rle_trans; [|apply normal_tail].
    pose proof (Rabs_pos x). pose proof (exp_pos (- x ^ 2 / 2)). unfold normal_weight. nra. }
  { lra. }
  apply (gen_ftc _ (fun x => - normal_weight x)); [typeclasses eauto|typeclasses eauto| |exact L1|exact L2].
  apply filter_forall. intros [a b]. cbn [fst snd].
  apply (is_RInt_derive (fun x => - normal_weight x)).
  - intros x _. unfold normal_weight. auto_derive; [exact Logic.I|]. change (- (x * (x * 1)) * / 2) with (- x ^ 2 / 2). req. field.
  - intros x _. apply (ex_derive_continuous (fun x => normal_weight x * x)). unfold normal_weight. auto_derive. exact Logic.I.
Qed.
Lemma normal_square : expect_r DNormal (fun x => x * x) 1.
Proof.
  destruct normal_total as (Z & HZ & I0). exists Z. split; [exact HZ|]. split; [exact I0|].
  destruct (normal_ends (fun x => - (x * normal_weight x)) 4) as [L1 L2].
  { intros x. rewrite Rabs_Ropp, Rabs_mult, (Rabs_pos_eq (normal_weight x)) by (left; apply exp_pos). eapply Rle_trans; [|apply normal_tail].
    pose proof (Rabs_pos x). pose proof (exp_pos (- x ^ 2 / 2)). unfold normal_weight. nra. }
  { lra. }
  assert (I1 : is_RInt_gen (fun x => normal_weight x * (x * x) - normal_weight x) (Rbar_locally m_infty) (Rbar_locally p_infty) (0 - 0)).
  { apply (gen_ftc _ (fun x => - (x * normal_weight x))); [typeclasses eauto|typeclasses eauto| |exact L1|exact L2].
    apply filter_forall. intros [a b]. cbn [fst snd].
    apply (is_RInt_derive (fun x => - (x * normal_weight x))).
    - intros x _. unfold normal_weight. auto_derive; [exact Logic.I|]. change (- (x * (x * 1)) * / 2) with (- x ^ 2 / 2). req. field.
    - intros x _. apply (ex_derive_continuous (fun x => normal_weight x * (x * x) - normal_weight x)). unfold normal_weight. auto_derive. exact Logic.I. }
  pose proof (is_RInt_gen_plus _ _ _ _ I1 I0) as P. unfold plus in P; cbn in P.
  replace (Z * 1) with (0 - 0 + Z) by ring. refine (is_RInt_gen_ext _ _ _ _ P). apply filter_forall. intros p x _. req. ring.
Qed.

(** * the gamma distribution *)
Lemma gamma_power_le : forall a s, 0 < a -> 0 < s -> exists K, forall x, 0 < x -> a * ln x <= x / (4 * s) + K.
Proof.
  intros a s Ha Hs. exists (a * ln (4 * a * s)). intros x Hx.
  assert (0 < 4 * a * s) by (apply Rmult_lt_0_compat; lra).
  replace (a * ln x) with (a * ln (x / (4 * a * s)) + a * ln (4 * a * s)).
  - apply Rplus_le_compat_r. apply Rle_trans with (a * (x / (4 * a * s))); [|right; field; lra].
    apply Rmult_le_compat_l; [lra|]. set (y := x / (4 * a * s)).
    assert (0 < y) by (apply Rmult_lt_0_compat; [lra|apply Rinv_0_lt_compat; lra]).
    pose proof (exp_ineq1_le (ln y)) as Q. rewrite exp_ln in Q by lra. lra.
  - rewrite <- Rmult_plus_distr_l. f_equal. unfold Rdiv. rewrite ln_mult, ln_Rinv; [ring|lra|lra|apply Rinv_0_lt_compat; lra].
Qed.
Lemma gamma_bound : forall a s, 0 < a -> 0 < s -> exists C, 0 < C /\ forall x, 0 < x ->
  gamma_weight a s x <= C * (exp ((a - 1) * ln x) / (1 + exp (a * ln x)) ^ 2).
Proof.
  intros a s Ha Hs. destruct (gamma_power_le a s Ha Hs) as [K HK]. exists ((1 + exp K) ^ 2). pose proof (exp_pos K).
  split; [nra|]. intros x Hx. unfold gamma_weight. unfold Rminus. rewrite exp_plus, exp_Ropp.
  pose proof (exp_pos ((a + - (1)) * ln x)) as Q1. pose proof (exp_pos (a * ln x)) as Q2. pose proof (exp_pos (x / s)) as Q3.
  set (p := exp ((a + - (1)) * ln x)) in *. set (q := exp (a * ln x)) in *. 
  assert (L : (1 + q) ^ 2 <= (1 + exp K) ^ 2 * exp (x / s)).
  { assert (Q : 1 + q <= (1 + exp K) * exp (x / (4 * s))).
    { assert (1 <= exp (x / (4 * s))).
      { rewrite <- exp_0. assert (0 < x / (4 * s)) by (apply Rmult_lt_0_compat; [lra|apply Rinv_0_lt_compat; lra]). left. apply exp_increasing. lra. }
      assert (q <= exp K * exp (x / (4 * s))).
      { rewrite <- exp_plus. unfold q. destruct (Req_dec (a * ln x) (K + x / (4 * s))) as [->|N]; [lra|].
        left. apply exp_increasing. pose proof (HK x Hx). lra. }
      lra. }
    apply Rle_trans with (((1 + exp K) * exp (x / (4 * s))) ^ 2).
    - apply pow_incr. lra.
    - rewrite Rpow_mult_distr. apply Rmult_le_compat_l; [nra|].
      replace (exp (x / (4 * s)) ^ 2) with (exp (x / (2 * s))).
      + left. apply exp_increasing. unfold Rdiv. apply Rmult_lt_compat_l; [lra|]. apply Rinv_lt_contravar; nra.
      + cbn [pow]. rewrite Rmult_1_r, <- exp_plus. f_equal. field. lra. }
  apply (Rmult_le_reg_r (exp (x / s) * (1 + q) ^ 2)); [apply Rmult_lt_0_compat; nra|].
  replace (p * / exp (x / s) * (exp (x / s) * (1 + q) ^ 2)) with (p * (1 + q) ^ 2) by (field; lra).
  replace ((1 + exp K) ^ 2 * (p / (1 + q) ^ 2) * (exp (x / s) * (1 + q) ^ 2)) with (p * ((1 + exp K) ^ 2 * exp (x / s))) by (field; nra).
  apply Rmult_le_compat_l; [lra|exact L].
Qed.
Lemma gamma_weight_cont : forall a s x, 0 < x -> continuous (gamma_weight a s) x.
Proof. intros a s x H. apply (ex_derive_continuous (gamma_weight a s)). unfold gamma_weight. auto_derive. exact H. Qed.
Lemma at_right_below : forall a, 0 < a -> at_right 0 (fun x => 0 < x /\ x <= a).
Proof.
  intros a H. exists (mkposreal a H). intros y Hy Hy'. unfold ball in Hy. cbn in Hy. unfold AbsRing_ball, abs, minus, plus, opp in Hy. cbn in Hy.
  apply Rabs_lt_between in Hy. lra.
Qed.
Lemma gamma_total : forall a s, 0 < a -> 0 < s -> exists Z, 0 < Z /\ is_RInt_gen (gamma_weight a s) (at_right 0) (Rbar_locally p_infty) Z.
Proof.
  intros a s Ha Hs. destruct (gamma_bound a s Ha Hs) as (C & HC & HB).
  assert (EX : forall p q, 0 < p -> p <= q -> ex_RInt (gamma_weight a s) p q).
  { intros p q Hp Hq. apply (ex_RInt_continuous (V := R_CompleteNormedModule)). intros x. rewrite Rmin_left, Rmax_right by lra. intros Hx.
    apply gamma_weight_cont. lra. }
  apply (gen_exists (gamma_weight a s) _ _ (fun x => 0 < x) (C / a) 1 2 (RInt (gamma_weight a s) 1 2)); try typeclasses eauto; auto; try lra.
  - intros x _. left. apply exp_pos.
  - intros p q x. lra.
  - intros p q Hp Hq H. exists (RInt (gamma_weight a s) p q). split; [apply (RInt_correct (V := R_CompleteNormedModule)), EX; lra|].
    set (G := fun x => C / a * (exp (a * ln x) / (1 + exp (a * ln x)))).
    assert (GB : forall x, 0 <= G x <= C / a).
    { intros x. unfold G. pose proof (exp_pos (a * ln x)) as E. set (e := exp (a * ln x)) in *.
      assert (0 < C / a) by (apply Rmult_lt_0_compat; [lra|apply Rinv_0_lt_compat; lra]).
      assert (0 < e / (1 + e)) by (apply Rmult_lt_0_compat; [lra|apply Rinv_0_lt_compat; lra]).
      assert (e / (1 + e) <= 1) by (apply (Rmult_le_reg_r (1 + e)); [lra|field_simplify; lra]).
      split; nra. }
    apply Rle_trans with (G q - G p); [|pose proof (GB p); pose proof (GB q); lra].
    apply (is_RInt_le (gamma_weight a s) (fun x => C * (exp ((a - 1) * ln x) / (1 + exp (a * ln x)) ^ 2)) p q _ _ H);
      [apply (RInt_correct (V := R_CompleteNormedModule)), EX; lra| |intros x Hx; apply HB; lra].
    apply (is_RInt_derive G).
    + intros x. rewrite Rmin_left, Rmax_right by lra. intros Hx. unfold G. pose proof (exp_pos (a * ln x)).
      auto_derive; [repeat split; lra|].
      replace (exp ((a - 1) * ln x)) with (exp (a * ln x) / x).
      * field. lra.
      * replace ((a - 1) * ln x) with (a * ln x + - ln x) by ring. rewrite exp_plus, exp_Ropp, exp_ln by lra. reflexivity.
    + intros x. rewrite Rmin_left, Rmax_right by lra. intros Hx. pose proof (exp_pos (a * ln x)).
      apply (ex_derive_continuous (fun x => C * (exp ((a - 1) * ln x) / (1 + exp (a * ln x)) ^ 2))). auto_derive.
      repeat split; try lra. nra.
  - intros p. apply at_right_below.
  - intros b Hb. exists b. intros x Hx. lra.
  - apply (RInt_correct (V := R_CompleteNormedModule)), EX; lra.
  - apply RInt_gt_0; [lra|intros; apply exp_pos|intros x Hx; apply gamma_weight_cont; lra].
Qed.
Lemma gamma_mean : forall a s, 0 < a -> 0 < s -> expect_r (DGamma a s) (fun x => x) (a * s).
Proof.
  intros a s Ha Hs. split; [exact Ha|]. split; [exact Hs|].
  destruct (gamma_total a s Ha Hs) as (Z & HZ & I0). exists Z. split; [exact HZ|]. split; [exact I0|].
  set (G := fun x => - s * exp (a * ln x - x / s)).
  assert (L1 : filterlim G (at_right 0) (locally 0)).
  { intros P [eps HP]. unfold filtermap. pose proof (at_right_below (exp (ln (eps / (2 * s)) / a)) (exp_pos _)) as HA.
    revert HA. apply (filter_imp (F := at_right 0)).
    intros x [Hx Hx2]. apply HP. unfold ball; cbn; unfold AbsRing_ball, abs, minus, plus, opp; cbn.
    replace (G x + - 0) with (G x) by ring. unfold G. rewrite Rabs_mult, Rabs_Ropp, (Rabs_pos_eq s), (Rabs_pos_eq (exp _)) by (try left; try apply exp_pos; lra).
    destruct eps as [e He]; cbn in *.
    assert (E2 : 0 < e / (2 * s)) by (apply Rmult_lt_0_compat; [lra|apply Rinv_0_lt_compat; lra]).
    assert (E1 : exp (a * ln x - x / s) <= e / (2 * s)).
    { rewrite <- (exp_ln (e / (2 * s)) E2). set (l := ln (e / (2 * s))) in *.
      assert (a * ln x <= l).
      { replace l with (a * (l / a)) by (field; lra). apply Rmult_le_compat_l; [lra|]. rewrite <- (ln_exp (l / a)).
        destruct Hx2 as [Hx2| ->]; [|lra]. left. apply ln_increasing; assumption. }
      assert (0 < x / s) by (apply Rmult_lt_0_compat; [lra|apply Rinv_0_lt_compat; lra]).
      left. apply exp_increasing. lra. }
    apply Rle_lt_trans with (s * (e / (2 * s))); [apply Rmult_le_compat_l; lra|].
    replace (s * (e / (2 * s))) with (e / 2) by (field; lra). lra. }
  assert (L2 : filterlim G (Rbar_locally p_infty) (locally 0)).
  { destruct (gamma_power_le a s Ha Hs) as [K HK]. intros P [eps HP].
    exists (Rmax 0 (2 * s * (K - ln (eps / (2 * s))))). intros x Hx. pose proof (Rmax_l 0 (2 * s * (K - ln (eps / (2 * s))))). pose proof (Rmax_r 0 (2 * s * (K - ln (eps / (2 * s))))).
    apply HP. unfold ball; cbn; unfold AbsRing_ball, abs, minus, plus, opp; cbn.
    replace (G x + - 0) with (G x) by ring. unfold G. rewrite Rabs_mult, Rabs_Ropp, (Rabs_pos_eq s), (Rabs_pos_eq (exp _)) by (try left; try apply exp_pos; lra).
    destruct eps as [e He]; cbn in *.
    assert (E2 : 0 < e / (2 * s)) by (apply Rmult_lt_0_compat; [lra|apply Rinv_0_lt_compat; lra]).
    assert (E1 : exp (a * ln x - x / s) <= e / (2 * s)).
    { rewrite <- (exp_ln (e / (2 * s)) E2). set (l := ln (e / (2 * s))) in *. left. apply exp_increasing.
      pose proof (HK x ltac:(lra)) as Q. 
      assert (K - l < x / (2 * s)).
      { apply (Rmult_lt_reg_l (2 * s)); [lra|]. replace (2 * s * (x / (2 * s))) with x by (field; lra). lra. }
      assert (0 < x / (4 * s)) by (apply Rmult_lt_0_compat; [lra|apply Rinv_0_lt_compat; lra]).
      replace (x / s) with (x / (4 * s) + x / (4 * s) + x / (2 * s)) by (field; lra). lra. }
    apply Rle_lt_trans with (s * (e / (2 * s))); [apply Rmult_le_compat_l; lra|].
    replace (s * (e / (2 * s))) with (e / 2) by (field; lra). lra. }
  assert (W : forall x, 0 < x -> exp (a * ln x - x / s) = x * gamma_weight a s x).
  { intros x Hx. unfold gamma_weight. rewrite <- (exp_ln x Hx) at 3. rewrite <- exp_plus. f_equal. ring. }
  assert (I1 : is_RInt_gen (fun x => gamma_weight a s x * x - a * s * gamma_weight a s x) (at_right 0) (Rbar_locally p_infty) (0 - 0)).
  { apply (gen_ftc _ G); [typeclasses eauto|typeclasses eauto| |exact L1|exact L2].
    eapply (filter_imp (F := filter_prod (at_right 0) (Rbar_locally p_infty))); [|exact right_above]. intros [p q] H. cbn [fst snd] in *.
    apply (is_RInt_derive G).
    - intros x. rewrite Rmin_left, Rmax_right by lra. intros Hx. unfold G.
      auto_derive; [lra|]. replace (exp (a * ln x + - (x * / s))) with (x * gamma_weight a s x) by (rewrite <- W by lra; reflexivity). req. field. lra.
    - intros x. rewrite Rmin_left, Rmax_right by lra. intros Hx.
      apply (ex_derive_continuous (fun x => gamma_weight a s x * x - a * s * gamma_weight a s x)). unfold gamma_weight. auto_derive. repeat split; lra. }
  pose proof (is_RInt_gen_scal _ (a * s) _ I0) as P0. unfold scal in P0; cbn in P0; unfold mult in P0; cbn in P0.
  pose proof (is_RInt_gen_plus _ _ _ _ I1 P0) as P. unfold plus in P; cbn in P.
  replace (Z * (a * s)) with (0 - 0 + a * s * Z) by ring. refine (is_RInt_gen_ext _ _ _ _ P). apply filter_forall. intros p x _. req. ring.
Qed.
