(** The time of the minimum of a Brownian bridge. *)
From Coquelicot Require Import Rcomplements Hierarchy Rbar Lim_seq Continuity Derive RInt RInt_gen RInt_analysis AutoDerive.
From Coq Require Import Reals List Bool Arith Lra Lia Psatz.
From Verif Require Import Base Rng SpecLaw SpecArg L_rng L_law L_law2 L_law5 L_gauss.
Import ListNotations.
Local Open Scope R_scope.

(** a nonnegative continuous function below an integrable one is integrable *)
Lemma gen_dom : forall (w f : R -> R) (Fa Fb : (R -> Prop) -> Prop) (D : R -> Prop) B a0, Filter Fa -> Filter Fb ->
  (forall x, D x -> 0 <= f x <= w x) -> (forall x, D x -> continuous f x) ->
  (forall a b x, D a -> D b -> a <= x <= b -> D x) ->
  (forall a b, D a -> D b -> a <= b -> exists v, is_RInt w a b v /\ v <= B) ->
  (forall a, D a -> Fa (fun x => D x /\ x <= a)) -> (forall b, D b -> Fb (fun x => D x /\ b <= x)) -> D a0 ->
  exists Z, 0 <= Z /\ is_RInt_gen f Fa Fb Z.
Proof.
  intros w f Fa Fb D B a0 FA FB Hf Cf HD HB HFa HFb Da.
  assert (EX : forall a b, D a -> D b -> a <= b -> is_RInt f a b (RInt f a b)).
  { intros a b Ha Hb H. apply (RInt_correct (V := R_CompleteNormedModule)), (ex_RInt_continuous (V := R_CompleteNormedModule)).
    intros z. rewrite Rmin_left, Rmax_right by lra. intros Hz. apply Cf, (HD a b); assumption. }
  apply (gen_exists_ge f Fa Fb D B a0 a0 0 FA FB); auto; try lra.
  - intros x Hx. apply (Hf x Hx).
  - intros a b Ha Hb H. exists (RInt f a b). split; [apply EX; assumption|].
    destruct (HB a b Ha Hb H) as (v & HI & L). apply Rle_trans with v; [|exact L].
    apply (is_RInt_le f w a b _ _ H (EX a b Ha Hb H) HI). intros x Hx. apply Hf. apply (HD a b); auto. lra.
  - apply (is_RInt_point (V := R_NormedModule) f a0).
Qed.
(** a bounded continuous function times an integrable weight *)
Lemma gen_bounded : forall (w h : R -> R) (Fa Fb : (R -> Prop) -> Prop) (D : R -> Prop) B C a0, ProperFilter' Fa -> ProperFilter' Fb ->
  (forall x, D x -> 0 <= w x) -> (forall x, D x -> continuous w x) -> (forall x, D x -> Rabs (h x) <= C) -> (forall x, D x -> continuous h x) ->
  (forall a b x, D a -> D b -> a <= x <= b -> D x) ->
  (forall a b, D a -> D b -> a <= b -> exists v, is_RInt w a b v /\ v <= B) ->
  (forall a, D a -> Fa (fun x => D x /\ x <= a)) -> (forall b, D b -> Fb (fun x => D x /\ b <= x)) -> D a0 ->
  exists v, is_RInt_gen (fun x => w x * h x) Fa Fb v.
Proof.
  intros w h Fa Fb D B C a0 FA FB Hw Cw Hh Ch HD HB HFa HFb Da.
  assert (HC : 0 <= C) by (eapply Rle_trans; [apply Rabs_pos|apply (Hh a0 Da)]).
  destruct (gen_dom w w Fa Fb D B a0) as (Z & _ & I0); try typeclasses eauto; auto; [intros; split; [auto|lra]|].
  destruct (gen_dom (fun x => 2 * C * w x) (fun x => w x * (h x + C)) Fa Fb D (2 * C * B) a0) as (V & _ & I1); try typeclasses eauto; auto.
  - intros x Hx. pose proof (Hh x Hx) as Q. apply Rabs_le_between in Q. pose proof (Hw x Hx). split; nra.
  - intros x Hx. apply (continuous_mult w (fun x => h x + C)); [apply Cw; exact Hx|]. apply (continuous_plus h (fun _ => C)); [apply Ch; exact Hx|apply continuous_const].
  - intros a b Ha Hb H. destruct (HB a b Ha Hb H) as (v & HI & L). exists (2 * C * v). split; [exact (is_RInt_scal _ _ _ (2 * C) _ HI)|]. apply Rmult_le_compat_l; lra.
  - exists (V - C * Z). pose proof (is_RInt_gen_minus _ _ _ _ I1 (is_RInt_gen_scal _ C _ I0)) as P.
    unfold minus, plus, opp, scal in P; cbn in P; unfold mult in P; cbn in P.
    refine (is_RInt_gen_ext _ _ _ _ P). apply filter_forall. intros p x _. req. ring.
Qed.
(** decreasing change of variables *)
Lemma gen_subst : forall (f g dg : R -> R) (Fa Fb Fa' Fb' : (R -> Prop) -> Prop) (D D' : R -> Prop) v,
  Filter Fa' -> Filter Fb' ->
  (forall x, D x -> continuous f x) -> (forall u, D' u -> D (g u)) ->
  (forall u, D' u -> is_derive g u (dg u) /\ continuous dg u) -> (forall a b x, D' a -> D' b -> a <= x <= b -> D' x) ->
  Fa' D' -> Fb' D' -> filterlim g Fa' Fb -> filterlim g Fb' Fa ->
  is_RInt_gen f Fa Fb v -> is_RInt_gen (fun u => - dg u * f (g u)) Fa' Fb' v.
Proof.
  intros f g dg Fa Fb Fa' Fb' D D' v FA' FB' Cf HG DG HD Da Db La Lb HI P HP.
  destruct (HI P HP) as [Q T HQ HT HX].
  apply (Filter_prod _ _ _ (fun a => D' a /\ T (g a)) (fun b => D' b /\ Q (g b))).
  - apply filter_and; [exact Da|apply (La T HT)].
  - apply filter_and; [exact Db|apply (Lb Q HQ)].
  - intros a b [Ha Ta] [Hb Qb]. destruct (HX _ _ Qb Ta) as (z & Iz & Pz). cbn [fst snd] in *. exists z. split; [|exact Pz].
    assert (IN : forall x, Rmin a b <= x <= Rmax a b -> D' x).
    { intros x Hx. unfold Rmin, Rmax in Hx. destruct (Rle_dec a b); [apply (HD a b)|apply (HD b a)]; auto. }
    assert (K : is_RInt (fun u => scal (dg u) (f (g u))) a b (RInt f (g a) (g b))).
    { apply (is_RInt_comp (V := R_CompleteNormedModule) f g dg a b).
      - intros x Hx. apply Cf, HG, IN, Hx.
      - intros x Hx. apply DG, IN, Hx. }
    assert (EQ : RInt f (g a) (g b) = - z).
    { rewrite <- (opp_RInt_swap (V := R_CompleteNormedModule) f (g b) (g a)) by (exists z; exact Iz).
      rewrite (is_RInt_unique _ _ _ _ Iz). reflexivity. }
    rewrite EQ in K. pose proof (is_RInt_opp _ _ _ _ K) as K'. unfold opp in K'; cbn in K'. rewrite Ropp_involutive in K'.
    refine (is_RInt_ext _ _ _ _ _ _ K'). intros u _. unfold scal; cbn; unfold mult; cbn. req. ring.
Qed.
Lemma under_weight : forall (w w' : R -> R) c (Fa Fb : (R -> Prop) -> Prop) (D : R -> Prop) g v, ProperFilter' Fa -> ProperFilter' Fb ->
  filter_prod Fa Fb (fun ab => forall x, Rmin (fst ab) (snd ab) < x < Rmax (fst ab) (snd ab) -> D x) ->
  0 < c -> (forall x, D x -> w' x = c * w x) -> under w Fa Fb g v -> under w' Fa Fb g v.
Proof.
  intros w w' c Fa Fb D g v PA PB HD Hc E (Z & HZ & I0 & I1). exists (c * Z). split; [apply Rmult_lt_0_compat; assumption|]. split.
  - refine (is_RInt_gen_ext _ _ _ _ (is_RInt_gen_scal _ c _ I0)). eapply filter_imp; [|exact HD]. intros ab H x Hx. unfold scal; cbn; unfold mult; cbn. rewrite (E x (H x Hx)). reflexivity.
  - pose proof (is_RInt_gen_scal _ c _ I1) as P. unfold scal in P; cbn in P; unfold mult in P; cbn in P.
    replace (c * Z * v) with (c * (Z * v)) by ring. refine (is_RInt_gen_ext _ _ _ _ P). eapply filter_imp; [|exact HD]. intros ab H x Hx. rewrite (E x (H x Hx)). req. ring.
Qed.

Section bridge.
Variables t x y : R.
Hypothesis Ht : 0 < t.
Hypothesis Hx : 0 < x.
Hypothesis Hy : 0 < y.
Definition pw (c w : R) : R := exp (c * ln w).
Definition ker (w : R) : R := exp (- (x ^ 2 * w + y ^ 2 / w) / (2 * t)).
Definition k1 (w : R) : R := pw (- (3 / 2)) w * ker w.
Definition k2 (w : R) : R := pw (- (1 / 2)) w * ker w.

Lemma pw_pos : forall c w, 0 < pw c w.
Proof. intros. apply exp_pos. Qed.
Lemma pw_plus : forall c d w, pw (c + d) w = pw c w * pw d w.
Proof. intros. unfold pw. rewrite <- exp_plus. f_equal. ring. Qed.
Lemma pw_1 : forall w, 0 < w -> pw 1 w = w.
Proof. intros w H. unfold pw. rewrite Rmult_1_l. apply exp_ln. exact H. Qed.
Lemma pw_half_le : forall w, 0 < w -> pw (1 / 2) w <= 1 + w.
Proof.
  intros w H. assert (E : pw (1 / 2) w * pw (1 / 2) w = w) by (rewrite <- pw_plus; replace (1 / 2 + 1 / 2) with 1 by lra; apply pw_1; exact H).
  pose proof (pw_pos (1 / 2) w). set (r := pw (1 / 2) w) in *. rewrite <- E. pose proof (pow2_ge_0 (r - 1)). nra.
Qed.
Lemma ker_split : forall w, 0 < w -> ker w = exp (- (x ^ 2 / (2 * t) * w)) * exp (- (y ^ 2 / (2 * t) / w)).
Proof. intros w H. unfold ker. rewrite <- exp_plus. f_equal. field. lra. Qed.
Lemma exp_cube : forall A, 0 < A -> exists c, 0 < c /\ forall w, 0 <= w -> exp (- (A * w)) <= c / (1 + w) ^ 3.
Proof.
  intros A HA. set (q := Rmin 1 (A / 3)). assert (Hq : 0 < q) by (apply Rmin_pos; lra).
  exists (/ q ^ 3). assert (0 < q ^ 3) by (apply pow_lt; exact Hq). split; [apply Rinv_0_lt_compat; exact H|]. intros w Hw.
  assert (L : q * (1 + w) <= exp (A / 3 * w)).
  { apply Rle_trans with (1 + A / 3 * w); [|apply exp_ineq1_le]. pose proof (Rmin_l 1 (A / 3)). pose proof (Rmin_r 1 (A / 3)). fold q in H0, H1. nra. }
  assert (L3 : (q * (1 + w)) ^ 3 <= exp (A * w)).
  { replace (exp (A * w)) with (exp (A / 3 * w) ^ 3); [apply pow_incr; split; [nra|exact L]|].
    cbn [pow]. rewrite Rmult_1_r, <- !exp_plus. f_equal. field. }
  rewrite exp_Ropp. rewrite Rpow_mult_distr in L3. assert (0 < (1 + w) ^ 3) by (apply pow_lt; lra).
  replace (/ q ^ 3 / (1 + w) ^ 3) with (/ (q ^ 3 * (1 + w) ^ 3)) by (field; split; lra).
  apply Rinv_le_contravar; [apply Rmult_lt_0_compat; assumption|exact L3].
Qed.
Lemma exp_neg_inv : forall B w, 0 < B -> 0 < w -> exp (- (B / w)) <= w / B /\ exp (- (B / w)) <= 4 * w ^ 2 / B ^ 2.
Proof.
  intros B w HB Hw.
  assert (G : forall C, 0 < C -> exp (- (C / w)) <= w / C).
  { intros C HC. rewrite exp_Ropp. replace (w / C) with (/ (C / w)) by (field; lra).
    assert (0 < C / w) by (apply Rmult_lt_0_compat; [lra|apply Rinv_0_lt_compat; lra]).
    apply Rinv_le_contravar; [exact H|]. pose proof (exp_ineq1_le (C / w)). lra. }
  split; [apply G; exact HB|]. replace (exp (- (B / w))) with (exp (- (B / 2 / w)) * exp (- (B / 2 / w))) by (rewrite <- exp_plus; f_equal; field; lra).
  replace (4 * w ^ 2 / B ^ 2) with (w / (B / 2) * (w / (B / 2))) by (field; lra).
  apply Rmult_le_compat; try (left; apply exp_pos); apply G; lra.
Qed.
(** both kernels decay fast enough *)
Lemma kernel_bound : exists C, 0 < C /\ forall w, 0 < w -> k1 w <= C / (1 + w) ^ 2 /\ k2 w <= C / (1 + w) ^ 2.
Proof.
  assert (HA : 0 < x ^ 2 / (2 * t)) by (apply Rmult_lt_0_compat; [apply pow_lt; exact Hx|apply Rinv_0_lt_compat; lra]).
  assert (HB : 0 < y ^ 2 / (2 * t)) by (apply Rmult_lt_0_compat; [apply pow_lt; exact Hy|apply Rinv_0_lt_compat; lra]).
  set (A := x ^ 2 / (2 * t)) in *. set (B := y ^ 2 / (2 * t)) in *.
  destruct (exp_cube A HA) as (c & Hc & HE).
  assert (HB2 : 0 < 4 / B ^ 2) by (apply Rmult_lt_0_compat; [lra|apply Rinv_0_lt_compat, pow_lt; exact HB]).
  assert (HB1 : 0 < 1 / B) by (apply Rmult_lt_0_compat; [lra|apply Rinv_0_lt_compat; exact HB]).
  exists ((4 / B ^ 2 + 1 / B) * c). split; [apply Rmult_lt_0_compat; lra|]. intros w Hw.
  destruct (exp_neg_inv B w HB Hw) as [E1 E2]. pose proof (HE w (Rlt_le _ _ Hw)) as E3. pose proof (pw_half_le w Hw) as E4.
  assert (EH : pw (1 / 2) w * (c / (1 + w) ^ 3) <= c / (1 + w) ^ 2).
  { replace (c / (1 + w) ^ 2) with ((1 + w) * (c / (1 + w) ^ 3)) by (field; lra). apply Rmult_le_compat_r; [|exact E4].
    left. apply Rmult_lt_0_compat; [exact Hc|apply Rinv_0_lt_compat, pow_lt; lra]. }
  assert (G : forall p d, 0 < d -> p * (exp (- (B / w))) <= d * pw (1 / 2) w -> p * ker w <= d * (c / (1 + w) ^ 2)).
  { intros p d Hd H. rewrite ker_split by exact Hw. fold A. fold B.
    replace (p * (exp (- (A * w)) * exp (- (B / w)))) with (p * exp (- (B / w)) * exp (- (A * w))) by ring.
    apply Rle_trans with (d * pw (1 / 2) w * exp (- (A * w))); [apply Rmult_le_compat_r; [left; apply exp_pos|exact H]|].
    rewrite Rmult_assoc. apply Rmult_le_compat_l; [lra|]. eapply Rle_trans; [|exact EH]. apply Rmult_le_compat_l; [left; apply pw_pos|exact E3]. }
  assert (Q : 0 <= c / (1 + w) ^ 2) by (left; apply Rmult_lt_0_compat; [exact Hc|apply Rinv_0_lt_compat, pow_lt; lra]).
  replace ((4 / B ^ 2 + 1 / B) * c / (1 + w) ^ 2) with (4 / B ^ 2 * (c / (1 + w) ^ 2) + 1 / B * (c / (1 + w) ^ 2)) by (field; split; lra).
  split.
  - apply Rle_trans with (4 / B ^ 2 * (c / (1 + w) ^ 2)); [|nra]. apply G; [exact HB2|].
    apply Rle_trans with (pw (- (3 / 2)) w * (4 * w ^ 2 / B ^ 2)); [apply Rmult_le_compat_l; [left; apply pw_pos|exact E2]|].
    right. replace (w ^ 2) with (pw 1 w * pw 1 w) by (rewrite !pw_1 by exact Hw; ring).
    replace (pw (1 / 2) w) with (pw (- (3 / 2)) w * (pw 1 w * pw 1 w)) by (rewrite <- !pw_plus; f_equal; field). field. lra.
  - apply Rle_trans with (1 / B * (c / (1 + w) ^ 2)); [|nra]. apply G; [exact HB1|].
    apply Rle_trans with (pw (- (1 / 2)) w * (w / B)); [apply Rmult_le_compat_l; [left; apply pw_pos|exact E1]|].
    right. replace w with (pw 1 w) at 2 by (apply pw_1; exact Hw).
    replace (pw (1 / 2) w) with (pw (- (1 / 2)) w * pw 1 w) by (rewrite <- pw_plus; f_equal; field). field. lra.
Qed.
Lemma ker_cont : forall w, 0 < w -> continuous ker w.
Proof. intros w H. apply (ex_derive_continuous ker). unfold ker. auto_derive. lra. Qed.
Lemma pw_cont : forall c w, 0 < w -> continuous (pw c) w.
Proof. intros c w H. apply (ex_derive_continuous (pw c)). unfold pw. auto_derive. lra. Qed.
Lemma k_cont : forall c w, 0 < w -> continuous (fun w => pw c w * ker w) w.
Proof. intros c w H. apply (continuous_mult (pw c) ker); [apply pw_cont|apply ker_cont]; exact H. Qed.
Lemma kernel_int : exists B, forall a b, 0 < a -> 0 < b -> a <= b ->
  (exists v, is_RInt k1 a b v /\ v <= B) /\ (exists v, is_RInt k2 a b v /\ v <= B).
Proof.
  destruct kernel_bound as (C & HC & HB). exists C. intros a b Ha Hb H.
  assert (IC : is_RInt (fun w => C / (1 + w) ^ 2) a b (- (C / (1 + b)) - - (C / (1 + a)))).
  { apply (is_RInt_derive (fun w => - (C / (1 + w)))).
    - intros w. rewrite Rmin_left, Rmax_right by lra. intros Hw. auto_derive; [lra|]. field. lra.
    - intros w. rewrite Rmin_left, Rmax_right by lra. intros Hw. apply (ex_derive_continuous (fun w => C / (1 + w) ^ 2)). auto_derive. nra. }
  assert (LC : - (C / (1 + b)) - - (C / (1 + a)) <= C).
  { assert (0 < C / (1 + b)) by (apply Rmult_lt_0_compat; [lra|apply Rinv_0_lt_compat; lra]).
    assert (C / (1 + a) <= C) by (apply (Rmult_le_reg_r (1 + a)); [lra|]; replace (C / (1 + a) * (1 + a)) with C by (field; lra); nra). lra. }
  assert (G : forall k : R -> R, (forall w, 0 < w -> continuous k w) -> (forall w, 0 < w -> k w <= C / (1 + w) ^ 2) -> exists v, is_RInt k a b v /\ v <= C).
  { intros k Ck Lk. exists (RInt k a b).
    assert (EX : is_RInt k a b (RInt k a b)).
    { apply (RInt_correct (V := R_CompleteNormedModule)), (ex_RInt_continuous (V := R_CompleteNormedModule)).
      intros w. rewrite Rmin_left, Rmax_right by lra. intros Hw. apply Ck. lra. }
    split; [exact EX|]. eapply Rle_trans; [|exact LC]. apply (is_RInt_le k (fun w => C / (1 + w) ^ 2) a b _ _ H EX IC). intros w Hw. apply Lk. lra. }
  split; apply G.
  - intros w Hw. apply (k_cont (- (3 / 2)) w Hw).
  - intros w Hw. apply (HB w Hw).
  - intros w Hw. apply (k_cont (- (1 / 2)) w Hw).
  - intros w Hw. apply (HB w Hw).
Qed.
Lemma at_right_all : at_right 0 (fun w => 0 < w).
Proof. eapply filter_imp; [|apply (at_right_below 1 Rlt_0_1)]. intros u H. apply H. Qed.
Lemma at_inf_all : Rbar_locally p_infty (fun w => 0 < w).
Proof. exists 0. auto. Qed.
Lemma kernel_total : exists Z1 Z2, 0 < Z1 /\ 0 < Z2 /\
  is_RInt_gen k1 (at_right 0) (Rbar_locally p_infty) Z1 /\ is_RInt_gen k2 (at_right 0) (Rbar_locally p_infty) Z2.
Proof.
  destruct kernel_int as (B & HB).
  assert (G : forall c, (forall a b, 0 < a -> 0 < b -> a <= b -> exists v, is_RInt (fun w => pw c w * ker w) a b v /\ v <= B) ->
    exists Z, 0 < Z /\ is_RInt_gen (fun w => pw c w * ker w) (at_right 0) (Rbar_locally p_infty) Z).
  { intros c H. destruct (H 1 2) as (v0 & I0 & _); [lra|lra|lra|].
    apply (gen_exists _ _ _ (fun w => 0 < w) B 1 2 v0); try typeclasses eauto; auto; try lra.
    - intros w _. left. apply Rmult_lt_0_compat; apply exp_pos.
    - intros a b w. lra.
    - intros a. apply at_right_below.
    - intros b Hb. exists b. intros w Hw. lra.
    - rewrite <- (is_RInt_unique _ _ _ _ I0). apply RInt_gt_0; [lra|intros; apply Rmult_lt_0_compat; apply exp_pos|].
      intros w Hw. apply (k_cont c). lra. }
  destruct (G (- (3 / 2))) as (Z1 & H1 & I1); [intros; apply HB; assumption|].
  destruct (G (- (1 / 2))) as (Z2 & H2 & I2); [intros; apply HB; assumption|].
  exists Z1, Z2. auto.
Qed.
Lemma kernel_test : forall h C, (forall w, 0 < w -> continuous h w) -> (forall w, 0 < w -> Rabs (h w) <= C) ->
  exists v1 v2, is_RInt_gen (fun w => k1 w * h w) (at_right 0) (Rbar_locally p_infty) v1 /\
    is_RInt_gen (fun w => k2 w * h w) (at_right 0) (Rbar_locally p_infty) v2.
Proof.
  intros h C Ch Bh. destruct kernel_int as (B & HB).
  assert (G : forall c, (forall a b, 0 < a -> 0 < b -> a <= b -> exists v, is_RInt (fun w => pw c w * ker w) a b v /\ v <= B) ->
    exists v, is_RInt_gen (fun w => pw c w * ker w * h w) (at_right 0) (Rbar_locally p_infty) v).
  { intros c H. apply (gen_bounded (fun w => pw c w * ker w) h _ _ (fun w => 0 < w) B C 1); try typeclasses eauto; auto; try lra.
    - intros w _. left. apply Rmult_lt_0_compat; apply exp_pos.
    - intros w Hw. apply (k_cont c w Hw).
    - intros a b w. lra.
    - intros a. apply at_right_below.
    - intros b Hb. exists b. intros w Hw. lra. }
  destruct (G (- (3 / 2))) as (v1 & I1); [intros; apply HB; assumption|].
  destruct (G (- (1 / 2))) as (v2 & I2); [intros; apply HB; assumption|].
  exists v1, v2. auto.
Qed.
End bridge.
