(** The law of the sampled minimum of a Brownian bridge and of its time. *)
From Coquelicot Require Import Rcomplements Hierarchy Rbar Lim_seq Continuity Derive RInt RInt_gen RInt_analysis AutoDerive.
From Coq Require Import Reals List Bool Arith Lra Lia Psatz.
From Verif Require Import Base Rng M_hit SpecLaw SpecHit SpecArg L_rng L_law L_law2 L_law5 L_law6 L_hit L_gauss L_arg L_arg2.
Import ListNotations.
Local Open Scope R_scope.

Definition rest_min (t a b : R) (e : ext) : M (option (R * R)) :=
  match e with
  | Fin min_x =>
      let par1 := (b - min_x) ^ 2 / (2 * t) in
      let par2 := (min_x - a) ^ 2 / (2 * t) in
      let par3 := sqrt (par1 / par2) in
      do v <- draw_r (DUniform 0 1);
      if Rltb v (1 / (1 + par3)) then
        do w <- draw_r (DWald par3 (2 * par1));
        ret (Some (t / (1 + w), min_x))
      else
        do w <- draw_r (DWald (1 / par3) (2 * par2));
        ret (Some (t / (1 + 1 / w), min_x))
  | _ =>
      do _ <- draw_r (DUniform 0 1);
      do _ <- draw_r (DWald 0 0);
      ret None
  end.

Lemma uniform_const : forall c, expect_r (DUniform 0 1) (fun _ => c) c.
Proof. intros c. split; [lra|]. pose proof (is_RInt_const (V := R_NormedModule) 0 1 c) as H. unfold scal in H; cbn in H; unfold mult in H; cbn in H. exact H. Qed.
Lemma rest_none : forall t a b e (F : R -> R -> R) (c : R), is_fin e = false -> average (rest_min t a b e) (of_min F c) c.
Proof.
  intros t a b e F c He. destruct e as [|m|]; try discriminate; cbn [rest_min].
  all: apply (average_r _ _ _ _ (fun _ => c)); [apply uniform_const|]; intros _ _;
    apply (average_r _ _ _ _ (fun _ => c)); [right; auto|]; intros _ _; apply (average_ret _ (@None (R * R)) (of_min F c)).
Qed.
Lemma rest_law : forall t a b m (F : R -> R -> R) (c C v : R), 0 < t -> m < a -> m < b ->
  (forall u, 0 < u < t -> continuous (fun u => F u m) u) -> (forall u, 0 < u < t -> Rabs (F u m) <= C) ->
  under (argmin_weight t (a - m) (b - m)) (at_right 0) (at_left t) (fun u => F u m) v ->
  average (rest_min t a b (Fin m)) (of_min F c) v.
Proof.
  intros t a b m F c C v Ht Ha Hb Ch Bh Hv. set (x := a - m) in *. set (y := b - m) in *.
  assert (Hx : 0 < x) by (unfold x; lra). assert (Hy : 0 < y) by (unfold y; lra).
  destruct (mixture t x y (fun u => F u m) C Ht Hx Hy Ch Bh) as (v' & v1 & v2 & U & E1 & E2 & EV).
  assert (v = v') as ->. { refine (under_unique (argmin_weight t x y) (at_right 0) (at_left t) (fun _ => True) _ _ v v' _ _ _ _ Hv U); [apply filter_forall; auto|reflexivity]. }
  assert (Q1 : 2 * ((b - m) ^ 2 / (2 * t)) = y ^ 2 / t) by (unfold y; field; lra).
  assert (Q2 : 2 * ((m - a) ^ 2 / (2 * t)) = x ^ 2 / t) by (unfold x; field; lra).
  assert (Q3 : sqrt ((b - m) ^ 2 / (2 * t) / ((m - a) ^ 2 / (2 * t))) = y / x).
  { replace ((b - m) ^ 2 / (2 * t) / ((m - a) ^ 2 / (2 * t))) with ((y / x) ^ 2) by (unfold x, y; field; lra).
    apply sqrt_pow2. apply Rmult_le_pos; [lra|left; apply Rinv_0_lt_compat; lra]. }
  unfold rest_min. cbv zeta. rewrite Q1, Q2, Q3.
  assert (Q4 : 1 / (1 + y / x) = x / (x + y)) by (field; lra). assert (Q5 : 1 / (y / x) = x / y) by (field; lra). rewrite Q4, Q5.
  assert (RG : 0 <= x / (x + y) <= 1).
  { split; [apply Rmult_le_pos; [lra|left; apply Rinv_0_lt_compat; lra]|]. apply (Rmult_le_reg_r (x + y)); [lra|]. replace (x / (x + y) * (x + y)) with x by (field; lra). lra. }
  set (A := do w <- draw_r (DWald (y / x) (y ^ 2 / t)); ret (Some (t / (1 + w), m))).
  set (B := do w <- draw_r (DWald (x / y) (x ^ 2 / t)); ret (Some (t / (1 + 1 / w), m))).
  apply (average_comp _ (bind (do u <- draw_r (DUniform 0 1); ret (Rltb u (x / (x + y)))) (fun z : bool => if z then A else B))).
  { intros o k _. unfold bind, draw_r, ret. cbn. reflexivity. }
  pose proof (threshold_law (fun u => Rltb u (x / (x + y))) (x / (x + y)) (fun z => if z then v1 else v2) RG (fun u _ => Rltb_true u (x / (x + y)))) as TL.
  apply (average_bind0 _ _ _ _ _ (fun z : bool => if z then v1 else v2)).
  - refine (average_eq _ _ _ _ _ _ TL). rewrite EV. field. lra.
  - intros [|]; unfold A, B.
    + apply (average_r _ _ _ _ (fun w => F (t / (1 + w)) m)); [exact E1|]. intros w _. apply (average_ret _ (Some (t / (1 + w), m)) (of_min F c)).
    + apply (average_r _ _ _ _ (fun w => F (t / (1 + 1 / w)) m)); [exact E2|]. intros w _. apply (average_ret _ (Some (t / (1 + 1 / w), m)) (of_min F c)).
Qed.
Lemma rest_const : forall t a b m (g : R -> R) c, 0 < t -> m < a -> m < b -> average (rest_min t a b (Fin m)) (of_min (fun _ => g) c) (g m).
Proof.
  intros t a b m g c Ht Ha Hb.
  assert (Hx : 0 < a - m) by lra. assert (Hy : 0 < b - m) by lra.
  destruct (mixture t (a - m) (b - m) (fun _ => 1) 1 Ht Hx Hy) as (v & _ & _ & U & _); [intros; apply continuous_const|intros; rewrite Rabs_R1; lra|].
  apply (rest_law t a b m (fun _ => g) c (Rabs (g m))); auto; [intros; apply continuous_const|intros; lra|].
  destruct U as (Z & HZ & I0 & _). exists Z. split; [exact HZ|]. split; [exact I0|].
  pose proof (is_RInt_gen_scal _ (g m) _ I0) as P. unfold scal in P; cbn in P; unfold mult in P; cbn in P. replace (Z * g m) with (g m * Z) by ring.
  refine (is_RInt_gen_ext _ _ _ _ P). apply filter_forall. intros p w _. req. ring.
Qed.

Section law.
  Variables (t a b : R) (lbo : option ext) (ubo : option R).
  Let lb := lb_default lbo.
  Let ub := ub_default ubo a b.
  Hypothesis Ht : 0 < t.
  Hypothesis Hl : elt lb (Fin ub).
  Hypothesis Hu : ub <= Rmin a b.

  Lemma below_ends : forall m, m < ub -> m < a /\ m < b.
  Proof. intros m H. pose proof (Rmin_l a b). pose proof (Rmin_r a b). lra. Qed.
  Lemma ppf_some : forall p, 0 <= p < 1 -> exists e, ppf_brownbr_min p t a b (Some lb) (Some ub) = Ok e /\ ppf_brownbr_min p t a b lbo ubo = Ok e /\ ele lb e /\ elt e (Fin ub) /\
    cdf_brownbr_min e t a b lbo ubo = Ok p.
  Proof.
    intros p Hp. destruct (ppf_statement t a b lbo ubo Ht Hl Hu p ltac:(lra)) as (e & E & L & _ & Cd & _ & L2).
    exists e. split; [|split; [exact E|split; [exact L|split; [apply L2; lra|exact Cd]]]]. rewrite <- E. reflexivity.
  Qed.
  Definition from_p (p : R) : M (option (R * R)) := do e <- lift (ppf_brownbr_min p t a b (Some lb) (Some ub)); rest_min t a b e.
  Lemma min_unfold : forall o k, valid o -> sample_brownbr_min t a b lbo ubo o k = bind (draw_r (DUniform 0 1)) from_p o k.
  Proof.
    intros o k _. unfold sample_brownbr_min. fold lb ub.
    assert (B : bounds_ok lb ub a b = true).
    { unfold bounds_ok. apply andb_true_iff. split; [|apply Rleb_true; exact Hu]. destruct lb; cbn in *; try easy. apply Rltb_true; exact Hl. }
    rewrite B. rewrite (proj2 (Rltb_true 0 t) Ht). reflexivity.
  Qed.
  Lemma from_eq : forall p e, ppf_brownbr_min p t a b (Some lb) (Some ub) = Ok e -> forall o k, from_p p o k = rest_min t a b e o k.
  Proof. intros p e E o k. unfold from_p. rewrite E. reflexivity. Qed.
  Lemma in_unit : forall x, rsupport (DUniform 0 1) x -> 0 <= x < 1.
  Proof. intros x (u & Hu1 & ->). lra. Qed.
  Definition min_of (p : R) : ext := match ppf_brownbr_min p t a b (Some lb) (Some ub) with Ok e => e | _ => NegInf end.
  Lemma snd_law : forall (g : R -> R) c p, 0 <= p < 1 -> average (from_p p) (of_min (fun _ => g) c) (match min_of p with Fin m => g m | _ => c end).
  Proof.
    intros g c p Hp. destruct (ppf_some p Hp) as (e & E & _ & L & U & _). unfold min_of. rewrite E.
    apply (average_comp _ (rest_min t a b e)); [intros o k _; apply from_eq; exact E|].
    destruct e as [|m|].
    - apply rest_none; reflexivity.
    - cbn in U. destruct (below_ends m U). apply rest_const; assumption.
    - destruct U.
  Qed.
  Lemma time_law : forall (F : R -> R -> R) (g : R -> R) c V,
    (forall m u, m < ub -> 0 < u < t -> continuous (fun u => F u m) u) -> (forall m, m < ub -> exists C, forall u, 0 < u < t -> Rabs (F u m) <= C) ->
    (forall m, ele lb (Fin m) -> m < ub -> under (argmin_weight t (a - m) (b - m)) (at_right 0) (at_left t) (fun u => F u m) (g m)) ->
    average (sample_brownbr_min t a b lbo ubo) (of_min (fun _ => g) c) V ->
    average (sample_brownbr_min t a b lbo ubo) (of_min F c) V.
  Proof.
    intros F g c V Ch Bh HU HV.
    assert (ONE : forall p, rsupport (DUniform 0 1) p -> mean (value (of_min (fun _ _ : R => 1) 1)) (from_p p) 1).
    { intros p Hp. apply in_unit in Hp. pose proof (snd_law (fun _ => 1) 1 p Hp) as S. destruct (min_of p); exact S. }
    destruct (mean_align_r _ _ (value (of_min (fun _ => g) c)) _ _ _ _ _ _ min_unfold ONE (uniform_const 1) HV) as (g' & G1 & G2).
    apply (mean_real _ _ (DUniform 0 1) from_p g' V min_unfold); [|exact G2].
    intros p Hp. specialize (G1 p Hp). apply in_unit in Hp.
    assert (g' p = match min_of p with Fin m => g m | _ => c end) as -> by (apply (average_unique _ _ _ _ _ G1 (snd_law g c p Hp))).
    destruct (ppf_some p Hp) as (e & E & _ & L & U & _). unfold min_of. rewrite E.
    apply (average_comp _ (rest_min t a b e)); [intros o k _; apply from_eq; exact E|].
    destruct e as [|m|].
    - apply rest_none; reflexivity.
    - cbn in U. destruct (below_ends m U). destruct (Bh m U) as [C HC].
      apply (rest_law t a b m F c C); auto; intros u Hu'; apply Ch; assumption.
    - destruct U.
  Qed.
  Lemma min_law : forall x q, ele lb (Fin x) -> x <= ub -> cdf_brownbr_min (Fin x) t a b lbo ubo = Ok q ->
    chance (sample_brownbr_min t a b lbo ubo) (of_min (fun _ m => Rleb m x) true) q.
  Proof.
    intros x q Lx Ux Cq. unfold chance.
    destruct (cdf_statement t a b lbo ubo Ht Hl Hu) as (RG & _ & _ & MONO). fold lb ub in RG, MONO.
    destruct (RG (Fin x) Lx Ux) as (q' & Cq' & Hq). assert (q = q') as -> by congruence.
    assert (CASES : forall p m, 0 <= p < 1 -> ppf_brownbr_min p t a b (Some lb) (Some ub) = Ok (Fin m) -> (p < q' -> m <= x) /\ (q' < p -> x < m)).
    { intros p m Hp E. destruct (ppf_some p Hp) as (e & E' & _ & L & U & Cd). assert (e = Fin m) as -> by congruence.
      split; intros H.
      - destruct (Rle_lt_dec m x) as [|C]; [assumption|exfalso]. assert (q' < p); [|lra].
        apply (MONO (Fin x) (Fin m) q' p Lx C); auto. cbn. cbn in U. lra.
      - destruct (Rlt_le_dec x m) as [|[C| ->]]; [assumption|exfalso|exfalso].
        + assert (p < q'); [|lra]. apply (MONO (Fin m) (Fin x) p q' L C Ux); auto.
        + rewrite Cq in Cd. injection Cd as ->. lra. }
    apply (mean_real _ _ (DUniform 0 1) from_p (fun p => match min_of p with Fin m => ind (Rleb m x) | _ => 1 end) q' min_unfold).
    - intros p Hp. apply in_unit in Hp.
      refine (average_ext _ _ _ _ _ _ (snd_law (fun m => ind (Rleb m x)) 1 p Hp)). intros [[u m]|]; reflexivity.
    - split; [lra|].
      assert (P1 : is_RInt (fun p => match min_of p with Fin m => ind (Rleb m x) | _ => 1 end) 0 q' q').
      { apply (is_RInt_ext (fun _ => 1)).
        - rewrite Rmin_left, Rmax_right by lra. intros p Hp. destruct (ppf_some p ltac:(lra)) as (e & E & _ & L & U & Cd). unfold min_of. rewrite E.
          destruct e as [|m|]; try reflexivity. destruct (CASES p m ltac:(lra) E) as [K _]. rewrite (proj2 (Rleb_true m x)); [reflexivity|]. apply K; lra.
        - pose proof (is_RInt_const (V := R_NormedModule) 0 q' 1) as H. unfold scal in H; cbn in H; unfold mult in H; cbn in H. replace ((q' - 0) * 1) with q' in H by ring. exact H. }
      assert (P2 : is_RInt (fun p => match min_of p with Fin m => ind (Rleb m x) | _ => 1 end) q' 1 0).
      { apply (is_RInt_ext (fun _ => 0)).
        - rewrite Rmin_left, Rmax_right by lra. intros p Hp. destruct (ppf_some p ltac:(lra)) as (e & E & _ & L & U & Cd). unfold min_of. rewrite E.
          destruct e as [|m|].
          + exfalso. assert (p < q'); [|lra]. apply (MONO NegInf (Fin x) p q' L Logic.I Ux); auto.
          + destruct (CASES p m ltac:(lra) E) as [_ K]. rewrite (proj2 (Rleb_false m x)); [reflexivity|]. apply K; lra.
          + destruct U.
        - pose proof (is_RInt_const (V := R_NormedModule) q' 1 0) as H. unfold scal in H; cbn in H; unfold mult in H; cbn in H. replace ((1 - q') * 0) with 0 in H by ring. exact H. }
      pose proof (is_RInt_Chasles _ _ _ _ _ _ P1 P2) as P. unfold plus in P; cbn in P. replace ((1 - 0) * q') with (q' + 0) by ring. exact P.
  Qed.
End law.

Lemma symmetric_mean : forall t x, 0 < t -> 0 < x -> under (argmin_weight t x x) (at_right 0) (at_left t) (fun u => u) (t / 2).
Proof.
  intros t x Ht Hx.
  destruct (mixture t x x (fun u => u) t Ht Hx Hx) as (v & _ & _ & U & _); [intros; apply continuous_id|intros; rewrite Rabs_pos_eq; lra|].
  assert (W : forall u, argmin_weight t x x (t - u) = argmin_weight t x x u).
  { intros u. unfold argmin_weight. replace (t - (t - u)) with u by ring. ring. }
  assert (LT : at_left t (fun u => 0 < u < t)).
  { exists (mkposreal t Ht). intros u Hu Hu2. unfold ball in Hu. cbn in Hu. unfold AbsRing_ball, abs, minus, plus, opp in Hu. cbn in Hu. apply Rabs_lt_between in Hu. lra. }
  assert (RT : at_right 0 (fun u => 0 < u < t)).
  { eapply filter_imp; [|apply (at_right_below (t / 2)); lra]. cbn beta. intros u Hu. lra. }
  assert (SUB : forall f V, (forall u, 0 < u < t -> continuous f u) -> is_RInt_gen f (at_right 0) (at_left t) V -> is_RInt_gen (fun u => - -1 * f (t - u)) (at_right 0) (at_left t) V).
  { intros f V Cf HI. apply (gen_subst f (fun u => t - u) (fun _ => -1) (at_right 0) (at_left t) _ _ (fun u => 0 < u < t) (fun u => 0 < u < t)); try typeclasses eauto; auto.
    - intros; lra.
    - intros u Hu. split; [auto_derive; [exact Logic.I|ring]|apply continuous_const].
    - intros; lra.
    - intros P [eps HP]. exists eps. intros u Hu Hu2. apply HP; [|lra]. unfold ball in *. cbn in *. unfold AbsRing_ball, abs, minus, plus, opp in *. cbn in *. replace (t - u + - t) with (- (u + - 0)) by ring. rewrite Rabs_Ropp. exact Hu.
    - intros P [eps HP]. exists eps. intros u Hu Hu2. apply HP; [|lra]. unfold ball in *. cbn in *. unfold AbsRing_ball, abs, minus, plus, opp in *. cbn in *. replace (t - u + - 0) with (- (u + - t)) by ring. rewrite Rabs_Ropp. exact Hu. }
  destruct U as (Z & HZ & I0 & I1).
  assert (CW : forall u, 0 < u < t -> continuous (argmin_weight t x x) u).
  { intros u Hu. apply (ex_derive_continuous (argmin_weight t x x)). unfold argmin_weight. auto_derive. repeat split; lra. }
  pose proof (SUB _ _ (fun u Hu => continuous_mult (argmin_weight t x x) (fun u => u) u (CW u Hu) (continuous_id _)) I1) as I2.
  pose proof (is_RInt_gen_plus _ _ _ _ I1 I2) as I3. pose proof (is_RInt_gen_scal _ t _ I0) as I4.
  unfold plus in I3; cbn in I3. unfold scal in I4; cbn in I4; unfold mult in I4; cbn in I4.
  assert (I5 : is_RInt_gen (fun u => t * argmin_weight t x x u) (at_right 0) (at_left t) (Z * v + Z * v)).
  { refine (is_RInt_gen_ext _ _ _ _ I3). apply filter_forall. intros p u _. cbn. rewrite W. req. ring. }
  pose proof (is_RInt_gen_unique _ _ I4) as U1. rewrite (is_RInt_gen_unique _ _ I5) in U1.
  exists Z. split; [exact HZ|]. split; [exact I0|]. replace (Z * (t / 2)) with (Z * v) by lra. exact I1.
Qed.
Lemma symmetric_time : forall t a lbo ubo, 0 < t -> elt (lb_default lbo) (Fin (ub_default ubo a a)) -> ub_default ubo a a <= a ->
  average (sample_brownbr_min t a a lbo ubo) (of_min (fun u _ => u) (t / 2)) (t / 2).
Proof.
  intros t a lbo ubo Ht Hl Hu. assert (Hu' : ub_default ubo a a <= Rmin a a) by (rewrite Rmin_left; lra).
  apply (time_law t a a lbo ubo Ht Hl Hu' (fun u _ => u) (fun _ => t / 2)).
  - intros; apply continuous_id.
  - intros m _. exists t. intros u H. rewrite Rabs_pos_eq; lra.
  - intros m _ Hm. apply symmetric_mean; [exact Ht|lra].
  - apply (mean_real _ _ (DUniform 0 1) (from_p t a a lbo ubo) (fun _ => t / 2) (t / 2) (min_unfold t a a lbo ubo Ht Hl Hu')); [|apply uniform_const].
    intros p Hp. apply in_unit in Hp. pose proof (snd_law t a a lbo ubo Ht Hl Hu' (fun _ => t / 2) (t / 2) p Hp) as S. destruct (min_of t a a lbo ubo p); exact S.
Qed.

Lemma reflection_law : forall t a b x, 0 < t -> x <= Rmin a b ->
  chance (sample_brownbr_min t a b None None) (of_min (fun _ m => Rleb m x) true) (exp (-2 * (a - x) * (b - x) / t)).
Proof.
  intros t a b x Ht Hx. apply (min_law t a b None None Ht Logic.I (Rle_refl _)); [exact Logic.I|exact Hx|].
  unfold cdf_brownbr_min. rewrite (proj2 (Rltb_true 0 t) Ht). cbn [lb_default ub_default negb].
  assert (bounds_ok NegInf (Rmin a b) a b = true) as -> by (unfold bounds_ok; cbn; apply Rleb_true; lra).
  assert (unbounded_min NegInf (Rmin a b) a b = true) as -> by (unfold unbounded_min; cbn; apply Reqb_true; reflexivity).
  cbn [negb]. f_equal. rewrite (pm_exp t a b Ht x Hx). unfold quad. f_equal. field. lra.
Qed.
