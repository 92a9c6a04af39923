(** Forward simulation is memoryless, and its finite-dimensional laws converge to those of the Markov process. *)
From Coquelicot Require Import Rcomplements Hierarchy Rbar Lim_seq Continuity Derive RInt RInt_analysis RInt_gen Series PSeries AutoDerive.
From Coq Require Import Reals List Bool Arith Lia Lra.
From Verif Require Import Base Np Rng L_rng M_mjp SpecMjp SpecLin SpecLaw SpecFdd L_law L_law2 L_law4 L_law5 L_bridge L_fdd1 L_fdd2 L_fdd3 L_fwd1 L_fwd2 L_fwd3 L_mat Mat.
Import ListNotations.
Local Open Scope R_scope.

Section Limit.
  Variables (L : linalg) (dim : nat) (gen : mat) (T : R).
  Hypothesis Hgen : generator dim gen.
  Hypothesis HT : 0 < T.
  Hypothesis HL : expm_exact L.
  Notation flow := (flow dim gen).
  Notation leg := (leg dim gen).
  Notation body := (body dim gen).
  Notation step := (step dim gen T).
  Notation V := (V dim gen T).
  Notation q x := (- gen x x).

  Lemma leg_chasles : forall x F v c d, smooth F -> leg x F v d = leg x F v c + exp (q x * (v - c)) * leg x F c d.
  Proof.
    intros x F v c d HF. unfold L_fwd3.leg.
    assert (E : RInt (body x F) v d = RInt (body x F) v c + RInt (body x F) c d).
    { symmetry. apply (RInt_Chasles (V := R_CompleteNormedModule)); eexists; apply body_int; exact HF. }
    rewrite E. replace (q x * (v - c)) with (q x * v + - (q x * c)) by ring. rewrite exp_plus, exp_Ropp. field. apply Rgt_not_eq, exp_pos.
  Qed.
  Lemma leg_mix : forall x F G k v c, smooth F -> smooth G -> leg x (fun w z => F w z - k * G w z) v c = leg x F v c - k * leg x G v c.
  Proof.
    intros x F G k v c HF HG. unfold L_fwd3.leg.
    assert (E : RInt (body x (fun w z => F w z - k * G w z)) v c = RInt (body x F) v c - k * RInt (body x G) v c).
    { apply (is_RInt_unique (V := R_CompleteNormedModule)).
      apply (is_RInt_ext (fun w => minus (body x F w) (scal k (body x G w)))).
      - intros w _. unfold L_fwd3.body. rewrite flow_minus, flow_scal. unfold minus, plus, opp, scal; cbn; unfold mult; cbn. req. ring.
      - apply (is_RInt_minus (V := R_NormedModule)); [apply body_int; exact HF|]. apply (is_RInt_scal (V := R_NormedModule)). apply body_int; exact HG. }
    rewrite E. ring.
  Qed.
  Lemma split : forall W al, (forall r, smooth (W r)) -> forall rem v c x, step W al rem v x = leg x (W rem) v c + exp (q x * (v - c)) * step W al rem c x.
  Proof.
    intros W al HW. induction rem as [|[d y] r IH]; intros v c x; cbn [L_fwd3.step].
    - rewrite (leg_chasles x (W []) v c T) by apply HW. replace (q x * (v - T)) with (q x * (v - c) + q x * (c - T)) by ring. rewrite exp_plus. ring.
    - rewrite (leg_chasles x _ v c d) by (apply smooth_mix; apply HW). rewrite (leg_mix x _ _ _ v c) by apply HW. rewrite (IH v c x). ring.
  Qed.
  Lemma memoryless : forall W al, (forall r, smooth (W r)) -> forall c y r v x,
    step W al ((c, y) :: r) v x = leg x (W ((c, y) :: r)) v c + ind (Nat.eqb x y) * exp (q x * (v - c)) * step W al r c x.
  Proof.
    intros W al HW c y r v x. cbn [L_fwd3.step]. rewrite leg_mix by apply HW. rewrite (split W al HW r v c x). ring.
  Qed.

  (** ** the transition probabilities *)
  Definition coef (x y n : nat) : R := if Nat.ltb x dim && Nat.ltb y dim then mpow dim gen n x y / INR (fact n) else 0.
  Definition tr (t : R) (x y : nat) : R := PSeries (coef x y) t.
  Lemma mpow_scal : forall t n i j, mpow dim (fun i j => t * gen i j) n i j = t ^ n * mpow dim gen n i j.
  Proof.
    intros t. induction n as [|n IH]; intros i j; cbn [mpow pow]; [ring|]. unfold mmul. rewrite <- rsum_scal_l. apply rsum_ext. intros k _. rewrite IH. ring.
  Qed.
  Lemma series_trans : forall t x y, (x < dim)%nat -> (y < dim)%nat -> is_series (fun n => coef x y n * t ^ n) (get_trans L dim t gen x y).
  Proof.
    intros t x y Hx Hy. apply is_series_Reals. pose proof (HL dim (fun i j => t * gen i j) x y Hx Hy) as E. unfold get_trans.
    intros eps He. destruct (E eps He) as [N HN]. exists N. intros n Hn. specialize (HN n Hn).
    rewrite (sum_eq _ (fun n => mpow dim (fun i j => t * gen i j) n x y / INR (fact n))); [exact HN|].
    intros i _. rewrite mpow_scal. unfold coef. rewrite (proj2 (Nat.ltb_lt _ _) Hx), (proj2 (Nat.ltb_lt _ _) Hy). cbn [andb]. unfold Rdiv. ring.
  Qed.
  Lemma tr_trans : forall t x y, (x < dim)%nat -> (y < dim)%nat -> tr t x y = get_trans L dim t gen x y.
  Proof. intros t x y Hx Hy. unfold tr, PSeries. apply is_series_unique. apply series_trans; assumption. Qed.
  Lemma coef_out : forall x y, ~ ((x < dim)%nat /\ (y < dim)%nat) -> forall n, coef x y n = 0.
  Proof.
    intros x y H n. unfold coef. destruct (Nat.ltb_spec x dim), (Nat.ltb_spec y dim); cbn [andb]; try reflexivity. exfalso. apply H. split; assumption.
  Qed.
  Lemma radius : forall x y t, Rbar_lt (Finite (Rabs t)) (CV_radius (coef x y)).
  Proof.
    intros x y t. destruct (Rbar_lt_dec (Finite (Rabs t)) (CV_radius (coef x y))) as [H|H]; [exact H|]. exfalso.
    apply Rbar_not_lt_le in H.
    assert (O : Rbar_lt (CV_radius (coef x y)) (Finite (Rabs (Rabs t + 1)))).
    { apply (Rbar_le_lt_trans _ (Finite (Rabs t))); [exact H|]. cbn. rewrite (Rabs_pos_eq (Rabs t + 1)); [lra|]. pose proof (Rabs_pos t). lra. }
    apply (CV_disk_outside _ _ O). destruct (Nat.lt_ge_cases x dim) as [Hx|Hx].
    - destruct (Nat.lt_ge_cases y dim) as [Hy|Hy].
      + apply ex_series_lim_0. eexists. apply series_trans; assumption.
      + apply (is_lim_seq_ext (fun _ => 0)); [intros n; rewrite coef_out by lia; req; ring|]. apply is_lim_seq_const.
    - apply (is_lim_seq_ext (fun _ => 0)); [intros n; rewrite coef_out by lia; req; ring|]. apply is_lim_seq_const.
  Qed.
  Lemma tr_cont : forall x y t, continuous (fun t => tr t x y) t.
  Proof. intros x y t. apply (ex_derive_continuous (PSeries (coef x y))). eexists. apply is_derive_PSeries. apply radius. Qed.
  Lemma is_series_rsum : forall n (f : nat -> nat -> R) (l : nat -> R), (forall k, (k < n)%nat -> is_series (f k) (l k)) -> is_series (fun m => rsum n (fun k => f k m)) (rsum n l).
  Proof.
    induction n as [|n IH]; intros f l H; cbn [rsum].
    - pose proof (is_series_scal (K := R_AbsRing) (V := R_NormedModule) 0 _ _ (exp_series 1)) as P.
      assert (E : scal (V := R_NormedModule) 0 (exp 1) = 0) by (unfold scal; cbn; unfold mult; cbn; ring). rewrite E in P.
      refine (is_series_ext _ _ _ _ P). intros m. unfold scal; cbn; unfold mult; cbn. req. ring.
    - apply (is_series_plus (V := R_NormedModule) (fun m => rsum n (fun k => f k m)) (f n)); [apply IH; intros; apply H; lia|apply H; lia].
  Qed.
  Lemma tr_derive : forall x y t, (x < dim)%nat -> (y < dim)%nat -> is_derive (fun t => tr t x y) t (rsum dim (fun z => gen x z * tr t z y)).
  Proof.
    intros x y t Hx Hy.
    assert (E : PSeries (PS_derive (coef x y)) t = rsum dim (fun z => gen x z * tr t z y)).
    { unfold PSeries. apply is_series_unique. apply (is_series_ext (fun n => rsum dim (fun z => gen x z * (coef z y n * t ^ n)))).
      - intros n. unfold PS_derive, coef. rewrite (proj2 (Nat.ltb_lt _ _) Hx), (proj2 (Nat.ltb_lt _ _) Hy). cbn [andb].
        rewrite <- mpow_comm by assumption. unfold mmul. rewrite fact_simpl, mult_INR.
        transitivity (rsum dim (fun k => gen x k * mpow dim gen n k y) * (t ^ n / INR (fact n))).
        + rewrite <- rsum_scal_r. apply rsum_ext. intros z Hz. rewrite (proj2 (Nat.ltb_lt _ _) Hz). cbn [andb]. unfold Rdiv. ring.
        + req. field. split; [apply INR_fact_neq_0|apply not_0_INR; discriminate].
      - apply (is_series_rsum dim (fun z n => gen x z * (coef z y n * t ^ n))). intros z Hz. rewrite tr_trans by assumption.
        apply (is_series_scal (K := R_AbsRing) (V := R_NormedModule) (gen x z)). apply series_trans; assumption. }
    rewrite <- E. apply is_derive_PSeries. apply radius.
  Qed.
  Lemma tr_0 : forall x y, (x < dim)%nat -> (y < dim)%nat -> tr 0 x y = ind (Nat.eqb x y).
  Proof.
    intros x y Hx Hy. unfold tr. rewrite PSeries_0. unfold coef. rewrite (proj2 (Nat.ltb_lt _ _) Hx), (proj2 (Nat.ltb_lt _ _) Hy). cbn [andb mpow fact INR]. unfold mident, ind. destruct (Nat.eqb x y); field.
  Qed.
  (** the first jump decomposition of the transition probabilities *)
  Lemma tr_smooth : forall c y, smooth (fun w z => tr (c - w) z y).
  Proof.
    intros c y z w. apply (continuous_comp (fun w => c - w) (fun t => tr t z y)); [|apply tr_cont].
    apply (continuous_minus (V := R_NormedModule) (fun _ => c) (fun w => w)); [apply continuous_const|apply continuous_id].
  Qed.
  Lemma tr_leg : forall x y v c, (x < dim)%nat -> (y < dim)%nat -> tr (c - v) x y = leg x (fun w z => tr (c - w) z y) v c + ind (Nat.eqb x y) * exp (q x * (v - c)).
  Proof.
    intros x y v c Hx Hy. unfold L_fwd3.leg.
    assert (E : RInt (body x (fun w z => tr (c - w) z y)) v c = exp (- q x * v) * tr (c - v) x y - exp (- q x * c) * tr 0 x y).
    { apply (is_RInt_unique (V := R_CompleteNormedModule)).
      assert (E : exp (- q x * v) * tr (c - v) x y - exp (- q x * c) * tr 0 x y = minus ((fun w => - (exp (- q x * w) * tr (c - w) x y)) c) ((fun w => - (exp (- q x * w) * tr (c - w) x y)) v)).
      { unfold minus, plus, opp; cbn. replace (c - c) with 0 by ring. ring. }
      rewrite E. apply (is_RInt_derive (V := R_CompleteNormedModule) (fun w => - (exp (- q x * w) * tr (c - w) x y))).
      - intros w _. unfold L_fwd3.body. rewrite (flow_rsum dim gen x _ Hx).
        assert (D1 : is_derive (fun w => tr (c - w) x y) w (-1 * rsum dim (fun z => gen x z * tr (c - w) z y))).
        { apply (is_derive_comp (fun t => tr t x y) (fun w => c - w) w _ (-1)); [apply tr_derive; assumption|]. auto_derive; [exact Logic.I|ring]. }
        assert (D2 : is_derive (fun w => exp (- q x * w)) w (- q x * exp (- q x * w))) by (auto_derive; [exact Logic.I|ring]).
        pose proof (is_derive_opp (V := R_NormedModule) _ _ _ (is_derive_mult _ _ _ _ _ D2 D1)) as D3.
        match type of D3 with is_derive _ _ ?v => match goal with |- is_derive _ _ ?u => replace u with v; [exact D3|] end end.
        unfold opp, plus, mult; cbn. ring.
      - intros w _. apply body_cont. apply tr_smooth. }
    rewrite E, (tr_0 x y Hx Hy).
    replace (exp (q x * v) * (exp (- q x * v) * tr (c - v) x y - exp (- q x * c) * ind (Nat.eqb x y)))
      with ((exp (q x * v) * exp (- q x * v)) * tr (c - v) x y - (exp (q x * v) * exp (- q x * c)) * ind (Nat.eqb x y)) by ring.
    rewrite <- !exp_plus. replace (q x * v + - q x * v) with 0 by ring. rewrite exp_0. replace (q x * v + - q x * c) with (q x * (v - c)) by ring. ring.
  Qed.

  Fixpoint mm (rem : list (R * nat)) (v : R) (x : nat) : R :=
    match rem with
    | [] => 1
    | (c, y) :: r => tr (c - v) x y * mm r c y
    end.
  Lemma mm_smooth : forall rem, smooth (mm rem).
  Proof.
    intros [|[c y] r] z w; cbn [mm]; [apply continuous_const|].
    apply (continuous_mult (fun w => tr (c - w) z y) (fun _ => mm r c y)); [apply tr_smooth|apply continuous_const].
  Qed.
  Lemma leg_scal : forall x F k v c, smooth F -> leg x (fun w z => F w z * k) v c = leg x F v c * k.
  Proof.
    intros x F k v c HF. unfold L_fwd3.leg. rewrite Rmult_assoc. f_equal.
    apply (is_RInt_unique (V := R_CompleteNormedModule)). rewrite Rmult_comm.
    apply (is_RInt_ext (fun w => scal k (body x F w))).
    - intros w _. unfold L_fwd3.body. rewrite (flow_ext dim gen x (fun z => F w z * k) (fun z => k * F w z)) by (intros; ring). rewrite flow_scal. unfold scal; cbn; unfold mult; cbn. req. ring.
    - apply (is_RInt_scal (V := R_NormedModule)). apply body_int. exact HF.
  Qed.
  Lemma leg_one : forall x v c, (x < dim)%nat -> leg x (fun _ _ => 1) v c = 1 - exp (q x * (v - c)).
  Proof.
    intros x v c Hx. unfold L_fwd3.leg.
    assert (E : RInt (body x (fun _ _ => 1)) v c = exp (- q x * v) - exp (- q x * c)).
    { apply (is_RInt_unique (V := R_CompleteNormedModule)).
      assert (E : exp (- q x * v) - exp (- q x * c) = minus ((fun w => - exp (- q x * w)) c) ((fun w => - exp (- q x * w)) v)) by (unfold minus, plus, opp; cbn; ring).
      rewrite E. apply (is_RInt_derive (V := R_CompleteNormedModule) (fun w => - exp (- q x * w))).
      - intros w _. unfold L_fwd3.body. rewrite (flow_rate dim gen Hgen x Hx). auto_derive; [exact Logic.I|]. req. ring.
      - intros w _. apply body_cont. intros z w'. apply continuous_const. }
    rewrite E. rewrite Rmult_minus_distr_l, <- !exp_plus. replace (q x * v + - q x * v) with 0 by ring. rewrite exp_0. f_equal. f_equal. ring.
  Qed.
  Lemma mm_cons : forall c y r v x, (x < dim)%nat -> (y < dim)%nat ->
    mm ((c, y) :: r) v x = leg x (mm ((c, y) :: r)) v c + ind (Nat.eqb x y) * exp (q x * (v - c)) * mm r c x.
  Proof.
    intros c y r v x Hx Hy. cbn [mm]. rewrite (leg_scal x (fun w z => tr (c - w) z y) (mm r c y)) by apply tr_smooth.
    rewrite (tr_leg x y v c Hx Hy) at 1. destruct (Nat.eqb_spec x y) as [->|N]; cbn [ind]; ring.
  Qed.

  (** ** the error after n steps *)
  Notation rho := (1 - exp (- (rate_bound dim gen * T))).
  Lemma rate_nonneg : forall x, (x < dim)%nat -> 0 <= q x.
  Proof.
    intros x Hx. rewrite <- (flow_rate dim gen Hgen x Hx).
    replace 0 with (flow x (fun _ => 0)); [apply flow_le; [exact Hgen|exact Hx|intros; lra]|].
    rewrite (flow_ext dim gen x _ (fun z => 0 * 1)) by (intros; ring). rewrite flow_scal. ring.
  Qed.
  Lemma rho_range : (0 < dim)%nat -> 0 <= rho < 1.
  Proof.
    intros Hd. pose proof (exp_pos (- (rate_bound dim gen * T))). split; [|lra].
    pose proof (rate_nonneg 0 Hd). pose proof (rate_bound_ge dim gen 0 Hd).
    assert (0 <= rate_bound dim gen * T) by (apply Rmult_le_pos; lra).
    assert (exp (- (rate_bound dim gen * T)) <= exp 0); [|rewrite exp_0 in *; lra].
    destruct (Req_dec (rate_bound dim gen * T) 0) as [->|]; [rewrite Ropp_0; lra|]. left. apply exp_increasing. lra.
  Qed.
  Lemma leg_bound : forall x F v c B, smooth F -> (x < dim)%nat -> 0 <= v <= c -> c <= T -> 0 <= B ->
    (forall w z, v <= w <= c -> (z < dim)%nat -> Rabs (F w z) <= B) -> Rabs (leg x F v c) <= rho * B.
  Proof.
    intros x F v c B HF Hx Hv Hc HB H.
    assert (CS : forall k, smooth (fun _ _ : _ => k)) by (intros k z w; apply continuous_const).
    assert (LE : forall F G, smooth F -> smooth G -> (forall w z, v <= w <= c -> (z < dim)%nat -> F w z <= G w z) -> leg x F v c <= leg x G v c).
    { intros F0 G0 H1 H2 H3. unfold L_fwd3.leg. apply Rmult_le_compat_l; [left; apply exp_pos|].
      apply RInt_le; [lra|eexists; apply body_int; exact H1|eexists; apply body_int; exact H2|].
      intros w Hw. unfold L_fwd3.body. apply Rmult_le_compat_l; [left; apply exp_pos|]. apply flow_le; [exact Hgen|exact Hx|].
      intros z Hz. apply H3; [lra|exact Hz]. }
    assert (KB : forall k, leg x (fun _ _ => k) v c = (1 - exp (q x * (v - c))) * k).
    { intros k. rewrite <- (leg_one x v c Hx), <- leg_scal by apply CS. unfold L_fwd3.leg. f_equal. apply RInt_ext. intros w _. unfold L_fwd3.body. f_equal. apply flow_ext. intros; ring. }
    assert (RB : 0 <= 1 - exp (q x * (v - c)) <= rho).
    { pose proof (rate_nonneg x Hx). pose proof (rate_bound_ge dim gen x Hx).
      assert (E1 : q x * (v - c) <= 0) by (replace (q x * (v - c)) with (- (q x * (c - v))) by ring; pose proof (Rmult_le_pos (q x) (c - v) ltac:(lra) ltac:(lra)); lra).
      assert (E2 : - (rate_bound dim gen * T) <= q x * (v - c)).
      { pose proof (Rmult_le_compat (q x) (rate_bound dim gen) (c - v) T ltac:(lra) ltac:(lra) ltac:(lra) ltac:(lra)). replace (q x * (v - c)) with (- (q x * (c - v))) by ring. lra. }
      assert (M : forall a b, a <= b -> exp a <= exp b) by (intros a b [Hab| ->]; [left; apply exp_increasing; exact Hab|right; reflexivity]).
      pose proof (M _ _ E1) as M1. pose proof (M _ _ E2) as M2. rewrite exp_0 in M1. lra. }
    assert (U : leg x F v c <= (1 - exp (q x * (v - c))) * B).
    { rewrite <- KB. apply LE; [exact HF|apply CS|]. intros w z Hw Hz. specialize (H w z Hw Hz). apply Rabs_le_between in H. lra. }
    assert (D : (1 - exp (q x * (v - c))) * (- B) <= leg x F v c).
    { rewrite <- KB. apply LE; [apply CS|exact HF|]. intros w z Hw Hz. specialize (H w z Hw Hz). apply Rabs_le_between in H. lra. }
    apply Rabs_le_between. assert ((1 - exp (q x * (v - c))) * B <= rho * B) by (apply Rmult_le_compat_r; lra). lra.
  Qed.
  Lemma smooth_bounded : forall F, smooth F -> exists B, 0 <= B /\ forall w z, 0 <= w <= T -> (z < dim)%nat -> Rabs (F w z) <= B.
  Proof.
    intros F HF. generalize dim. intros d0. clear Hgen. induction d0 as [|d IH]; [exists 0; split; [lra|intros; lia]|].
    destruct IH as (B & HB & H).
    destruct (continuity_ab_maj (fun w => Rabs (F w d)) 0 T ltac:(lra)) as (m & Hm & _).
    { intros c _. apply (continuity_pt_comp (fun w => F w d) Rabs); [apply continuity_pt_filterlim; apply HF|apply Rcontinuity_abs]. }
    exists (Rmax B (Rabs (F m d))). split; [apply (Rle_trans _ B); [exact HB|apply Rmax_l]|].
    intros w z Hw Hz. destruct (Nat.eq_dec z d) as [->|N].
    - apply (Rle_trans _ (Rabs (F m d))); [apply Hm; exact Hw|apply Rmax_r].
    - apply (Rle_trans _ B); [apply H; [exact Hw|lia]|apply Rmax_l].
  Qed.
  Definition err (n : nat) (rem : list (R * nat)) (v : R) (x : nat) : R := mm rem v x - 1 * V n rem v x.
  Lemma err_smooth : forall n rem, smooth (err n rem).
  Proof. intros n rem. apply smooth_mix; [apply mm_smooth|apply V_smooth]. Qed.
  Lemma err_nil : forall n v x, (x < dim)%nat -> err (S (S n)) [] v x = leg x (err (S n) []) v T.
  Proof.
    intros n v x Hx. unfold err. rewrite leg_mix by (apply mm_smooth || apply V_smooth). cbn [L_fwd3.V L_fwd3.step alive mm].
    change (mm []) with (fun (_ : R) (_ : nat) => 1). rewrite (leg_one x v T Hx). ring.
  Qed.
  Lemma err_cons : forall n c y r v x, (x < dim)%nat -> (y < dim)%nat ->
    err (S n) ((c, y) :: r) v x = leg x (err n ((c, y) :: r)) v c + ind (Nat.eqb x y) * exp (q x * (v - c)) * err (S n) r c x.
  Proof.
    intros n c y r v x Hx Hy. unfold err. rewrite leg_mix by (apply mm_smooth || apply V_smooth).
    rewrite (mm_cons c y r v x Hx Hy) at 1. cbn [L_fwd3.V]. rewrite (memoryless (V n) (alive n) (V_smooth dim gen T n) c y r v x). ring.
  Qed.
  Definition within (n : nat) (rem : list (R * nat)) (B : R) : Prop :=
    forall v x, (x < dim)%nat -> 0 <= v -> in_order v rem T -> Rabs (err n rem v x) <= B.
  Lemma contraction : (0 < dim)%nat -> forall rem N1 delta, 0 <= delta ->
    (forall n B, (N1 <= n)%nat -> 0 <= B -> within n rem B -> within (S n) rem (rho * B + delta)) ->
    forall eps, delta / (1 - rho) < eps -> exists N, forall n, (N <= n)%nat -> within n rem eps.
  Proof.
    intros Hd rem N1 delta HD HS eps He. pose proof (rho_range Hd) as HR.
    destruct (smooth_bounded (err N1 rem) (err_smooth N1 rem)) as (B0 & HB0 & HB).
    assert (BK : forall k, within (N1 + k) rem (rho ^ k * B0 + delta / (1 - rho))).
    { assert (P : 0 <= delta / (1 - rho)) by (apply Rmult_le_pos; [exact HD|left; apply Rinv_0_lt_compat; lra]).
      induction k as [|k IH].
      - rewrite Nat.add_0_r. cbn [pow]. intros v x Hx Hv HO. assert (Hv' : 0 <= v <= T).
        { split; [exact Hv|]. destruct rem as [|[c y] r]; [exact HO|]. pose proof (in_order_ge _ _ _ HO (c, y) (or_introl eq_refl)) as Q. cbn in Q. lra. }
        specialize (HB v x Hv' Hx). lra.
      - rewrite Nat.add_succ_r. assert (PB : 0 <= rho ^ k * B0 + delta / (1 - rho)).
        { pose proof (pow_le rho k (proj1 HR)). pose proof (Rmult_le_pos (rho ^ k) B0 H HB0). lra. }
        replace (rho ^ S k * B0 + delta / (1 - rho)) with (rho * (rho ^ k * B0 + delta / (1 - rho)) + delta) by (cbn [pow]; field; lra).
        apply HS; [lia|exact PB|exact IH]. }
    destruct (pow_lt_1_zero rho ltac:(rewrite Rabs_pos_eq; lra) ((eps - delta / (1 - rho)) / (B0 + 1)) ltac:(apply Rdiv_lt_0_compat; lra)) as [K HK].
    exists (N1 + K)%nat. intros n Hn v x Hx Hv HO.
    replace n with (N1 + (n - N1))%nat by lia. apply (Rle_trans _ (rho ^ (n - N1) * B0 + delta / (1 - rho))); [apply BK; assumption|].
    specialize (HK (n - N1)%nat ltac:(lia)). rewrite Rabs_pos_eq in HK by (apply pow_le; lra).
    assert (rho ^ (n - N1) * B0 <= eps - delta / (1 - rho)); [|lra].
    apply (Rle_trans _ ((eps - delta / (1 - rho)) / (B0 + 1) * B0)); [apply Rmult_le_compat_r; lra|].
    assert (Hg : 0 < eps - delta / (1 - rho)) by lra. set (g := eps - delta / (1 - rho)) in *. replace (g / (B0 + 1) * B0) with (g - g / (B0 + 1)) by (field; lra).
    assert (0 < g / (B0 + 1)) by (apply Rdiv_lt_0_compat; lra). lra.
  Qed.
  Lemma converges : (0 < dim)%nat -> forall rem, in_range dim rem -> forall eps, 0 < eps -> exists N, forall n, (N <= n)%nat -> within n rem eps.
  Proof.
    intros Hd. pose proof (rho_range Hd) as HR. induction rem as [|[c y] r IH]; intros HG eps He.
    - apply (contraction Hd [] 1 0 (Rle_refl 0)); [|unfold Rdiv; rewrite Rmult_0_l; exact He].
      intros [|n] B Hn HB W; [lia|]. intros v x Hx Hv HO. rewrite (err_nil n v x Hx). rewrite Rplus_0_r.
      apply leg_bound; [apply err_smooth|exact Hx|split; [exact Hv|exact HO]|lra|exact HB|].
      intros w z Hw Hz. apply W; [exact Hz|lra|exact (proj2 Hw)].
    - inversion HG as [|? ? Hy HG']; subst. cbn in Hy.
      assert (Hde : 0 < eps * (1 - rho) / 2) by (apply Rmult_lt_0_compat; [apply Rmult_lt_0_compat; lra|lra]).
      destruct (IH HG' (eps * (1 - rho) / 2) Hde) as [N HN].
      apply (contraction Hd ((c, y) :: r) N (eps * (1 - rho) / 2) (Rlt_le _ _ Hde)).
      2:{ replace (eps * (1 - rho) / 2 / (1 - rho)) with (eps / 2) by (field; lra). lra. }
      intros n B Hn HB W v x Hx Hv HO. destruct HO as [O1 O2]. rewrite (err_cons n c y r v x Hx Hy).
      assert (Oc : c <= T) by (destruct (in_order_ge ((c, y) :: r) v T (conj O1 O2) (c, y) (or_introl eq_refl)); assumption).
      apply (Rle_trans _ _ _ (Rabs_triang _ _)). apply Rplus_le_compat.
      + apply leg_bound; [apply err_smooth|exact Hx|lra|exact Oc|exact HB|].
        intros w z Hw Hz. apply W; [exact Hz|lra|]. split; [exact (proj2 Hw)|exact O2].
      + rewrite Rabs_mult. specialize (HN (S n) ltac:(lia) c x Hx ltac:(lra) O2).
        rewrite <- (Rmult_1_l (eps * (1 - rho) / 2)). apply Rmult_le_compat; [apply Rabs_pos|apply Rabs_pos| |exact HN].
        assert (E : 0 < exp (q x * (v - c)) <= 1).
        { split; [apply exp_pos|]. rewrite <- exp_0. pose proof (rate_nonneg x Hx).
          assert (E1 : q x * (v - c) <= 0) by (replace (q x * (v - c)) with (- (q x * (c - v))) by ring; pose proof (Rmult_le_pos (q x) (c - v) ltac:(lra) ltac:(lra)); lra).
          destruct E1 as [E1| ->]; [left; apply exp_increasing; exact E1|right; reflexivity]. }
        destruct (Nat.eqb x y); cbn [ind]; [rewrite Rmult_1_l, Rabs_pos_eq; lra|rewrite Rmult_0_l, Rabs_R0; lra].
  Qed.
  Lemma mm_markov : forall rem v x, (x < dim)%nat -> in_range dim rem -> mm rem v x = markov (fun t => get_trans L dim t gen) v x rem.
  Proof.
    induction rem as [|[c y] r IH]; intros v x Hx HG; [reflexivity|]. inversion HG as [|? ? Hy HG']; subst. cbn in Hy. cbn [mm markov].
    rewrite (tr_trans (c - v) x y Hx Hy), (IH c y Hy HG'). reflexivity.
  Qed.

  Lemma forwards_fdd : forall x obs, (2 <= dim)%nat -> (x < dim)%nat -> in_order 0 obs T -> in_range dim obs ->
    exists p, (forall fuel, chance (sample_forwards L fuel T (Some x) dim gen) (visits obs) (p fuel)) /\
      Un_cv p (markov (fun t => get_trans L dim t gen) 0 x obs).
  Proof.
    intros x obs Hd Hx HO HG. exists (fun fuel => V fuel obs 0 x). split.
    - intros fuel. unfold chance. apply (average_comp _ (forwards_loop fuel T dim gen [] [] (Fin 0) x)); [intros; reflexivity|].
      apply loop_law; assumption.
    - intros eps He. destruct (converges ltac:(lia) obs HG (eps / 2) ltac:(lra)) as [N HN]. exists N. intros n Hn.
      specialize (HN n Hn 0 x Hx (Rle_refl 0) HO). unfold R_dist. rewrite <- mm_markov by assumption.
      rewrite Rabs_minus_sym. unfold err in HN. rewrite Rmult_1_l in HN. lra.
  Qed.
End Limit.
