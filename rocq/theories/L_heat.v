(** A minimum principle for solutions of the heat equation, used to bound the escape
    series by one. *)
From Coq Require Import Reals Lra Lia List.
From Coquelicot Require Import Coquelicot.
Local Open Scope R_scope.

(** ** Minimum of a continuous function on a rectangle *)
Lemma min2d (f : R -> R -> R) (a b c d e : R) : 0 < e -> a <= b -> c <= d ->
  (forall x y, a - e <= x <= b + e -> c <= y <= d -> continuity_2d_pt f x y) ->
  exists x0 y0, a <= x0 <= b /\ c <= y0 <= d /\ forall x y, a <= x <= b -> c <= y <= d -> f x0 y0 <= f x y.
Proof.
  intros He Hab Hcd C.
  pose proof (uniform_continuity_2d f (a - e) (b + e) c d C) as U.
  assert (M1 : forall x, a - e <= x <= b + e -> exists y0, c <= y0 <= d /\ forall y, c <= y <= d -> f x y0 <= f x y).
  { intros x Hx.
    destruct (continuity_ab_min (fun y => f x y) c d Hcd) as (y0 & Hy & I).
    - intros y Hy. apply continuity_pt_filterlim.
      intros P [eps HP]. destruct (C x y Hx Hy eps) as (dl & Hd).
      exists dl. intros z Hz. apply HP. apply (Hd x z); [rewrite Rminus_eq_0, Rabs_R0; apply cond_pos|exact Hz].
    - exists y0. split; [exact I|exact Hy]. }
  pose (m := fun x => real (Glb_Rbar (fun z => exists y, c <= y <= d /\ z = f x y))).
  assert (M2 : forall x, a - e <= x <= b + e -> exists y0, c <= y0 <= d /\ m x = f x y0 /\ forall y, c <= y <= d -> f x y0 <= f x y).
  { intros x Hx. destruct (M1 x Hx) as (y0 & I & Hy). exists y0. split; [exact I|]. split; [|exact Hy].
    unfold m. rewrite (is_glb_Rbar_unique _ (f x y0)); [reflexivity|].
    split.
    - intros z (y & Iy & ->). apply Hy, Iy.
    - intros z Hz. apply Hz. exists y0. auto. }
  assert (MC : forall x, a <= x <= b -> continuity_pt m x).
  { intros x Hx. apply continuity_pt_filterlim. intros P [eps HP].
    destruct (U eps) as (dl & Hd).
    assert (Hm : 0 < Rmin dl e) by (apply Rmin_pos; [apply cond_pos|exact He]).
    exists (mkposreal _ Hm). intros z Hz. apply HP.
    change (Rabs (z - x) < Rmin dl e) in Hz.
    assert (Z1 : Rabs (z - x) < dl) by (eapply Rlt_le_trans; [exact Hz|apply Rmin_l]).
    assert (Z2 : Rabs (z - x) < e) by (eapply Rlt_le_trans; [exact Hz|apply Rmin_r]).
    apply Rabs_def2 in Z2.
    destruct (M2 x ltac:(lra)) as (y0 & I0 & E0 & H0). destruct (M2 z ltac:(lra)) as (y1 & I1 & E1 & H1).
    change (Rabs (m z - m x) < eps). rewrite E0, E1.
    assert (O : forall y, Rabs (y - y) < dl) by (intro; rewrite Rminus_eq_0, Rabs_R0; apply cond_pos).
    pose proof (Hd x y1 z y1 ltac:(lra) I1 ltac:(lra) I1 Z1 (O y1)) as A.
    pose proof (Hd x y0 z y0 ltac:(lra) I0 ltac:(lra) I0 Z1 (O y0)) as B.
    apply Rabs_def2 in A. apply Rabs_def2 in B.
    pose proof (H0 y1 I1). pose proof (H1 y0 I0). apply Rabs_def1; lra. }
  destruct (continuity_ab_min m a b Hab MC) as (x0 & Hx0 & I).
  destruct (M2 x0 ltac:(lra)) as (y0 & Iy & E0 & H0).
  exists x0, y0. split; [exact I|]. split; [exact Iy|].
  intros x y Hx Hy. destruct (M2 x ltac:(lra)) as (y1 & I1 & E1 & H1).
  rewrite <- E0. eapply Rle_trans; [apply (Hx0 x Hx)|]. rewrite E1. apply H1, Hy.
Qed.

(** ** Derivative tests at a minimum *)
Lemma min_left_deriv (f : R -> R) l x d : l < x -> is_derive f x d -> (forall z, l <= z <= x -> f x <= f z) -> d <= 0.
Proof.
  intros Hl D H. destruct (Rle_lt_dec d 0) as [|Hd]; [assumption|exfalso].
  apply is_derive_Reals in D. destruct (D d Hd) as (dl & HD).
  pose (h := - (Rmin dl (x - l)) / 2).
  assert (Hm : 0 < Rmin dl (x - l)) by (apply Rmin_pos; [apply cond_pos|lra]).
  pose proof (Rmin_l dl (x - l)). pose proof (Rmin_r dl (x - l)).
  assert (Hh : h < 0) by (unfold h; lra).
  specialize (HD h ltac:(lra) ltac:(rewrite Rabs_left by exact Hh; unfold h; lra)).
  apply Rabs_def2 in HD. destruct HD as (_ & HD).
  assert (0 < (f (x + h) - f x) / h) by lra.
  assert (f (x + h) - f x < 0).
  { replace (f (x + h) - f x) with ((f (x + h) - f x) / h * h) by (field; lra).
    rewrite <- (Rmult_0_r ((f (x + h) - f x) / h)). apply Rmult_lt_compat_l; assumption. }
  specialize (H (x + h) ltac:(unfold h; lra)). lra.
Qed.

Lemma min_right_deriv (f : R -> R) r x d : x < r -> is_derive f x d -> (forall z, x <= z <= r -> f x <= f z) -> 0 <= d.
Proof.
  intros Hr D H.
  assert (D' : is_derive (fun z => f (- z)) (- x) (- d)).
  { auto_derive; [exists d; rewrite Ropp_involutive; exact D|].
    rewrite Ropp_involutive. replace (Derive (fun x0 : R => f x0) x) with d; [ring|symmetry; exact (is_derive_unique f x d D)]. }
  enough (- d <= 0) by lra.
  apply (min_left_deriv (fun z => f (- z)) (- r) (- x)); [lra|exact D'|].
  intros z Hz. rewrite Ropp_involutive. apply H. lra.
Qed.

Lemma min_second (f f' : R -> R) l r x d2 : l < x < r -> (forall z, l < z < r -> is_derive f z (f' z)) ->
  is_derive f' x d2 -> (forall z, l <= z <= r -> f x <= f z) -> 0 <= d2.
Proof.
  intros Hx D1 D2 H.
  assert (F0 : f' x = 0).
  { apply Rle_antisym.
    - apply (min_left_deriv f l x); [lra|apply D1; lra|intros; apply H; lra].
    - apply (min_right_deriv f r x); [lra|apply D1; lra|intros; apply H; lra]. }
  destruct (Rle_lt_dec 0 d2) as [|Hd]; [assumption|exfalso].
  apply is_derive_Reals in D2. destruct (D2 (- d2) ltac:(lra)) as (dl & HD).
  pose (h := Rmin dl (r - x) / 2).
  assert (Hm : 0 < Rmin dl (r - x)) by (apply Rmin_pos; [apply cond_pos|lra]).
  pose proof (Rmin_l dl (r - x)). pose proof (Rmin_r dl (r - x)).
  assert (Hh : 0 < h) by (unfold h; lra).
  destruct (MVT_cor2 f f' x (x + h) ltac:(lra)) as (c & E & Hc).
  { intros z Hz. apply is_derive_Reals, D1. unfold h in Hz. lra. }
  specialize (HD (c - x) ltac:(lra) ltac:(rewrite Rabs_pos_eq by lra; unfold h in Hc; lra)).
  replace (x + (c - x)) with c in HD by ring. apply Rabs_def2 in HD. destruct HD as (HD & _).
  rewrite F0 in HD.
  assert (f' c < 0).
  { replace (f' c) with ((f' c - 0) / (c - x) * (c - x)) by (field; lra).
    rewrite <- (Rmult_0_l (c - x)). apply Rmult_lt_compat_r; lra. }
  pose proof (H (x + h) ltac:(unfold h; lra)) as G.
  assert (f' c * (x + h - x) < 0).
  { rewrite <- (Rmult_0_l (x + h - x)). apply Rmult_lt_compat_r; lra. }
  lra.
Qed.

(** ** Solutions of the heat equation u_t = u_yy / 2 on t > 0 *)
Definition heat (u : R -> R -> R) : Prop := exists uy uyy : R -> R -> R, forall t y, 0 < t ->
  continuity_2d_pt u t y /\ is_derive (fun y => u t y) y (uy t y) /\
  is_derive (fun y => uy t y) y (uyy t y) /\ is_derive (fun t => u t y) t (uyy t y / 2).

(** weak minimum principle *)
Lemma heat_min u l r t0 t1 eps : heat u -> 0 < t0 <= t1 -> l <= r ->
  (forall t, t0 <= t <= t1 -> - eps <= u t l /\ - eps <= u t r) ->
  (forall y, l <= y <= r -> - eps <= u t0 y) ->
  forall t y, t0 <= t <= t1 -> l <= y <= r -> - eps <= u t y.
Proof.
  intros (uy & uyy & Hu) Ht Hlr Hb Hi.
  assert (G : forall dl, 0 < dl -> forall t y, t0 <= t <= t1 -> l <= y <= r -> - eps <= u t y + dl * (t - t0)).
  { intros dl Hdl.
    pose (v := fun t y => u t y + dl * (t - t0)).
    assert (Cv : forall t y, 0 < t -> continuity_2d_pt v t y).
    { intros t y P. unfold v. apply continuity_2d_pt_plus; [apply Hu, P|].
      apply continuity_2d_pt_mult; [apply continuity_2d_pt_const|].
      apply continuity_2d_pt_minus; [apply continuity_2d_pt_id1|apply continuity_2d_pt_const]. }
    destruct (min2d v t0 t1 l r (t0 / 2) ltac:(lra) (proj2 Ht) Hlr) as (s & x & Hs & Hx & Hmin).
    { intros t y P _. apply Cv. lra. }
    assert (V : - eps <= v s x).
    { destruct (Hu s x ltac:(lra)) as (_ & _ & D2 & D3).
      destruct (Req_dec x l) as [->|]; [unfold v; pose proof (proj1 (Hb s Hs)); nra|].
      destruct (Req_dec x r) as [->|]; [unfold v; pose proof (proj2 (Hb s Hs)); nra|].
      destruct (Req_dec s t0) as [->|]; [unfold v; pose proof (Hi x Hx); nra|].
      exfalso.
      assert (0 <= uyy s x).
      { apply (min_second (fun y => u s y) (fun y => uy s y) l r x); [lra| |exact D2|].
        - intros z Hz. apply Hu. lra.
        - intros z Hz. specialize (Hmin s z Hs Hz). unfold v in Hmin. lra. }
      assert (uyy s x / 2 + dl <= 0); [|lra].
      apply (min_left_deriv (fun t => v t x) t0 s); [lra| |].
      - unfold v. apply (is_derive_plus (fun t => u t x) (fun t => dl * (t - t0))); [exact D3|].
        auto_derive; [exact I|ring].
      - intros z Hz. apply Hmin; lra. }
    intros t y Pt Py. eapply Rle_trans; [exact V|]. apply (Hmin t y Pt Py). }
  intros t y Pt Py. apply Rnot_lt_le. intro C.
  pose (g := - eps - u t y). assert (0 < g) by (unfold g; lra).
  pose proof (G (g / (2 * (t - t0 + 1))) ltac:(apply Rdiv_lt_0_compat; lra) t y Pt Py) as Q.
  assert (g / (2 * (t - t0 + 1)) * (t - t0) <= g / 2).
  { replace (g / 2) with (g / (2 * (t - t0 + 1)) * (t - t0 + 1)) by (field; lra).
    apply Rmult_le_compat_l; [apply Rlt_le, Rdiv_lt_0_compat; lra|lra]. }
  unfold g in *. lra.
Qed.

(** started from data that are asymptotically nonnegative at time 0 *)
Lemma heat_nonneg u l r : heat u -> l <= r ->
  (forall t, 0 < t -> 0 <= u t l /\ 0 <= u t r) ->
  (forall eps, 0 < eps -> exists d, 0 < d /\ forall t y, 0 < t < d -> l <= y <= r -> - eps <= u t y) ->
  forall t y, 0 < t -> l <= y <= r -> 0 <= u t y.
Proof.
  intros Hu Hlr Hb Hi t y Ht Hy. apply Rnot_lt_le. intro C.
  pose (eps := - u t y / 2). assert (He : 0 < eps) by (unfold eps; lra).
  destruct (Hi eps He) as (d & Hd & HI).
  pose (t0 := Rmin (d / 2) t).
  assert (0 < t0) by (apply Rmin_pos; lra).
  assert (t0 <= d / 2) by apply Rmin_l. assert (t0 <= t) by apply Rmin_r.
  assert (- eps <= u t y); [|unfold eps in *; lra].
  apply (heat_min u l r t0 t eps Hu); auto; try lra.
  - intros s Hs. destruct (Hb s ltac:(lra)). lra.
  - intros z Hz. apply HI; lra.
Qed.

(** ** Building solutions *)
Lemma heat_plus u v : heat u -> heat v -> heat (fun t y => u t y + v t y).
Proof.
  intros (uy & uyy & Hu) (vy & vyy & Hv).
  exists (fun t y => uy t y + vy t y), (fun t y => uyy t y + vyy t y).
  intros t y P. destruct (Hu t y P) as (U1 & U2 & U3 & U4), (Hv t y P) as (V1 & V2 & V3 & V4).
  split; [apply continuity_2d_pt_plus; assumption|].
  split; [exact (is_derive_plus (fun y => u t y) (fun y => v t y) y _ _ U2 V2)|].
  split; [exact (is_derive_plus (fun y => uy t y) (fun y => vy t y) y _ _ U3 V3)|].
  evar_last. exact (is_derive_plus (fun t => u t y) (fun t => v t y) t _ _ U4 V4).
  unfold plus; simpl. field.
Qed.

Lemma heat_scal c u : heat u -> heat (fun t y => c * u t y).
Proof.
  intros (uy & uyy & Hu). exists (fun t y => c * uy t y), (fun t y => c * uyy t y).
  intros t y P. destruct (Hu t y P) as (U1 & U2 & U3 & U4).
  split; [apply continuity_2d_pt_mult; [apply continuity_2d_pt_const|exact U1]|].
  split; [exact (is_derive_scal (fun y => u t y) y c _ U2)|].
  split; [exact (is_derive_scal (fun y => uy t y) y c _ U3)|].
  evar_last. exact (is_derive_scal (fun t => u t y) t c _ U4). unfold Rdiv; ring.
Qed.

Lemma heat_ext u v : (forall t y, u t y = v t y) -> heat u -> heat v.
Proof.
  intros E (uy & uyy & Hu). exists uy, uyy. intros t y P. destruct (Hu t y P) as (U1 & U2 & U3 & U4).
  split; [exact (continuity_2d_pt_ext u v t y E U1)|].
  split; [exact (is_derive_ext _ _ y _ (fun z => E t z) U2)|]. split; [exact U3|].
  exact (is_derive_ext _ _ t _ (fun z => E z y) U4).
Qed.

Lemma heat_minus u v : heat u -> heat v -> heat (fun t y => u t y - v t y).
Proof.
  intros Hu Hv. eapply heat_ext; [|exact (heat_plus u _ Hu (heat_scal (-1) v Hv))].
  intros; simpl; ring.
Qed.

(** the Gaussian kernel and its derivative in space *)
Definition gk (t z : R) : R := exp (- (z ^ 2 / (2 * t))) / sqrt t.
Definition hk (t z : R) : R := z / t * gk t z.

Lemma gk_pos t z : 0 < t -> 0 < gk t z.
Proof. intro. unfold gk. apply Rdiv_lt_0_compat; [apply exp_pos|apply sqrt_lt_R0; assumption]. Qed.
Lemma gk_even t z : gk t (- z) = gk t z.
Proof. unfold gk. now replace ((- z) ^ 2) with (z ^ 2) by ring. Qed.
Lemma hk_odd t z : hk t (- z) = - hk t z.
Proof. unfold hk. rewrite gk_even. unfold Rdiv; ring. Qed.

Lemma cont_inv t y : 0 < t -> continuity_2d_pt (fun t _ => / t) t y.
Proof.
  intro P. apply continuity_1d_2d_pt_comp; [|apply continuity_2d_pt_id1].
  apply continuity_pt_inv; [apply continuity_pt_id|lra].
Qed.
Lemma gk_cont s t y : 0 < t -> continuity_2d_pt (fun t y => gk t (y + s)) t y.
Proof.
  intro P. unfold gk, Rdiv. apply continuity_2d_pt_mult.
  - apply (continuity_1d_2d_pt_comp exp); [apply derivable_continuous_pt, derivable_pt_exp|].
    apply (continuity_1d_2d_pt_comp Ropp); [apply continuity_pt_opp, continuity_pt_id|].
    apply (continuity_2d_pt_mult (fun _ y => (y + s) ^ 2) (fun t _ => / (2 * t))).
    + apply (continuity_1d_2d_pt_comp (fun z => (z + s) ^ 2)); [|apply continuity_2d_pt_id2].
      apply derivable_continuous_pt. apply ex_derive_Reals_0. auto_derive; exact I.
    + apply (continuity_1d_2d_pt_comp (fun z => / (2 * z))); [|apply continuity_2d_pt_id1].
      apply derivable_continuous_pt. apply ex_derive_Reals_0. auto_derive; lra.
  - apply (continuity_1d_2d_pt_comp (fun z => / sqrt z)); [|apply continuity_2d_pt_id1].
    apply derivable_continuous_pt. apply ex_derive_Reals_0. pose proof (sqrt_lt_R0 t P). auto_derive. lra.
Qed.

Lemma heat_gk s : heat (fun t y => gk t (y + s)).
Proof.
  exists (fun t y => - ((y + s) / t) * gk t (y + s)),
         (fun t y => ((y + s) ^ 2 / t ^ 2 - / t) * gk t (y + s)).
  intros t y P. pose proof (sqrt_lt_R0 t P) as Q. pose proof (sqrt_sqrt t ltac:(lra)) as QQ.
  split; [apply gk_cont, P|]. unfold gk.
  split; [|split].
  - auto_derive; [lra|]. change ((y + s) * ((y + s) * 1)) with ((y + s) ^ 2).
    set (E := exp (- ((y + s) ^ 2 / (2 * t)))). change (exp _) with E. field. lra.
  - auto_derive; [lra|]. change ((y + s) * ((y + s) * 1)) with ((y + s) ^ 2).
    set (E := exp (- ((y + s) ^ 2 / (2 * t)))). change (exp _) with E. field. lra.
  - auto_derive; [repeat split; lra|]. change ((y + s) * ((y + s) * 1)) with ((y + s) ^ 2).
    set (E := exp (- ((y + s) ^ 2 / (2 * t)))). change (exp _) with E.
    set (q := sqrt t) in *. rewrite <- QQ. field. lra.
Qed.

Lemma heat_hk s : heat (fun t y => hk t (y + s)).
Proof.
  exists (fun t y => (/ t - (y + s) ^ 2 / t ^ 2) * gk t (y + s)),
         (fun t y => (- 3 * (y + s) / t ^ 2 + (y + s) ^ 3 / t ^ 3) * gk t (y + s)).
  intros t y P. pose proof (sqrt_lt_R0 t P) as Q. pose proof (sqrt_sqrt t ltac:(lra)) as QQ.
  split.
  { unfold hk. apply continuity_2d_pt_mult; [|apply gk_cont, P]. unfold Rdiv. apply continuity_2d_pt_mult.
    - apply continuity_2d_pt_plus; [apply continuity_2d_pt_id2|apply continuity_2d_pt_const].
    - apply cont_inv, P. }
  unfold hk, gk.
  split; [|split].
  - auto_derive; [lra|]. change ((y + s) * ((y + s) * 1)) with ((y + s) ^ 2).
    set (E := exp (- ((y + s) ^ 2 / (2 * t)))). change (exp _) with E. field. lra.
  - auto_derive; [lra|]. change ((y + s) * ((y + s) * 1)) with ((y + s) ^ 2).
    set (E := exp (- ((y + s) ^ 2 / (2 * t)))). change (exp _) with E. field. lra.
  - auto_derive; [repeat split; lra|]. change ((y + s) * ((y + s) * 1)) with ((y + s) ^ 2).
    set (E := exp (- ((y + s) ^ 2 / (2 * t)))). change (exp _) with E.
    set (q := sqrt t) in *. rewrite <- QQ. field. lra.
Qed.
