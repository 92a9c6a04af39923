(** Sums of image kernels on an interval are nonnegative, and bounded away from 0. *)
From Coq Require Import Reals Lra Lia List.
From Coquelicot Require Import Coquelicot.
From Verif Require Import L_heat.
Local Open Scope R_scope.

(** ** Small-time estimates *)
Lemma exp_neg_inv s : 0 < s -> exp (- s) <= / s.
Proof.
  intro P. rewrite exp_Ropp. apply Rinv_le_contravar; [exact P|].
  pose proof (exp_ineq1 s ltac:(lra)). lra.
Qed.
Lemma exp_neg_inv2 s : 0 < s -> exp (- s) <= 4 / s ^ 2.
Proof.
  intro P. replace (- s) with (- (s / 2) + - (s / 2)) by field. rewrite exp_plus.
  pose proof (exp_neg_inv (s / 2) ltac:(lra)) as E. pose proof (exp_pos (- (s / 2))).
  replace (4 / s ^ 2) with (/ (s / 2) * / (s / 2)) by (field; lra).
  apply Rmult_le_compat; lra.
Qed.

Lemma gk_mono t m z : 0 < t -> 0 <= m -> m <= Rabs z -> gk t z <= gk t m.
Proof.
  intros P M Z. unfold gk. apply Rmult_le_compat_r; [apply Rlt_le, Rinv_0_lt_compat, sqrt_lt_R0, P|].
  destruct (Rle_lt_or_eq_dec (m ^ 2) (z ^ 2)) as [L|L].
  - rewrite <- (Rsqr_pow2 m), <- (Rsqr_pow2 z). apply Rsqr_le_abs_1. rewrite (Rabs_pos_eq m M). exact Z.
  - apply Rlt_le, exp_increasing. apply Ropp_lt_contravar. apply Rmult_lt_compat_r; [apply Rinv_0_lt_compat; lra|exact L].
  - rewrite L. lra.
Qed.

Lemma gk_small t m : 0 < t -> 0 < m -> gk t m <= 2 / m ^ 2 * sqrt t.
Proof.
  intros P M. unfold gk. pose proof (sqrt_lt_R0 t P) as Q. pose proof (sqrt_sqrt t ltac:(lra)) as QQ.
  assert (S : 0 < m ^ 2 / (2 * t)). { apply Rdiv_lt_0_compat; [apply pow_lt; exact M|lra]. }
  pose proof (exp_neg_inv _ S) as E.
  apply (Rmult_le_compat_r (/ sqrt t)) in E; [|apply Rlt_le, Rinv_0_lt_compat, Q].
  eapply Rle_trans; [exact E|]. right.
  replace (/ (m ^ 2 / (2 * t))) with (2 / m ^ 2 * t) by (field; split; lra).
  rewrite <- QQ at 1. field. split; lra.
Qed.

(** ** Images with the even kernel *)
Fixpoint img (N : nat) (t x L y : R) : R :=
  match N with
  | O => gk t (y + - x) - gk t (y + x)
  | S n => img n t x L y
      + (gk t (y + (- x + 2 * INR (S n) * L)) + gk t (y + (- x - 2 * INR (S n) * L))
         - gk t (y + (x + 2 * INR (S n) * L)) - gk t (y + (x - 2 * INR (S n) * L)))
  end.

Lemma img_heat N x L : heat (fun t y => img N t x L y).
Proof.
  induction N as [|n IH]; cbn [img].
  - apply heat_minus; apply heat_gk.
  - apply heat_plus; [exact IH|].
    apply (heat_minus (fun t y => gk t (y + (- x + 2 * INR (S n) * L)) + gk t (y + (- x - 2 * INR (S n) * L))
         - gk t (y + (x + 2 * INR (S n) * L)))); [|apply heat_gk].
    apply (heat_minus (fun t y => gk t (y + (- x + 2 * INR (S n) * L)) + gk t (y + (- x - 2 * INR (S n) * L))));
      [|apply heat_gk].
    apply heat_plus; apply heat_gk.
Qed.

Lemma img_at_0 N t x L : img N t x L 0 = 0.
Proof.
  induction N as [|n IH]; cbn [img].
  - rewrite <- (gk_even t (0 + x)). replace (- (0 + x)) with (0 + - x) by ring. ring.
  - rewrite IH. rewrite <- (gk_even t (0 + (- x + _))), <- (gk_even t (0 + (- x - _))).
    set (c := 2 * INR (S n) * L).
    replace (- (0 + (- x + c))) with (0 + (x - c)) by ring.
    replace (- (0 + (- x - c))) with (0 + (x + c)) by ring. ring.
Qed.

Lemma img_at_L N t x L : img N t x L L = gk t ((2 * INR N + 1) * L - x) - gk t ((2 * INR N + 1) * L + x).
Proof.
  induction N as [|n IH]; cbn [img].
  - simpl INR. f_equal; f_equal; ring.
  - rewrite IH. rewrite <- (gk_even t (L + (- x - _))), <- (gk_even t (L + (x - _))).
    rewrite S_INR.
    replace (L + (- x + 2 * (INR n + 1) * L)) with ((2 * (INR n + 1) + 1) * L - x) by ring.
    replace (L + (x + 2 * (INR n + 1) * L)) with ((2 * (INR n + 1) + 1) * L + x) by ring.
    replace (- (L + (- x - 2 * (INR n + 1) * L))) with ((2 * INR n + 1) * L + x) by ring.
    replace (- (L + (x - 2 * (INR n + 1) * L))) with ((2 * INR n + 1) * L - x) by ring. ring.
Qed.

Lemma img_low N t x L y m : 0 < t -> 0 <= m -> m <= x -> m <= L - x -> 0 <= y <= L ->
  - ((2 * INR N + 1) * gk t m) <= img N t x L y.
Proof.
  intros P M Mx ML Y. induction N as [|n IH]; cbn [img].
  - simpl INR. pose proof (gk_pos t (y + - x) P).
    assert (gk t (y + x) <= gk t m) by (apply gk_mono; [exact P|exact M|rewrite Rabs_pos_eq; lra]). lra.
  - set (c := 2 * INR (S n) * L).
    assert (C : 2 * L <= c).
    { unfold c. rewrite S_INR. pose proof (pos_INR n). nra. }
    rewrite S_INR.
    pose proof (gk_pos t (y + (- x + c)) P). pose proof (gk_pos t (y + (- x - c)) P).
    assert (gk t (y + (x + c)) <= gk t m) by (apply gk_mono; [exact P|exact M|rewrite Rabs_pos_eq; lra]).
    assert (gk t (y + (x - c)) <= gk t m).
    { apply gk_mono; [exact P|exact M|]. rewrite Rabs_left1; lra. }
    lra.
Qed.

Lemma small_time (c : R) : 0 < c -> forall eps, 0 < eps -> exists d, 0 < d /\ forall t, 0 < t < d -> c * sqrt t < eps.
Proof.
  intros C eps He. exists ((eps / c) ^ 2). pose proof (Rdiv_lt_0_compat _ _ He C) as Q.
  split; [apply pow_lt, Q|]. intros t (T1 & T2).
  assert (S : sqrt t < eps / c).
  { rewrite <- (sqrt_pow2 (eps / c)) by lra. apply sqrt_lt_1; [lra|apply pow2_ge_0|exact T2]. }
  apply (Rmult_lt_compat_l c) in S; [|exact C]. replace (c * (eps / c)) with eps in S by (field; lra). exact S.
Qed.

Lemma img_nonneg N t x L y : 0 < t -> 0 < x < L -> 0 <= y <= L -> 0 <= img N t x L y.
Proof.
  intros P X Y. apply (heat_nonneg (fun t y => img N t x L y) 0 L (img_heat N x L)); [lra| | |exact P|exact Y].
  - intros s Hs. rewrite img_at_0. split; [lra|]. rewrite img_at_L.
    pose proof (pos_INR N).
    assert (0 <= (2 * INR N + 1) * L - x) by nra.
    enough (gk s ((2 * INR N + 1) * L + x) <= gk s ((2 * INR N + 1) * L - x)) by lra.
    apply gk_mono; [exact Hs|lra|rewrite Rabs_pos_eq; lra].
  - intros eps He. pose (m := Rmin x (L - x)).
    assert (M : 0 < m) by (apply Rmin_pos; lra).
    assert (Mx : m <= x) by apply Rmin_l. assert (ML : m <= L - x) by apply Rmin_r.
    pose proof (pos_INR N) as HN.
    pose proof (pow_lt m 2 M) as M2.
    destruct (small_time ((2 * INR N + 1) * (2 / m ^ 2))
                ltac:(apply Rmult_lt_0_compat; [lra|apply Rdiv_lt_0_compat; lra]) eps He) as (d & Hd & HT).
    exists d. split; [exact Hd|]. intros s z Hs Hz.
    eapply Rle_trans; [|apply (img_low N s x L z m); lra].
    pose proof (gk_small s m ltac:(lra) M) as G. specialize (HT s Hs).
    assert ((2 * INR N + 1) * gk s m <= (2 * INR N + 1) * (2 / m ^ 2) * sqrt s).
    { rewrite Rmult_assoc. apply Rmult_le_compat_l; lra. }
    lra.
Qed.

(** ** Images with the odd kernel *)
Fixpoint himg (N : nat) (t L y : R) : R :=
  match N with
  | O => hk t (y + 0)
  | S n => himg n t L y + (hk t (y + 2 * INR (S n) * L) + hk t (y + - (2 * INR (S n) * L)))
  end.
Lemma himg_heat N L : heat (fun t y => himg N t L y).
Proof.
  induction N as [|n IH]; cbn [himg]; [apply heat_hk|].
  apply heat_plus; [exact IH|apply heat_plus; apply heat_hk].
Qed.
Lemma himg_at_0 N t L : himg N t L 0 = 0.
Proof.
  induction N as [|n IH]; cbn [himg].
  - unfold hk. rewrite Rplus_0_r. unfold Rdiv. ring.
  - rewrite IH, !Rplus_0_l, hk_odd. ring.
Qed.
Lemma himg_at_L N t L : himg N t L L = hk t ((2 * INR N + 1) * L).
Proof.
  induction N as [|n IH]; cbn [himg].
  - simpl INR. f_equal; ring.
  - rewrite IH, S_INR.
    replace (L + - (2 * (INR n + 1) * L)) with (- ((2 * INR n + 1) * L)) by ring. rewrite hk_odd.
    replace (L + 2 * (INR n + 1) * L) with ((2 * (INR n + 1) + 1) * L) by ring. ring.
Qed.
Lemma hk_nonneg t z : 0 < t -> 0 <= z -> 0 <= hk t z.
Proof.
  intros P Z. unfold hk. apply Rmult_le_pos; [|apply Rlt_le, gk_pos, P].
  apply Rmult_le_pos; [exact Z|apply Rlt_le, Rinv_0_lt_compat, P].
Qed.
(** a bound for z in [L, M] *)
Lemma hk_small t z L M : 0 < t -> 0 < L -> L <= z <= M -> hk t z <= M * (16 / L ^ 4) * sqrt t.
Proof.
  intros P HL HZ. unfold hk.
  assert (gk t z <= gk t L) by (apply gk_mono; [exact P|lra|rewrite Rabs_pos_eq; lra]).
  pose proof (sqrt_lt_R0 t P) as Q. pose proof (sqrt_sqrt t ltac:(lra)) as QQ.
  assert (S : 0 < L ^ 2 / (2 * t)). { apply Rdiv_lt_0_compat; [apply pow_lt; exact HL|lra]. }
  assert (E : gk t L <= 16 / L ^ 4 * t * sqrt t).
  { unfold gk. pose proof (exp_neg_inv2 _ S) as E.
    apply (Rmult_le_compat_r (/ sqrt t)) in E; [|apply Rlt_le, Rinv_0_lt_compat, Q].
    eapply Rle_trans; [exact E|]. right.
    replace (4 / (L ^ 2 / (2 * t)) ^ 2) with (16 / L ^ 4 * t * t) by (field; split; lra).
    rewrite <- QQ at 2. field. split; lra. }
  pose proof (gk_pos t z P). pose proof (Rinv_0_lt_compat t P) as I.
  assert (A : z / t * gk t z <= M / t * (16 / L ^ 4 * t * sqrt t)).
  { apply Rmult_le_compat; try lra.
    - apply Rmult_le_pos; lra.
    - apply Rmult_le_compat_r; lra. }
  eapply Rle_trans; [exact A|]. right. field. split; lra.
Qed.
Lemma himg_low N t L y : 0 < t -> 0 < L -> 0 <= y <= L ->
  - (INR N * ((2 * INR N * L) * (16 / L ^ 4) * sqrt t)) <= himg N t L y.
Proof.
  intros P HL Y. pose proof (sqrt_lt_R0 t P) as Q.
  assert (H4 : 0 < 16 / L ^ 4) by (apply Rdiv_lt_0_compat; [lra|apply pow_lt, HL]).
  enough (G : forall M, (M <= N)%nat -> - (INR M * ((2 * INR N * L) * (16 / L ^ 4) * sqrt t)) <= himg M t L y)
    by (apply G; lia).
  induction M as [|n IH]; intro HM; cbn [himg].
  - simpl INR. rewrite Rplus_0_r. pose proof (hk_nonneg t y P ltac:(lra)). lra.
  - specialize (IH ltac:(lia)). pose proof (pos_INR n).
    set (c := 2 * INR (S n) * L).
    assert (C : 2 * L <= c) by (unfold c; rewrite S_INR; nra).
    pose proof (hk_nonneg t (y + c) P ltac:(lra)).
    replace (y + - c) with (- (c - y)) by ring. rewrite hk_odd.
    assert (C2 : c <= 2 * INR N * L).
    { unfold c. pose proof (le_INR _ _ HM). nra. }
    pose proof (hk_small t (c - y) L (2 * INR N * L) P HL ltac:(lra)).
    replace (INR (S n)) with (INR n + 1) by (rewrite S_INR; ring). lra.
Qed.
Lemma himg_nonneg N t L y : 0 < t -> 0 < L -> 0 <= y <= L -> 0 <= himg N t L y.
Proof.
  intros P HL Y. apply (heat_nonneg (fun t y => himg N t L y) 0 L (himg_heat N L)); [lra| | |exact P|exact Y].
  - intros s Hs. rewrite himg_at_0, himg_at_L. split; [lra|]. apply hk_nonneg; [exact Hs|].
    pose proof (pos_INR N). nra.
  - intros eps He. pose proof (pos_INR N) as HN.
    assert (H4 : 0 < 16 / L ^ 4) by (apply Rdiv_lt_0_compat; [lra|apply pow_lt, HL]).
    destruct (small_time (INR N * (2 * INR N * L * (16 / L ^ 4)) + 1) ltac:(
       apply Rplus_le_lt_0_compat; [|lra]; repeat (apply Rmult_le_pos; try lra)) eps He) as (d & Hd & HT).
    exists d. split; [exact Hd|]. intros s z Hs Hz.
    eapply Rle_trans; [|apply (himg_low N s L z); lra].
    specialize (HT s Hs). pose proof (sqrt_lt_R0 s ltac:(lra)). 
    rewrite Rmult_plus_distr_r in HT. lra.
Qed.

(** ** Positive lower bounds *)
Definition sine (c w l t0 t y : R) : R := c * (exp (- (w ^ 2 / 2 * (t - t0))) * sin (w * (y - l))).
Lemma sine_heat c w l t0 : heat (sine c w l t0).
Proof.
  unfold sine. apply (heat_scal c (fun t y => exp (- (w ^ 2 / 2 * (t - t0))) * sin (w * (y - l)))).
  exists (fun t y => exp (- (w ^ 2 / 2 * (t - t0))) * (w * cos (w * (y - l)))),
         (fun t y => exp (- (w ^ 2 / 2 * (t - t0))) * (- (w ^ 2) * sin (w * (y - l)))).
  intros t y _. split.
  { apply continuity_2d_pt_mult.
    - apply (continuity_1d_2d_pt_comp (fun z => exp (- (w ^ 2 / 2 * (z - t0))))); [|apply continuity_2d_pt_id1].
      apply derivable_continuous_pt, ex_derive_Reals_0. auto_derive; exact I.
    - apply (continuity_1d_2d_pt_comp (fun z => sin (w * (z - l)))); [|apply continuity_2d_pt_id2].
      apply derivable_continuous_pt, ex_derive_Reals_0. auto_derive; exact I. }
  split; [|split]; (auto_derive; [exact I|]); try change (w * (w * 1)) with (w ^ 2);
    set (E := exp (- (w ^ 2 / 2 * (t - t0)))); try change (exp _) with E; try change (y + - l) with (y - l); field.
Qed.

Lemma heat_lower u l r t0 c : heat u -> 0 < t0 -> l < r -> 0 <= c ->
  (forall t, t0 <= t -> 0 <= u t l /\ 0 <= u t r) ->
  (forall y, l <= y <= r -> c <= u t0 y) ->
  forall t y, t0 <= t -> l <= y <= r -> sine c (PI / (r - l)) l t0 t y <= u t y.
Proof.
  intros Hu P Hlr Hc Hb Hi t y Ht Hy.
  assert (S0 : forall s, sine c (PI / (r - l)) l t0 s l = 0).
  { intro s. unfold sine. rewrite Rminus_eq_0, Rmult_0_r, sin_0. ring. }
  assert (S1 : forall s, sine c (PI / (r - l)) l t0 s r = 0).
  { intro s. unfold sine. replace (PI / (r - l) * (r - l)) with PI by (field; lra). rewrite sin_PI. ring. }
  assert (S2 : forall z, sine c (PI / (r - l)) l t0 t0 z <= c).
  { intro z. unfold sine. rewrite Rminus_eq_0, Rmult_0_r, Ropp_0, exp_0.
    pose proof (SIN_bound (PI / (r - l) * (z - l))). nra. }
  assert (- 0 <= u t y - sine c (PI / (r - l)) l t0 t y); [|lra].
  apply (heat_min (fun t y => u t y - sine c (PI / (r - l)) l t0 t y) l r t0 t 0);
    [apply heat_minus; [exact Hu|apply sine_heat]|lra|lra| | |lra|exact Hy].
  - intros s Hs. rewrite S0, S1. destruct (Hb s ltac:(lra)). lra.
  - intros z Hz. pose proof (S2 z). pose proof (Hi z Hz). lra.
Qed.

Lemma sine_pos c w l t0 t y : 0 < c -> 0 < w * (y - l) < PI -> 0 < sine c w l t0 t y.
Proof.
  intros C W. unfold sine. apply Rmult_lt_0_compat; [exact C|].
  apply Rmult_lt_0_compat; [apply exp_pos|apply sin_gt_0; lra].
Qed.
