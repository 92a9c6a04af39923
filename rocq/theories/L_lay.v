(** Escape probabilities of nested intervals. *)
From Coq Require Import Reals List Bool Arith Lia Lra.
From Coquelicot Require Import Hierarchy.
From Verif Require Import Base Np Rng L_rng M_hit SpecHit SpecLay L_hit2 L_hit3 L_hit8 L_heat L_heat2 L_heat3 L_heat4 L_heat5 L_heat6.
Local Open Scope R_scope.

Lemma brown_nested t a b l u l' u' p q : 0 < t -> l < a < u -> l < b < u -> l' <= l -> u <= u' ->
  brown_escape t (a - (l + u) / 2) (b - (l + u) / 2) ((u - l) / 2) p -> brown_escape t (a - (l' + u') / 2) (b - (l' + u') / 2) ((u' - l') / 2) q -> q <= p.
Proof.
  intros P Ha Hb HL HU Ep Eq. apply Rnot_lt_le. intro C.
  assert (S1 : Rabs (a - (l + u) / 2) < (u - l) / 2) by (apply inside_abs; lra). assert (S2 : Rabs (b - (l + u) / 2) < (u - l) / 2) by (apply inside_abs; lra).
  assert (S3 : Rabs (a - (l' + u') / 2) < (u' - l') / 2) by (apply inside_abs; lra). assert (S4 : Rabs (b - (l' + u') / 2) < (u' - l') / 2) by (apply inside_abs; lra).
  pose proof (gk_pos t (b - a) P) as Gp. set (g := gk t (b - a)) in *. set (eps := g * (q - p) / 3). assert (He : 0 < eps) by (unfold eps; nra).
  destruct (img_cv t _ _ _ p P S1 S2 Ep eps He) as (n1 & H1). destruct (img_cv t _ _ _ q P S3 S4 Eq eps He) as (n2 & H2). pose proof (sqrt_lt_R0 t P) as Q.
  set (K := u - l). set (x := a - l). assert (Hx : 0 < x < K) by (unfold x, K; lra).
  set (c := 2 / (K - x) ^ 2 * sqrt t). assert (Hc : 0 < c) by (unfold c; apply Rmult_lt_0_compat; [apply Rdiv_lt_0_compat; [lra|apply pow_lt; lra]|exact Q]).
  destruct (vanish_inv c ltac:(lra) eps He) as (n3 & H3). set (n := (n1 + n2 + n3)%nat).
  specialize (H1 n ltac:(unfold n; lia)). specialize (H2 n ltac:(unfold n; lia)). specialize (H3 n ltac:(unfold n; lia)).
  replace (a - (l + u) / 2 + (u - l) / 2) with x in H1 by (unfold x; field). replace (b - (l + u) / 2 + (u - l) / 2) with (b - l) in H1 by field.
  replace (2 * ((u - l) / 2)) with K in H1 by (unfold K; field). replace (b - (l + u) / 2 - (a - (l + u) / 2)) with (b - a) in H1 by ring.
  replace (a - (l' + u') / 2 + (u' - l') / 2) with (x + (l - l')) in H2 by (unfold x; field). replace (b - (l' + u') / 2 + (u' - l') / 2) with (b - l + (l - l')) in H2 by field.
  replace (2 * ((u' - l') / 2)) with (u' - l') in H2 by field. replace (b - (l' + u') / 2 - (a - (l' + u') / 2)) with (b - a) in H2 by ring.
  pose proof (img_nested n n t x K (b - l) (u' - l') (l - l') P Hx ltac:(unfold K; lra) ltac:(lra) ltac:(unfold K; lra)) as I.
  assert (I2 : 2 / ((2 * INR n + 1) * K - x) ^ 2 * sqrt t <= c / (2 * INR n + 1)).
  { pose proof (pos_INR n). set (k := 2 * INR n + 1). assert (Hk : 1 <= k) by (unfold k; lra).
    unfold c. replace (2 / (K - x) ^ 2 * sqrt t / k) with (/ ((K - x) ^ 2 * k) * (2 * sqrt t)) by (field; split; lra).
    set (z := k * K - x). assert (Z : (K - x) * k <= z) by (unfold z; nra). assert (Z0 : 0 < z) by (unfold z; nra).
    replace (2 / z ^ 2 * sqrt t) with (/ z ^ 2 * (2 * sqrt t)) by (field; lra). apply Rmult_le_compat_r; [lra|].
    apply Rinv_le_contravar; [apply Rmult_lt_0_compat; [apply pow_lt; lra|lra]|]. assert (0 <= (K - x) * k) by nra.
    assert (((K - x) * k) * ((K - x) * k) <= z * z) by (apply Rmult_le_compat; lra). assert (0 < (K - x) ^ 2) by (apply pow_lt; lra). nra. }
  apply Rabs_def2 in H1. apply Rabs_def2 in H2. fold g in H1, H2. unfold eps in *. lra.
Qed.
(** leaving an interval is at least as likely as leaving the half line on either side *)
Lemma brown_ge_lower t a b l u p : 0 < t -> l < a < u -> l < b < u ->
  brown_escape t (a - (l + u) / 2) (b - (l + u) / 2) ((u - l) / 2) p -> exp (- (2 * (a - l) * (b - l) / t)) <= p.
Proof.
  intros P Ha Hb E. set (e := exp _). assert (D : e < 1).
  { unfold e. rewrite <- exp_0. apply exp_increasing. assert (0 < 2 * (a - l) * (b - l) / t) by (apply Rdiv_lt_0_compat; [nra|exact P]). lra. }
  assert (B : bessel_escape t (a - l) (b - l) (u - l) (1 - (1 - p) / (1 - e))).
  { split; [intros; lra|]. intros _. exists p. split; [|fold e; field; lra].
    replace (a - l - (u - l) / 2) with (a - (l + u) / 2) by field. replace (b - l - (u - l) / 2) with (b - (l + u) / 2) by field. exact E. }
  pose proof (bessel_nonneg t (a - l) (b - l) (u - l) _ P ltac:(lra) ltac:(lra) ltac:(lra) ltac:(lra) B) as N.
  assert ((1 - p) / (1 - e) <= 1) by lra. assert (X : (1 - p) / (1 - e) * (1 - e) <= 1 * (1 - e)) by (apply Rmult_le_compat_r; lra).
  replace ((1 - p) / (1 - e) * (1 - e)) with (1 - p) in X by (field; lra). lra.
Qed.
Lemma brown_reflect t a b K p : brown_escape t a b K p -> brown_escape t (- a) (- b) K p.
Proof.
  intros H. unfold brown_escape in *. eapply infinite_sum_ext; [|exact H]. intros n. unfold two_sided_term. set (k := INR (S n)).
  replace ((2 * k - 1) * K - - a) with ((2 * k - 1) * K + a) by ring. replace ((2 * k - 1) * K - - b) with ((2 * k - 1) * K + b) by ring.
  replace ((2 * k - 1) * K + - a) with ((2 * k - 1) * K - a) by ring. replace ((2 * k - 1) * K + - b) with ((2 * k - 1) * K - b) by ring.
  replace (- a - - b) with (- (a - b)) by ring. replace (2 * k * K + - (a - b)) with (2 * k * K - (a - b)) by ring. replace (2 * k * K - - (a - b)) with (2 * k * K + (a - b)) by ring. ring.
Qed.
Lemma brown_ge_upper t a b l u p : 0 < t -> l < a < u -> l < b < u ->
  brown_escape t (a - (l + u) / 2) (b - (l + u) / 2) ((u - l) / 2) p -> exp (- (2 * (a - u) * (b - u) / t)) <= p.
Proof.
  intros P Ha Hb E. apply brown_reflect in E. replace (2 * (a - u) * (b - u) / t) with (2 * (- a - - u) * (- b - - u) / t) by (field; lra).
  apply (brown_ge_lower t (- a) (- b) (- u) (- l) p P); [lra|lra|].
  replace (- a - (- u + - l) / 2) with (- (a - (l + u) / 2)) by field. replace (- b - (- u + - l) / 2) with (- (b - (l + u) / 2)) by field. replace ((- l - - u) / 2) with ((u - l) / 2) by field. exact E.
Qed.
(** the bounds are left no more often than a layer inside them *)
Lemma leaves_le t a b lb ub le ue p q : 0 < t -> elt lb (Fin le) -> elt (Fin ue) ub -> le < a < ue -> le < b < ue ->
  brown_escape t (a - (le + ue) / 2) (b - (le + ue) / 2) ((ue - le) / 2) p -> leaves t a b lb ub q -> q <= p.
Proof.
  intros P HL HU Ha Hb E Q.
  assert (MONO : forall x y x' y', 0 < x <= x' -> 0 < y <= y' -> exp (- (2 * x' * y' / t)) <= exp (- (2 * x * y / t))).
  { intros x y x' y' Hx Hy. apply exp_le. apply Ropp_le_contravar. apply Rmult_le_compat_r; [left; apply Rinv_0_lt_compat; exact P|]. nra. }
  assert (P0 : 0 <= p) by (eapply Rle_trans; [left; apply exp_pos|exact (brown_ge_lower t a b le ue p P Ha Hb E)]).
  destruct lb as [|l|], ub as [|u|]; cbn in HL, HU, Q; try contradiction; subst.
  - eapply Rle_trans; [|exact (brown_ge_upper t a b le ue p P Ha Hb E)].
    replace (2 * (a - u) * (b - u) / t) with (2 * (u - a) * (u - b) / t) by (field; lra). replace (2 * (a - ue) * (b - ue) / t) with (2 * (ue - a) * (ue - b) / t) by (field; lra). apply MONO; lra.
  - exact P0.
  - exact (brown_nested t a b le ue l u p q P Ha Hb ltac:(lra) ltac:(lra) E Q).
  - eapply Rle_trans; [|exact (brown_ge_lower t a b le ue p P Ha Hb E)]. apply MONO; lra.
Qed.
