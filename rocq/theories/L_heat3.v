(** The escape probabilities are below one. *)
From Coq Require Import Reals Lra Lia List Arith.
From Verif Require Import Base Rng M_hit SpecHit L_hit2 L_hit3 L_hit4 L_hit5 L_hit6 L_hit9 L_heat L_heat2.
Local Open Scope R_scope.

Lemma gk_ratio t z z0 : 0 < t -> gk t z = gk t z0 * exp (- ((z ^ 2 - z0 ^ 2) / (2 * t))).
Proof.
  intro P. unfold gk. pose proof (sqrt_lt_R0 t P).
  replace (- (z ^ 2 / (2 * t))) with (- (z0 ^ 2 / (2 * t)) + - ((z ^ 2 - z0 ^ 2) / (2 * t))) by (field; lra).
  rewrite exp_plus. field. lra.
Qed.

(** partial sums of the escape series *)
Fixpoint tsum (t a b K : R) (N : nat) : R :=
  match N with O => 0 | S n => tsum t a b K n + two_sided_term t a b K (S n) end.
Definition textra (t a b K : R) (N : nat) : R :=
  exp (- (2 * ((2 * INR N + 1) * K + a) * ((2 * INR N + 1) * K + b) / t)).

Lemma img_tsum t a b K N : 0 < t ->
  img N t (a + K) (2 * K) (b + K) = gk t (b - a) * (1 - tsum t a b K N - textra t a b K N).
Proof.
  intro P. induction N as [|n IH]; cbn [img tsum].
  - rewrite (gk_ratio t (b + K + - (a + K)) (b - a) P), (gk_ratio t (b + K + (a + K)) (b - a) P).
    unfold textra. simpl INR.
    replace (exp (- (((b + K + - (a + K)) ^ 2 - (b - a) ^ 2) / (2 * t)))) with 1.
    2:{ rewrite <- exp_0. f_equal. field. lra. }
    replace (- (((b + K + (a + K)) ^ 2 - (b - a) ^ 2) / (2 * t)))
      with (- (2 * ((2 * 0 + 1) * K + a) * ((2 * 0 + 1) * K + b) / t)) by (field; lra).
    ring.
  - rewrite IH. unfold two_sided_term, textra. rewrite S_INR. set (k := INR n).
    rewrite (gk_ratio t (b + K + (- (a + K) + 2 * (k + 1) * (2 * K))) (b - a) P),
      (gk_ratio t (b + K + (- (a + K) - 2 * (k + 1) * (2 * K))) (b - a) P),
      (gk_ratio t (b + K + (a + K + 2 * (k + 1) * (2 * K))) (b - a) P),
      (gk_ratio t (b + K + (a + K - 2 * (k + 1) * (2 * K))) (b - a) P).
    replace (- (((b + K + (- (a + K) + 2 * (k + 1) * (2 * K))) ^ 2 - (b - a) ^ 2) / (2 * t)))
      with (- (4 * (k + 1) * K * (2 * (k + 1) * K - (a - b)) / t)) by (field; lra).
    replace (- (((b + K + (- (a + K) - 2 * (k + 1) * (2 * K))) ^ 2 - (b - a) ^ 2) / (2 * t)))
      with (- (4 * (k + 1) * K * (2 * (k + 1) * K + (a - b)) / t)) by (field; lra).
    replace (- (((b + K + (a + K + 2 * (k + 1) * (2 * K))) ^ 2 - (b - a) ^ 2) / (2 * t)))
      with (- (2 * ((2 * (k + 1) + 1) * K + a) * ((2 * (k + 1) + 1) * K + b) / t)) by (field; lra).
    replace (- (((b + K + (a + K - 2 * (k + 1) * (2 * K))) ^ 2 - (b - a) ^ 2) / (2 * t)))
      with (- (2 * ((2 * (k + 1) - 1) * K - a) * ((2 * (k + 1) - 1) * K - b) / t)) by (field; lra).
    replace (2 * ((2 * k + 1) * K + a) * ((2 * k + 1) * K + b))
      with (2 * ((2 * (k + 1) - 1) * K + a) * ((2 * (k + 1) - 1) * K + b)) by ring.
    ring.
Qed.

Lemma tsum_brown t a b K N : 0 < t -> Rabs a < K -> Rabs b < K -> tsum t a b K N = brown_sum t a b K (2 * N).
Proof.
  intros P Ha Hb. induction N as [|n IH]; [reflexivity|]. cbn [tsum].
  replace (2 * S n)%nat with (2 * n + 2)%nat by lia.
  rewrite bs_D, bs_U, IH, (brown_term_eq t a b K P) by auto. ring.
Qed.

Lemma cv_le_bound (s : nat -> R) p c : Un_cv s p -> (forall n, s (2 * n)%nat <= c) -> p <= c.
Proof.
  intros C H. apply Rnot_lt_le. intro L. destruct (C (p - c) ltac:(lra)) as (n & Hn).
  specialize (Hn (2 * n)%nat ltac:(lia)). unfold R_dist in Hn. apply Rabs_def2 in Hn. specialize (H n). lra.
Qed.

(** first terms of the series become small with the duration *)
Lemma exp_small (c : R) : 0 < c -> forall eps, 0 < eps -> exists d, 0 < d /\ forall t, 0 < t < d -> exp (- (c / t)) < eps.
Proof.
  intros C eps He. exists (c * eps). split; [nra|]. intros t T.
  assert (S : 0 < c / t) by (apply Rdiv_lt_0_compat; lra).
  eapply Rle_lt_trans; [apply exp_neg_inv, S|].
  replace (/ (c / t)) with (t / c) by (field; lra).
  apply (Rmult_lt_reg_r c); [exact C|]. replace (t / c * c) with t by (field; lra). lra.
Qed.

Lemma exp_le x y : x <= y -> exp x <= exp y.
Proof. intros [H| ->]; [left; now apply exp_increasing|right; reflexivity]. Qed.

(** on the middle part of the interval, after a short time, a third of the mass is left *)
Lemma early t a b K N c : 0 < t -> Rabs a < K -> Rabs b < K -> 0 < c ->
  c <= (K - a) * (K - b) -> c <= (K + a) * (K + b) -> exp (- (c / t)) < / 6 ->
  / 2 <= 1 - tsum t a b K N - textra t a b K N.
Proof.
  intros P Ha Hb Hc C1 C2 E.
  destruct (brown_full t a b K P Ha Hb) as (p & _ & _ & _ & B).
  rewrite (tsum_brown t a b K N P Ha Hb).
  pose proof (proj1 (B (2 * N)%nat ltac:(lia))) as B1. rewrite Nat.even_mul in B1. specialize (B1 eq_refl).
  pose proof (proj2 (B 1%nat ltac:(lia)) eq_refl) as B2.
  change 1%nat with (2 * 0 + 1)%nat in B2. rewrite bs_U in B2 by auto. unfold bU in B2. rewrite !up_e in B2 by auto.
  simpl brown_sum in B2. simpl INR in B2.
  assert (X : forall x y, c <= x * y -> exp (- (2 * x * y / t)) <= exp (- (c / t))).
  { intros x y H. apply exp_le, Ropp_le_contravar.
    apply Rmult_le_compat_r; [apply Rlt_le, Rinv_0_lt_compat, P|]. nra. }
  assert (Y : textra t a b K N <= exp (- (c / t))).
  { unfold textra. apply X. apply Rabs_def2 in Ha, Hb. pose proof (pos_INR N).
    eapply Rle_trans; [exact C2|]. apply Rmult_le_compat; nra. }
  pose proof (X (K - a) (K - b) C1) as X1. pose proof (X (K + a) (K + b) C2) as X2.
  revert B2.
  match goal with |- _ <= 0 + (exp ?u + exp ?v) -> _ => replace u with (- (2 * (K - a) * (K - b) / t)) by (field; lra);
     replace v with (- (2 * (K + a) * (K + b) / t)) by (field; lra) end.
  intro B2. lra.
Qed.

Lemma brown_lt1 t a b K p : 0 < t -> Rabs a < K -> Rabs b < K -> brown_escape t a b K p -> p < 1.
Proof.
  intros P Ha Hb E. assert (CV : Un_cv (brown_sum t a b K) p) by now apply brown_limit.
  apply Rabs_def2 in Ha as Ha'. apply Rabs_def2 in Hb as Hb'.
  (* the middle part of the interval *)
  pose (eta := Rmin (b + K) (K - b) / 2).
  assert (Eta : 0 < Rmin (b + K) (K - b)) by (apply Rmin_pos; lra).
  pose proof (Rmin_l (b + K) (K - b)) as El. pose proof (Rmin_r (b + K) (K - b)) as Er.
  pose (c := eta * Rmin (K - a) (K + a)).
  assert (Mm : 0 < Rmin (K - a) (K + a)) by (apply Rmin_pos; lra).
  pose proof (Rmin_l (K - a) (K + a)) as Ml. pose proof (Rmin_r (K - a) (K + a)) as Mr.
  assert (Hc : 0 < c) by (unfold c, eta; nra).
  destruct (exp_small c Hc (/ 6) ltac:(lra)) as (d & Hd & HD).
  pose (t0 := Rmin (d / 2) t).
  assert (T0 : 0 < t0) by (apply Rmin_pos; lra).
  assert (T1 : t0 <= d / 2) by apply Rmin_l. assert (T2 : t0 <= t) by apply Rmin_r.
  (* lower bound at time t0 *)
  pose (m := gk t0 (2 * K) / 2). assert (Hm : 0 < m) by (unfold m; pose proof (gk_pos t0 (2 * K) T0); lra).
  assert (G : forall N, sine m (PI / (2 * K - eta - eta)) eta t0 t (b + K) <= img N t (a + K) (2 * K) (b + K)).
  { intro N. apply (heat_lower (fun t y => img N t (a + K) (2 * K) y) eta (2 * K - eta) t0 m (img_heat N (a + K) (2 * K)));
      [exact T0|unfold eta; lra|lra| | |exact T2|unfold eta; lra].
    - intros s Hs. split; apply img_nonneg; unfold eta; lra.
    - intros y Hy. replace y with ((y - K) + K) by ring. rewrite img_tsum by exact T0.
      assert (Hy' : Rabs (y - K) < K) by (apply Rabs_def1; unfold eta in Hy; lra).
      assert (H2 : / 2 <= 1 - tsum t0 a (y - K) K N - textra t0 a (y - K) K N).
      { apply (early t0 a (y - K) K N c); auto.
        - unfold c. rewrite Rmult_comm. apply Rmult_le_compat; unfold eta in *; lra.
        - unfold c. rewrite Rmult_comm. apply Rmult_le_compat; unfold eta in *; lra.
        - apply HD. lra. }
      assert (H3 : gk t0 (2 * K) <= gk t0 (y - K - a)).
      { rewrite <- (Rabs_pos_eq (2 * K)) by lra.
        assert (Z : gk t0 (y - K - a) = gk t0 (Rabs (y - K - a))).
        { unfold Rabs. destruct (Rcase_abs _); [now rewrite gk_even|reflexivity]. }
        rewrite Z. apply gk_mono; [exact T0|apply Rabs_pos|].
        rewrite (Rabs_pos_eq (Rabs (2 * K))) by apply Rabs_pos. rewrite (Rabs_pos_eq (2 * K)) by lra.
        apply Rlt_le, Rabs_def1; unfold eta in Hy; lra. }
      unfold m. pose proof (gk_pos t0 (2 * K) T0). nra. }
  set (s := sine m (PI / (2 * K - eta - eta)) eta t0 t (b + K)) in *.
  assert (Hs : 0 < s).
  { apply sine_pos; [exact Hm|]. split.
    - apply Rmult_lt_0_compat; [apply Rdiv_lt_0_compat; [apply PI_RGT_0|unfold eta; lra]|unfold eta; lra].
    - pose proof PI_RGT_0. apply (Rmult_lt_reg_r (2 * K - eta - eta)); [unfold eta; lra|].
      replace (PI / (2 * K - eta - eta) * (b + K - eta) * (2 * K - eta - eta)) with (PI * (b + K - eta)) by (field; unfold eta; lra).
      apply Rmult_lt_compat_l; [assumption|unfold eta; lra]. }
  pose proof (gk_pos t (b - a) P) as Gp.
  enough (p <= 1 - s / gk t (b - a)) by (assert (0 < s / gk t (b - a)) by (apply Rdiv_lt_0_compat; assumption); lra).
  apply (cv_le_bound (brown_sum t a b K)); [exact CV|]. intro n. rewrite <- tsum_brown by auto.
  specialize (G n). rewrite img_tsum in G by exact P.
  assert (0 < textra t a b K n) by apply exp_pos.
  assert (s / gk t (b - a) <= 1 - tsum t a b K n).
  { apply (Rmult_le_reg_r (gk t (b - a))); [exact Gp|].
    replace (s / gk t (b - a) * gk t (b - a)) with s by (field; lra). nra. }
  lra.
Qed.

(** ** Bessel bridge *)
Fixpoint bsum (t b K : R) (N : nat) : R :=
  match N with O => 0 | S n => bsum t b K n + bessel_term t b K (S n) end.
Lemma himg_bsum t b K N : 0 < t -> 0 < b -> himg N t K b = hk t b * (1 - bsum t b K N).
Proof.
  intros P B. induction N as [|n IH]; cbn [himg bsum].
  - rewrite Rplus_0_r. ring.
  - rewrite IH. unfold bessel_term, hk. rewrite S_INR. set (k := INR n).
    rewrite (gk_ratio t (b + 2 * (k + 1) * K) b P), (gk_ratio t (b + - (2 * (k + 1) * K)) b P).
    replace (- (((b + 2 * (k + 1) * K) ^ 2 - b ^ 2) / (2 * t)))
      with (- (2 * (k + 1) * K * ((k + 1) * K + b) / t)) by (field; lra).
    replace (- (((b + - (2 * (k + 1) * K)) ^ 2 - b ^ 2) / (2 * t)))
      with (- (2 * (k + 1) * K * ((k + 1) * K - b) / t)) by (field; lra).
    field. lra.
Qed.
Lemma bsum_bessel t b K N : 0 < t -> 0 < b < K -> bsum t b K N = bessel_sum t 0 b K (2 * N).
Proof.
  intros P B. rewrite bessel_sum_0 by auto. induction N as [|n IH]; [reflexivity|]. cbn [bsum].
  replace (2 * S n)%nat with (2 * n + 2)%nat by lia.
  rewrite zs_D, zs_U, IH, (z_term_eq t b K) by (auto; lra). ring.
Qed.

Lemma early_bessel t y K N eta : 0 < t -> t < 3 * K ^ 2 -> 0 < eta -> eta <= y <= K - eta ->
  exp (- (2 * K * eta / t)) < / (4 * K / eta) -> / 2 <= 1 - bsum t y K N.
Proof.
  intros P T He Hy E.
  assert (Y : 0 < y < K) by lra.
  destruct (bessel_exists t 0 y K P (Rle_refl 0) (proj1 Y) ltac:(lra) (proj2 Y)) as (p & HP).
  pose proof (bessel_brackets_short t 0 y K P (Rle_refl 0) (proj1 Y) ltac:(lra) (proj2 Y) p HP T) as B.
  rewrite (bsum_bessel t y K N P Y).
  pose proof (proj1 (B (2 * N)%nat ltac:(lia))) as B1. rewrite Nat.even_mul in B1. specialize (B1 eq_refl).
  pose proof (proj2 (B 1%nat ltac:(lia)) eq_refl) as B2.
  rewrite bessel_sum_0 in B2 by auto.
  change 1%nat with (2 * 0 + 1)%nat in B2. rewrite zs_U in B2 by lra. rewrite zU_e in B2 by lra.
  unfold yy in B2. simpl bessel0_sum in B2. simpl INR in B2.
  assert (X : exp (- (2 * K * (K - y) / t)) <= exp (- (2 * K * eta / t))).
  { apply exp_le, Ropp_le_contravar. apply Rmult_le_compat_r; [apply Rlt_le, Rinv_0_lt_compat, P|]. nra. }
  assert (Z : (2 * K - y) * exp (- (2 * K * (K - y) / t)) / y <= / 2).
  { apply (Rmult_le_reg_r y); [lra|].
    replace ((2 * K - y) * exp (- (2 * K * (K - y) / t)) / y * y) with ((2 * K - y) * exp (- (2 * K * (K - y) / t))) by (field; lra).
    replace (/ (4 * K / eta)) with (eta / (4 * K)) in E by (field; lra).
    assert (F : exp (- (2 * K * (K - y) / t)) <= eta / (4 * K)) by lra.
    eapply Rle_trans; [apply Rmult_le_compat_l; [lra|exact F]|].
    replace ((2 * K - y) * (eta / (4 * K))) with (eta / 2 - y * eta / (4 * K)) by (field; lra).
    assert (0 < y * eta / (4 * K)) by (apply Rdiv_lt_0_compat; nra). lra. }
  revert B2. match goal with |- _ <= 0 + ?u -> _ => replace u with ((2 * K - y) * exp (- (2 * K * (K - y) / t)) / y) end.
  - intro B2. lra.
  - f_equal. f_equal; [ring|]. f_equal. field. lra.
Qed.

Lemma bessel0_lt1 t b K p : 0 < t -> 0 < b < K -> bessel_escape t 0 b K p -> p < 1.
Proof.
  intros P B E.
  assert (CV : Un_cv (bessel_sum t 0 b K) p) by (apply (bessel_limit t 0 b K P (Rle_refl 0) (proj1 B) ltac:(lra) (proj2 B)); exact E).
  pose (eta := Rmin b (K - b) / 2).
  assert (Eta : 0 < Rmin b (K - b)) by (apply Rmin_pos; lra).
  pose proof (Rmin_l b (K - b)) as El. pose proof (Rmin_r b (K - b)) as Er.
  assert (H4 : 0 < / (4 * K / eta)).
  { apply Rinv_0_lt_compat, Rdiv_lt_0_compat; unfold eta; lra. }
  destruct (exp_small (2 * K * eta) ltac:(unfold eta; nra) _ H4) as (d & Hd & HD).
  pose (t0 := Rmin (Rmin (d / 2) t) (K ^ 2)).
  assert (K2 : 0 < K ^ 2) by (apply pow_lt; lra).
  assert (T0 : 0 < t0) by (apply Rmin_pos; [apply Rmin_pos; lra|exact K2]).
  assert (T1 : t0 <= d / 2) by (eapply Rle_trans; [apply Rmin_l|apply Rmin_l]).
  assert (T2 : t0 <= t) by (eapply Rle_trans; [apply Rmin_l|apply Rmin_r]).
  assert (T3 : t0 <= K ^ 2) by apply Rmin_r.
  pose (m := eta / t0 * gk t0 K / 2).
  pose proof (gk_pos t0 K T0) as GK.
  assert (Het : 0 < eta / t0) by (apply Rdiv_lt_0_compat; [unfold eta; lra|exact T0]).
  assert (Hm : 0 < m) by (unfold m; nra).
  assert (G : forall N, sine m (PI / (K - eta - eta)) eta t0 t b <= himg N t K b).
  { intro N. apply (heat_lower (fun t y => himg N t K y) eta (K - eta) t0 m (himg_heat N K));
      [exact T0|unfold eta; lra|lra| | |exact T2|unfold eta; lra].
    - intros s Hs. split; apply himg_nonneg; unfold eta; lra.
    - intros y Hy. rewrite himg_bsum by (unfold eta in Hy; lra).
      assert (H2 : / 2 <= 1 - bsum t0 y K N).
      { apply (early_bessel t0 y K N eta); [exact T0|lra|unfold eta; lra|exact Hy|]. apply HD. lra. }
      assert (H3 : gk t0 K <= gk t0 y).
      { apply gk_mono; [exact T0|unfold eta in Hy; lra|]. rewrite Rabs_pos_eq; unfold eta in Hy; lra. }
      assert (H5 : eta / t0 * gk t0 K <= hk t0 y).
      { unfold hk. apply Rmult_le_compat; try lra. apply Rmult_le_compat_r; [apply Rlt_le, Rinv_0_lt_compat, T0|lra]. }
      unfold m. assert (0 < eta / t0 * gk t0 K) by (apply Rmult_lt_0_compat; assumption). nra. }
  set (s := sine m (PI / (K - eta - eta)) eta t0 t b) in *.
  assert (Hs : 0 < s).
  { apply sine_pos; [exact Hm|]. split.
    - apply Rmult_lt_0_compat; [apply Rdiv_lt_0_compat; [apply PI_RGT_0|unfold eta; lra]|unfold eta; lra].
    - pose proof PI_RGT_0. apply (Rmult_lt_reg_r (K - eta - eta)); [unfold eta; lra|].
      replace (PI / (K - eta - eta) * (b - eta) * (K - eta - eta)) with (PI * (b - eta)) by (field; unfold eta; lra).
      apply Rmult_lt_compat_l; [assumption|unfold eta; lra]. }
  assert (Gp : 0 < hk t b).
  { unfold hk. apply Rmult_lt_0_compat; [apply Rdiv_lt_0_compat; lra|apply gk_pos, P]. }
  enough (p <= 1 - s / hk t b) by (assert (0 < s / hk t b) by (apply Rdiv_lt_0_compat; assumption); lra).
  apply (cv_le_bound (bessel_sum t 0 b K)); [exact CV|]. intro n. rewrite <- bsum_bessel by auto.
  specialize (G n). rewrite himg_bsum in G by (auto; lra).
  assert (s / hk t b <= 1 - bsum t b K n); [|lra].
  apply (Rmult_le_reg_r (hk t b)); [exact Gp|].
  replace (s / hk t b * hk t b) with s by (field; lra). lra.
Qed.

Lemma bessel_lt1 t a b K p : 0 < t -> 0 <= a -> 0 < b -> a < K -> b < K -> bessel_escape t a b K p -> p < 1.
Proof.
  intros P Ha Hb HaK HbK E. destruct (Req_dec a 0) as [-> |N].
  - apply (bessel0_lt1 t b K p P); auto.
  - destruct (proj2 E N) as (q & Q & F).
    assert (q < 1) by (apply (brown_lt1 t (a - K / 2) (b - K / 2) (K / 2) q P); auto; apply Rabs_def1; lra).
    assert (D : 0 < 1 - exp (- (2 * a * b / t))).
    { assert (exp (- (2 * a * b / t)) < 1); [|lra]. rewrite <- exp_0. apply exp_increasing.
      assert (0 < 2 * a * b / t) by (apply Rdiv_lt_0_compat; [nra|exact P]). lra. }
    assert (0 < (1 - q) / (1 - exp (- (2 * a * b / t)))) by (apply Rdiv_lt_0_compat; lra). lra.
Qed.
