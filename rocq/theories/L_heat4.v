(** The escape probabilities of a Bessel bridge are nonnegative. *)
From Coq Require Import Reals Lra Lia List Arith.
From Verif Require Import Base Rng M_hit SpecHit L_hit2 L_hit3 L_hit4 L_hit5 L_hit6 L_hit9 L_heat L_heat2 L_heat3.
Local Open Scope R_scope.

(** as [heat_nonneg], up to an error on the sides *)
Lemma heat_near u l r t1 e0 : heat u -> l <= r -> 0 <= e0 ->
  (forall t, 0 < t <= t1 -> - e0 <= u t l /\ - e0 <= u t r) ->
  (forall eps, 0 < eps -> exists d, 0 < d /\ forall t y, 0 < t < d -> l <= y <= r -> - eps <= u t y) ->
  forall t y, 0 < t <= t1 -> l <= y <= r -> - e0 <= u t y.
Proof.
  intros Hu Hlr H0 Hb Hi t y Ht Hy. apply Rnot_lt_le. intro C.
  pose (eps := - u t y - e0). assert (He : 0 < eps) by (unfold eps; lra).
  destruct (Hi (eps / 2) ltac:(lra)) as (d & Hd & HI).
  pose (t0 := Rmin (d / 2) t).
  assert (0 < t0) by (apply Rmin_pos; lra).
  assert (t0 <= d / 2) by apply Rmin_l. assert (t0 <= t) by apply Rmin_r.
  assert (- (e0 + eps / 2) <= u t y); [|unfold eps in *; lra].
  apply (heat_min u l r t0 t (e0 + eps / 2) Hu); auto; try lra.
  - intros s Hs. destruct (Hb s ltac:(lra)). lra.
  - intros z Hz. assert (- (eps / 2) <= u t0 z) by (apply HI; lra). lra.
Qed.

Lemma himg_upper N t K y : 0 < t -> 0 < K -> 0 <= y <= K ->
  himg N t K y <= hk t y + 16 / ((2 * INR N + 1) * K) ^ 3 * sqrt t.
Proof.
  intros P HK HY. set (z := (2 * INR N + 1) * K). pose proof (pos_INR N) as HN.
  assert (Z : K <= z) by (unfold z; nra).
  set (e0 := 16 / z ^ 3 * sqrt t).
  assert (H3 : 0 < 16 / z ^ 3) by (apply Rdiv_lt_0_compat; [lra|apply pow_lt; lra]).
  assert (E0 : 0 <= e0) by (unfold e0; apply Rmult_le_pos; [lra|apply sqrt_pos]).
  assert (G : - e0 <= hk t (y + 0) - himg N t K y); [|rewrite Rplus_0_r in G; lra].
  apply (heat_near (fun t y => hk t (y + 0) - himg N t K y) 0 K t e0); try lra.
  - apply heat_minus; [apply heat_hk|apply himg_heat].
  - intros s Hs. rewrite himg_at_0, himg_at_L, !Rplus_0_r.
    assert (A0 : hk s 0 = 0) by (unfold hk, Rdiv; ring). rewrite A0. split; [lra|].
    pose proof (hk_nonneg s K ltac:(lra) ltac:(lra)).
    assert (hk s z <= e0); [|fold z; lra].
    pose proof (hk_small s z z z ltac:(lra) ltac:(lra) ltac:(lra)) as B.
    replace (z * (16 / z ^ 4)) with (16 / z ^ 3) in B by (field; lra).
    eapply Rle_trans; [exact B|]. unfold e0. apply Rmult_le_compat_l; [lra|]. apply sqrt_le_1; lra.
  - intros eps He.
    assert (H4 : 0 < 16 / K ^ 4) by (apply Rdiv_lt_0_compat; [lra|apply pow_lt, HK]).
    pose (c := (2 * INR N + 1) * K * (16 / K ^ 4)).
    assert (Hc : 0 < c) by (unfold c; apply Rmult_lt_0_compat; [nra|exact H4]).
    destruct (small_time (INR N * c + 1) ltac:(nra) eps He) as (d & Hd & HT).
    exists d. split; [exact Hd|]. intros s x Hs Hx. specialize (HT s Hs).
    pose proof (sqrt_lt_R0 s ltac:(lra)) as Q.
    enough (I : forall M, (M <= N)%nat -> himg M s K x <= hk s (x + 0) + INR M * (c * sqrt s)).
    { specialize (I N (le_n N)). lra. }
    induction M as [|n IH]; intro HM; cbn [himg].
    + simpl INR. lra.
    + specialize (IH ltac:(lia)). pose proof (pos_INR n).
      set (k := 2 * INR (S n) * K).
      assert (C1 : 2 * K <= k) by (unfold k; rewrite S_INR; nra).
      assert (C2 : k <= 2 * INR N * K) by (unfold k; pose proof (le_INR _ _ HM); nra).
      replace (x + - k) with (- (k - x)) by ring. rewrite hk_odd.
      pose proof (hk_nonneg s (k - x) ltac:(lra) ltac:(lra)).
      pose proof (hk_small s (x + k) K ((2 * INR N + 1) * K) ltac:(lra) HK ltac:(lra)) as B.
      fold c in B. replace (INR (S n)) with (INR n + 1) by (rewrite S_INR; ring). lra.
Qed.

Lemma img_upper N t x L y : 0 < t -> 0 < x < L -> 0 <= y <= L ->
  img N t x L y <= gk t (y - x) - gk t (y + x) + 2 / ((2 * INR N + 1) * L - x) ^ 2 * sqrt t.
Proof.
  intros P HX HY. set (z := (2 * INR N + 1) * L - x). pose proof (pos_INR N) as HN.
  assert (Z : 0 < z) by (unfold z; nra).
  set (e0 := 2 / z ^ 2 * sqrt t).
  assert (H3 : 0 < 2 / z ^ 2) by (apply Rdiv_lt_0_compat; [lra|apply pow_lt; lra]).
  assert (E0 : 0 <= e0) by (unfold e0; apply Rmult_le_pos; [lra|apply sqrt_pos]).
  assert (G : - e0 <= img 0 t x L y - img N t x L y); [|cbn [img] in G; unfold Rminus at 2; lra].
  apply (heat_near (fun t y => img 0 t x L y - img N t x L y) 0 L t e0); try lra.
  - apply heat_minus; apply img_heat.
  - intros s Hs. rewrite !img_at_0, !img_at_L. split; [lra|]. simpl (INR 0).
    assert (gk s ((2 * 0 + 1) * L + x) <= gk s ((2 * 0 + 1) * L - x)).
    { apply gk_mono; [lra|lra|rewrite Rabs_pos_eq; lra]. }
    pose proof (gk_pos s ((2 * INR N + 1) * L + x) ltac:(lra)).
    assert (gk s z <= e0).
    { eapply Rle_trans; [apply gk_small; lra|]. unfold e0. apply Rmult_le_compat_l; [lra|]. apply sqrt_le_1; lra. }
    fold z. lra.
  - intros eps He.
    assert (L2 : 0 < 2 / L ^ 2) by (apply Rdiv_lt_0_compat; [lra|apply pow_lt; lra]).
    destruct (small_time (2 * INR N * (2 / L ^ 2) + 1) ltac:(nra) eps He) as (d & Hd & HT).
    exists d. split; [exact Hd|]. intros s w Hs Hw. specialize (HT s Hs).
    pose proof (sqrt_lt_R0 s ltac:(lra)) as Q. pose proof (gk_small s L ltac:(lra) ltac:(lra)) as GL.
    enough (I : img N s x L w <= img 0 s x L w + 2 * INR N * gk s L).
    { assert (2 * INR N * gk s L <= 2 * INR N * (2 / L ^ 2) * sqrt s).
      { rewrite Rmult_assoc with (r2 := 2 / L ^ 2). apply Rmult_le_compat_l; lra. }
      lra. }
    clear - Hs Hw HX. induction N as [|n IH]; [simpl INR; lra|].
    change (img (S n) s x L w) with (img n s x L w
      + (gk s (w + (- x + 2 * INR (S n) * L)) + gk s (w + (- x - 2 * INR (S n) * L))
         - gk s (w + (x + 2 * INR (S n) * L)) - gk s (w + (x - 2 * INR (S n) * L)))).
    set (k := 2 * INR (S n) * L). pose proof (pos_INR n).
    assert (C1 : 2 * L <= k) by (unfold k; rewrite S_INR; nra).
    pose proof (gk_pos s (w + (x + k)) ltac:(lra)). pose proof (gk_pos s (w + (x - k)) ltac:(lra)).
    assert (gk s (w + (- x + k)) <= gk s L) by (apply gk_mono; [lra|lra|rewrite Rabs_pos_eq; lra]).
    assert (gk s (w + (- x - k)) <= gk s L) by (apply gk_mono; [lra|lra|rewrite Rabs_left1; lra]).
    replace (INR (S n)) with (INR n + 1) by (rewrite S_INR; ring). lra.
Qed.

(** limits *)
Lemma cv_ge_near (s : nat -> R) p c (e : nat -> R) : Un_cv s p ->
  (forall n, c - e n <= s (2 * n)%nat) -> (forall eps, 0 < eps -> exists n0, forall n, (n0 <= n)%nat -> e n < eps) -> c <= p.
Proof.
  intros C H He. apply Rnot_lt_le. intro L.
  destruct (C ((c - p) / 2) ltac:(lra)) as (n1 & H1). destruct (He ((c - p) / 2) ltac:(lra)) as (n2 & H2).
  specialize (H1 (2 * (n1 + n2))%nat ltac:(lia)). specialize (H2 (n1 + n2)%nat ltac:(lia)).
  unfold R_dist in H1. apply Rabs_def2 in H1. specialize (H (n1 + n2)%nat). lra.
Qed.
Lemma vanish_inv c : 0 <= c -> forall eps, 0 < eps -> exists n0, forall n, (n0 <= n)%nat -> c / (2 * INR n + 1) < eps.
Proof.
  intros C eps He. destruct (archimed_cor1 (eps / (c + 1)) ltac:(apply Rdiv_lt_0_compat; lra)) as (n0 & H & H0).
  exists n0. intros n Hn.
  assert (P0 : 0 < INR n0) by (apply lt_0_INR; lia).
  assert (N : INR n0 <= INR n) by (apply le_INR; lia).
  apply (Rmult_lt_reg_r (2 * INR n + 1)); [lra|].
  replace (c / (2 * INR n + 1) * (2 * INR n + 1)) with c by (field; lra).
  apply (Rmult_lt_compat_r ((c + 1) * INR n0)) in H; [|apply Rmult_lt_0_compat; lra].
  replace (/ INR n0 * ((c + 1) * INR n0)) with (c + 1) in H by (field; lra).
  replace (eps / (c + 1) * ((c + 1) * INR n0)) with (eps * INR n0) in H by (field; lra).
  nra.
Qed.

Lemma bessel0_nonneg t b K p : 0 < t -> 0 < b < K -> bessel_escape t 0 b K p -> 0 <= p.
Proof.
  intros P B E.
  assert (CV : Un_cv (bessel_sum t 0 b K) p) by (apply (bessel_limit t 0 b K P (Rle_refl 0) (proj1 B) ltac:(lra) (proj2 B)); exact E).
  assert (Gp : 0 < hk t b).
  { unfold hk. apply Rmult_lt_0_compat; [apply Rdiv_lt_0_compat; lra|apply gk_pos, P]. }
  pose proof (sqrt_lt_R0 t P) as Q. assert (K3 : 0 < K ^ 3) by (apply pow_lt; lra).
  set (C := 16 / K ^ 3 * sqrt t / hk t b).
  assert (HC : 0 < C) by (unfold C; apply Rdiv_lt_0_compat; [apply Rmult_lt_0_compat; [apply Rdiv_lt_0_compat; lra|exact Q]|exact Gp]).
  apply (cv_ge_near (bessel_sum t 0 b K) p 0 (fun n => C / (2 * INR n + 1))); [exact CV| |apply vanish_inv; lra].
  intro n. rewrite <- bsum_bessel by auto.
  pose proof (himg_upper n t K b P ltac:(lra) ltac:(lra)) as U. rewrite himg_bsum in U by (auto; lra).
  pose proof (pos_INR n) as Hn. set (k := 2 * INR n + 1) in *. assert (Hk : 1 <= k) by (unfold k; lra).
  assert (D : - bsum t b K n <= C / k ^ 3).
  { apply (Rmult_le_reg_r (hk t b)); [exact Gp|].
    replace (C / k ^ 3 * hk t b) with (16 / (k * K) ^ 3 * sqrt t) by (unfold C; field; repeat split; lra). lra. }
  assert (C / k ^ 3 <= C / k); [|lra].
  apply Rmult_le_compat_l; [lra|]. apply Rinv_le_contravar; [lra|]. nra.
Qed.

Lemma bessel_nonneg t a b K p : 0 < t -> 0 <= a -> 0 < b -> a < K -> b < K -> bessel_escape t a b K p -> 0 <= p.
Proof.
  intros P Ha Hb HaK HbK E. destruct (Req_dec a 0) as [-> |N].
  - apply (bessel0_nonneg t b K p P); auto.
  - destruct (proj2 E N) as (q & HQ & F).
    assert (Ap : 0 < a) by lra.
    set (e := exp (- (2 * a * b / t))) in *.
    assert (D : 0 < 1 - e).
    { assert (e < 1); [|lra]. unfold e. rewrite <- exp_0. apply exp_increasing.
      assert (0 < 2 * a * b / t) by (apply Rdiv_lt_0_compat; [nra|exact P]). lra. }
    enough (e <= q).
    { enough ((1 - q) / (1 - e) <= 1) by lra. apply (Rmult_le_reg_r (1 - e)); [exact D|].
      replace ((1 - q) / (1 - e) * (1 - e)) with (1 - q) by (field; lra). lra. }
    assert (A1 : Rabs (a - K / 2) < K / 2) by (apply Rabs_def1; lra).
    assert (B1 : Rabs (b - K / 2) < K / 2) by (apply Rabs_def1; lra).
    assert (CV : Un_cv (brown_sum t (a - K / 2) (b - K / 2) (K / 2)) q) by now apply brown_limit.
    pose proof (gk_pos t (b - a) P) as Gp. pose proof (sqrt_lt_R0 t P) as Q.
    set (la := Rmin a (K / 2)). set (lb := Rmin b (K / 2)).
    assert (La : 0 < la) by (apply Rmin_pos; lra). assert (Lb : 0 < lb) by (apply Rmin_pos; lra).
    pose proof (Rmin_l a (K / 2) : la <= a). pose proof (Rmin_r a (K / 2) : la <= K / 2).
    pose proof (Rmin_l b (K / 2) : lb <= b). pose proof (Rmin_r b (K / 2) : lb <= K / 2).
    set (C1 := t / (2 * la * lb)). set (C2 := 2 / (K - a) ^ 2 * sqrt t / gk t (b - a)).
    assert (HC1 : 0 < C1) by (unfold C1; apply Rdiv_lt_0_compat; nra).
    assert (HC2 : 0 < C2).
    { unfold C2. apply Rdiv_lt_0_compat; [apply Rmult_lt_0_compat; [apply Rdiv_lt_0_compat; [lra|apply pow_lt; lra]|exact Q]|exact Gp]. }
    apply (cv_ge_near _ q e (fun n => (C1 + C2) / (2 * INR n + 1)) CV); [|apply vanish_inv; lra].
    intro n. rewrite <- tsum_brown by auto.
    pose proof (img_upper n t a K b P ltac:(lra) ltac:(lra)) as U.
    pose proof (img_tsum t (a - K / 2) (b - K / 2) (K / 2) n P) as T.
    replace (a - K / 2 + K / 2) with a in T by ring. replace (b - K / 2 + K / 2) with b in T by ring.
    replace (2 * (K / 2)) with K in T by field. replace (b - K / 2 - (a - K / 2)) with (b - a) in T by ring.
    rewrite T in U. rewrite (gk_ratio t (b + a) (b - a) P) in U.
    replace (exp (- (((b + a) ^ 2 - (b - a) ^ 2) / (2 * t)))) with e in U.
    2:{ unfold e. f_equal. field. lra. }
    pose proof (pos_INR n) as Hn. set (k := 2 * INR n + 1) in *. assert (Hk : 1 <= k) by (unfold k; lra).
    assert (X1 : textra t (a - K / 2) (b - K / 2) (K / 2) n <= C1 / k).
    { unfold textra. fold k.
      replace (2 * (k * (K / 2) + (a - K / 2)) * (k * (K / 2) + (b - K / 2))) with (2 * (INR n * K + a) * (INR n * K + b)) by (unfold k; field).
      assert (V : 2 * la * lb * k <= 2 * (INR n * K + a) * (INR n * K + b)).
      { replace (2 * la * lb * k) with (2 * (la * k) * lb) by ring. apply Rmult_le_compat; unfold k; nra. }
      assert (V0 : 0 < 2 * la * lb * k) by (apply Rmult_lt_0_compat; [nra|lra]).
      eapply Rle_trans; [apply exp_le, Ropp_le_contravar; apply Rmult_le_compat_r; [apply Rlt_le, Rinv_0_lt_compat, P|exact V]|].
      change (2 * la * lb * k * / t) with (2 * la * lb * k / t).
      eapply Rle_trans; [apply exp_neg_inv, Rdiv_lt_0_compat; assumption|]. right. unfold C1. field. repeat split; lra. }
    set (z := k * K - a) in *. assert (Z : (K - a) * k <= z) by (unfold z; nra).
    assert (X2 : 2 / z ^ 2 * sqrt t / gk t (b - a) <= C2 / k).
    { unfold C2.
      assert (W : / z ^ 2 <= / ((K - a) ^ 2 * k)).
      { apply Rinv_le_contravar; [apply Rmult_lt_0_compat; [apply pow_lt; lra|lra]|].
        assert (0 <= (K - a) * k) by nra.
        assert (((K - a) * k) * ((K - a) * k) <= z * z) by (apply Rmult_le_compat; lra).
        assert (0 < (K - a) ^ 2) by (apply pow_lt; lra). nra. }
      replace (2 / (K - a) ^ 2 * sqrt t / gk t (b - a) / k) with (/ ((K - a) ^ 2 * k) * (2 * sqrt t / gk t (b - a))) by (field; repeat split; lra).
      assert (Z0 : 0 < z) by (unfold z; nra).
      replace (2 / z ^ 2 * sqrt t / gk t (b - a)) with (/ z ^ 2 * (2 * sqrt t / gk t (b - a))) by (field; split; lra).
      apply Rmult_le_compat_r; [|exact W]. apply Rlt_le, Rdiv_lt_0_compat; lra. }
    set (ts := tsum t (a - K / 2) (b - K / 2) (K / 2) n) in *.
    set (tx := textra t (a - K / 2) (b - K / 2) (K / 2) n) in *.
    assert (Y : e - ts - tx <= 2 / z ^ 2 * sqrt t / gk t (b - a)).
    { apply (Rmult_le_reg_r (gk t (b - a))); [exact Gp|].
      replace (2 / z ^ 2 * sqrt t / gk t (b - a) * gk t (b - a)) with (2 / z ^ 2 * sqrt t) by (assert (0 < z) by nra; field; split; lra).
      lra. }
    replace ((C1 + C2) / k) with (C1 / k + C2 / k) by (field; lra). lra.
Qed.
