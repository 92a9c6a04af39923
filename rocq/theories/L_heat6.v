(** Monotonicity of the Bessel escape probability in the level. *)
From Coquelicot Require Import Coquelicot.
From Coq Require Import Reals List Bool Arith Lia Lra.
From Verif Require Import Base Np Rng M_mjp M_hit SpecHit L_hit2 L_hit3 L_hit4 L_hit5 L_hit6 L_hit9 L_heat L_heat2 L_heat3 L_heat4 L_heat5.
Import ListNotations.
Local Open Scope R_scope.

Lemma himg_above N t L y : 0 < t -> 0 < L -> 0 <= y <= L -> hk t (y + 0) - INR N * ((2 * INR N * L) * (16 / L ^ 4) * sqrt t) <= himg N t L y.
Proof.
  intros P HL Y. pose proof (sqrt_lt_R0 t P) as Q.
  assert (H4 : 0 < 16 / L ^ 4) by (apply Rdiv_lt_0_compat; [lra|apply pow_lt, HL]).
  enough (G : forall M, (M <= N)%nat -> hk t (y + 0) - INR M * ((2 * INR N * L) * (16 / L ^ 4) * sqrt t) <= himg M t L y) by (apply G; lia).
  induction M as [|n IH]; intro HM; cbn [himg].
  - simpl INR. lra.
  - specialize (IH ltac:(lia)). pose proof (pos_INR n). set (c := 2 * INR (S n) * L).
    assert (C : 2 * L <= c) by (unfold c; rewrite S_INR; nra). pose proof (hk_nonneg t (y + c) P ltac:(lra)).
    replace (y + - c) with (- (c - y)) by ring. rewrite hk_odd.
    assert (C2 : c <= 2 * INR N * L) by (unfold c; pose proof (le_INR _ _ HM); nra).
    pose proof (hk_small t (c - y) L (2 * INR N * L) P HL ltac:(lra)). replace (INR (S n)) with (INR n + 1) by (rewrite S_INR; ring). lra.
Qed.
Lemma himg_below N s K x : 0 < s -> 0 < K -> 0 <= x <= K -> himg N s K x <= hk s (x + 0) + INR N * ((2 * INR N + 1) * K * (16 / K ^ 4) * sqrt s).
Proof.
  intros P HK HX. pose proof (pos_INR N) as HN. set (c := (2 * INR N + 1) * K * (16 / K ^ 4)).
  enough (I : forall M, (M <= N)%nat -> himg M s K x <= hk s (x + 0) + INR M * (c * sqrt s)) by (apply I; lia).
  induction M as [|n IH]; intro HM; cbn [himg].
  - simpl INR. lra.
  - specialize (IH ltac:(lia)). pose proof (pos_INR n). set (k := 2 * INR (S n) * K).
    assert (C1 : 2 * K <= k) by (unfold k; rewrite S_INR; nra). assert (C2 : k <= 2 * INR N * K) by (unfold k; pose proof (le_INR _ _ HM); nra).
    replace (x + - k) with (- (k - x)) by ring. rewrite hk_odd. pose proof (hk_nonneg s (k - x) ltac:(lra) ltac:(lra)).
    pose proof (hk_small s (x + k) K ((2 * INR N + 1) * K) ltac:(lra) HK ltac:(lra)) as B. fold c in B. replace (INR (S n)) with (INR n + 1) by (rewrite S_INR; ring). lra.
Qed.
Lemma himg_nested N M t K u y : 0 < t -> 0 < K -> K <= u -> 0 <= y <= K -> himg M t K y <= himg N t u y + 16 / ((2 * INR M + 1) * K) ^ 3 * sqrt t.
Proof.
  intros P HK HU HY. set (z := (2 * INR M + 1) * K). pose proof (pos_INR M) as HM. pose proof (pos_INR N) as HN. assert (Z : K <= z) by (unfold z; nra).
  set (e0 := 16 / z ^ 3 * sqrt t). assert (H3 : 0 < 16 / z ^ 3) by (apply Rdiv_lt_0_compat; [lra|apply pow_lt; lra]).
  assert (E0 : 0 <= e0) by (unfold e0; apply Rmult_le_pos; [lra|apply sqrt_pos]).
  assert (G : - e0 <= himg N t u y - himg M t K y); [|lra].
  apply (heat_near (fun t y => himg N t u y - himg M t K y) 0 K t e0); try lra.
  - apply heat_minus; apply himg_heat.
  - intros s Hs. rewrite !himg_at_0, himg_at_L. split; [lra|]. pose proof (himg_nonneg N s u K ltac:(lra) ltac:(lra) ltac:(lra)).
    assert (hk s z <= e0); [|fold z; lra]. pose proof (hk_small s z z z ltac:(lra) ltac:(lra) ltac:(lra)) as B.
    replace (z * (16 / z ^ 4)) with (16 / z ^ 3) in B by (field; lra). eapply Rle_trans; [exact B|]. unfold e0. apply Rmult_le_compat_l; [lra|]. apply sqrt_le_1; lra.
  - intros eps He. assert (H4 : 0 < 16 / K ^ 4) by (apply Rdiv_lt_0_compat; [lra|apply pow_lt, HK]). assert (H5 : 0 < 16 / u ^ 4) by (apply Rdiv_lt_0_compat; [lra|apply pow_lt; lra]).
    pose (c := INR N * ((2 * INR N * u) * (16 / u ^ 4)) + INR M * ((2 * INR M + 1) * K * (16 / K ^ 4)) + 1).
    assert (Hc : 0 < c). { unfold c. assert (0 <= INR N * ((2 * INR N * u) * (16 / u ^ 4))) by (repeat (apply Rmult_le_pos; try lra)). assert (0 <= INR M * ((2 * INR M + 1) * K * (16 / K ^ 4))) by (repeat (apply Rmult_le_pos; try lra)). lra. }
    destruct (small_time c Hc eps He) as (d & Hd & HT). exists d. split; [exact Hd|]. intros s x Hs Hx. specialize (HT s Hs). pose proof (sqrt_lt_R0 s ltac:(lra)) as Q.
    pose proof (himg_above N s u x ltac:(lra) ltac:(lra) ltac:(lra)). pose proof (himg_below M s K x ltac:(lra) ltac:(lra) ltac:(lra)). unfold c in HT. lra.
Qed.
Lemma bessel0_mono t b K u p q : 0 < t -> 0 < b < K -> K <= u -> bessel_escape t 0 b K p -> bessel_escape t 0 b u q -> q <= p.
Proof.
  intros P B HU Ep Eq. apply Rnot_lt_le. intros C.
  assert (CP : Un_cv (fun n => bessel_sum t 0 b K (2 * n)) p) by (apply cv_even; apply (bessel_limit t 0 b K P (Rle_refl 0) (proj1 B) ltac:(lra) (proj2 B)); exact Ep).
  assert (CQ : Un_cv (fun n => bessel_sum t 0 b u (2 * n)) q) by (apply cv_even; apply (bessel_limit t 0 b u P (Rle_refl 0) (proj1 B) ltac:(lra) ltac:(lra)); exact Eq).
  assert (Gp : 0 < hk t b). { unfold hk. apply Rmult_lt_0_compat; [apply Rdiv_lt_0_compat; lra|apply gk_pos, P]. }
  pose proof (sqrt_lt_R0 t P) as Q. assert (K3 : 0 < K ^ 3) by (apply pow_lt; lra).
  set (c := 16 / K ^ 3 * sqrt t / hk t b).
  assert (Hc : 0 < c) by (unfold c; apply Rdiv_lt_0_compat; [apply Rmult_lt_0_compat; [apply Rdiv_lt_0_compat; lra|exact Q]|exact Gp]).
  destruct (CP ((q - p) / 3) ltac:(lra)) as (n1 & H1). destruct (CQ ((q - p) / 3) ltac:(lra)) as (n2 & H2). destruct (vanish_inv c ltac:(lra) ((q - p) / 3) ltac:(lra)) as (n3 & H3).
  set (n := (n1 + n2 + n3)%nat). specialize (H1 n ltac:(unfold n; lia)). specialize (H2 n ltac:(unfold n; lia)). specialize (H3 n ltac:(unfold n; lia)).
  pose proof (himg_nested n n t K u b P ltac:(lra) HU ltac:(lra)) as I. rewrite !himg_bsum in I by (auto; lra). rewrite !bsum_bessel in I by (auto; lra).
  pose proof (pos_INR n) as Hn. set (k := 2 * INR n + 1) in *. assert (Hk : 1 <= k) by (unfold k; lra).
  assert (D : 16 / (k * K) ^ 3 * sqrt t = c / k ^ 3 * hk t b) by (unfold c; field; repeat split; lra).
  assert (D2 : c / k ^ 3 <= c / k) by (apply Rmult_le_compat_l; [lra|]; apply Rinv_le_contravar; [lra|]; nra).
  rewrite D in I. assert (I2 : 1 - bessel_sum t 0 b K (2 * n) <= 1 - bessel_sum t 0 b u (2 * n) + c / k ^ 3) by (apply (Rmult_le_reg_l (hk t b)); [exact Gp|lra]).
  unfold R_dist in H1, H2. apply Rabs_def2 in H1. apply Rabs_def2 in H2. lra.
Qed.
Lemma brown_side t a b K u p q : 0 < t -> 0 < a < K -> 0 < b < K -> K <= u ->
  brown_escape t (a - K / 2) (b - K / 2) (K / 2) p -> brown_escape t (a - u / 2) (b - u / 2) (u / 2) q -> q <= p.
Proof.
  intros P Ha Hb HK Ep Eq. apply Rnot_lt_le. intro C.
  assert (S1 : Rabs (a - K / 2) < K / 2) by (apply Rabs_def1; lra). assert (S2 : Rabs (b - K / 2) < K / 2) by (apply Rabs_def1; lra).
  assert (S3 : Rabs (a - u / 2) < u / 2) by (apply Rabs_def1; lra). assert (S4 : Rabs (b - u / 2) < u / 2) by (apply Rabs_def1; lra).
  pose proof (gk_pos t (b - a) P) as Gp. set (g := gk t (b - a)) in *. set (eps := g * (q - p) / 3). assert (He : 0 < eps) by (unfold eps; nra).
  destruct (img_cv t _ _ _ p P S1 S2 Ep eps He) as (n1 & H1). destruct (img_cv t _ _ _ q P S3 S4 Eq eps He) as (n2 & H2). pose proof (sqrt_lt_R0 t P) as Q.
  set (c := 2 / (K - a) ^ 2 * sqrt t). assert (Hc : 0 < c) by (unfold c; apply Rmult_lt_0_compat; [apply Rdiv_lt_0_compat; [lra|apply pow_lt; lra]|exact Q]).
  destruct (vanish_inv c ltac:(lra) eps He) as (n3 & H3). set (n := (n1 + n2 + n3)%nat).
  specialize (H1 n ltac:(unfold n; lia)). specialize (H2 n ltac:(unfold n; lia)). specialize (H3 n ltac:(unfold n; lia)).
  replace (a - K / 2 + K / 2) with a in H1 by ring. replace (b - K / 2 + K / 2) with b in H1 by ring. replace (2 * (K / 2)) with K in H1 by field. replace (b - K / 2 - (a - K / 2)) with (b - a) in H1 by ring.
  replace (a - u / 2 + u / 2) with a in H2 by ring. replace (b - u / 2 + u / 2) with b in H2 by ring. replace (2 * (u / 2)) with u in H2 by field. replace (b - u / 2 - (a - u / 2)) with (b - a) in H2 by ring.
  pose proof (img_nested n n t a K b u 0 P ltac:(lra) ltac:(lra) ltac:(lra) ltac:(lra)) as I. rewrite !Rplus_0_r in I.
  assert (I2 : 2 / ((2 * INR n + 1) * K - a) ^ 2 * sqrt t <= c / (2 * INR n + 1)).
  { pose proof (pos_INR n). set (k := 2 * INR n + 1). assert (Hk : 1 <= k) by (unfold k; lra).
    unfold c. replace (2 / (K - a) ^ 2 * sqrt t / k) with (/ ((K - a) ^ 2 * k) * (2 * sqrt t)) by (field; split; lra).
    set (z := k * K - a). assert (Z : (K - a) * k <= z) by (unfold z; nra). assert (Z0 : 0 < z) by (unfold z; nra).
    replace (2 / z ^ 2 * sqrt t) with (/ z ^ 2 * (2 * sqrt t)) by (field; lra). apply Rmult_le_compat_r; [lra|].
    apply Rinv_le_contravar; [apply Rmult_lt_0_compat; [apply pow_lt; lra|lra]|]. assert (0 <= (K - a) * k) by nra.
    assert (((K - a) * k) * ((K - a) * k) <= z * z) by (apply Rmult_le_compat; lra). assert (0 < (K - a) ^ 2) by (apply pow_lt; lra). nra. }
  apply Rabs_def2 in H1. apply Rabs_def2 in H2. fold g in H1, H2. unfold eps in *. lra.
Qed.
Lemma bessel_mono t a b K u p q : 0 < t -> 0 <= a -> 0 < b -> a < K -> b < K -> K <= u -> bessel_escape t a b K p -> bessel_escape t a b u q -> q <= p.
Proof.
  intros P Ha Hb HaK HbK HU Ep Eq. destruct (Req_dec a 0) as [-> |N]; [exact (bessel0_mono t b K u p q P (conj Hb HbK) HU Ep Eq)|].
  destruct (proj2 Ep N) as (p' & Ep' & Fp). destruct (proj2 Eq N) as (q' & Eq' & Fq).
  pose proof (brown_side t a b K u p' q' P ltac:(lra) ltac:(lra) HU Ep' Eq') as L.
  assert (D : 0 < 1 - exp (- (2 * a * b / t))).
  { assert (exp (- (2 * a * b / t)) < 1); [|lra]. rewrite <- exp_0. apply exp_increasing. assert (0 < 2 * a * b / t) by (apply Rdiv_lt_0_compat; [nra|exact P]). lra. }
  enough (1 - p <= 1 - q) by lra. rewrite Fp, Fq. apply Rmult_le_compat_r; [left; apply Rinv_0_lt_compat; exact D|lra].
Qed.
