(** Laplace transforms of sums of squares of Gaussian coordinates. *)
From Coquelicot Require Import Rcomplements Hierarchy Rbar Lim_seq Continuity Derive RInt RInt_gen RInt_analysis AutoDerive.
From Coq Require Import Reals List Bool Arith Lra Lia Psatz.
From Verif Require Import Base Rng M_mjp SpecLaw L_rng L_law L_law2 L_law5 L_gauss L_gauss2 SpecGauss Mat L_mat.
Import ListNotations.
Local Open Scope R_scope.

Lemma gen_affine : forall (f : R -> R) r c v, 0 < r -> is_RInt_gen f (Rbar_locally m_infty) (Rbar_locally p_infty) v ->
  is_RInt_gen (fun x => f (r * x + c)) (Rbar_locally m_infty) (Rbar_locally p_infty) (v / r).
Proof.
  intros f r c v Hr H.
  assert (G : is_RInt_gen (fun x => r * f (r * x + c)) (Rbar_locally m_infty) (Rbar_locally p_infty) v).
  { intros P HP. destruct (H P HP) as [Q T [M HQ] [N HT] HX].
    apply (Filter_prod _ _ _ (fun a => Q (r * a + c)) (fun b => T (r * b + c))).
    - exists ((M - c) / r). intros x Hx. apply HQ. apply (Rmult_lt_compat_l r) in Hx; [|exact Hr]. replace (r * ((M - c) / r)) with (M - c) in Hx by (field; lra). lra.
    - exists ((N - c) / r). intros x Hx. apply HT. apply (Rmult_lt_compat_l r) in Hx; [|exact Hr]. replace (r * ((N - c) / r)) with (N - c) in Hx by (field; lra). lra.
    - intros a b Ha Hb. destruct (HX _ _ Ha Hb) as (y & HI & HY). cbn [fst snd] in *. exists y. split; [|exact HY].
      refine (is_RInt_ext _ _ _ _ _ _ (is_RInt_comp_lin f r c a b y HI)). intros x _. reflexivity. }
  pose proof (is_RInt_gen_scal _ (/ r) _ G) as K. unfold scal in K; cbn in K; unfold mult in K; cbn in K.
  replace (v / r) with (/ r * v) by (unfold Rdiv; ring).
  refine (is_RInt_gen_ext _ _ _ _ K). apply filter_forall. intros p x _. req. field. lra.
Qed.
(** the mean of exp(-c (m + a x)^2) for a standard normal x *)
Definition chi (s c m : R) : R := / sqrt (1 + 2 * c * s) * exp (- c * m ^ 2 / (1 + 2 * c * s)).
Lemma normal_chi : forall c m a, 0 <= c -> expect_r DNormal (fun x => exp (- c * (m + a * x) ^ 2)) (chi (a ^ 2) c m).
Proof.
  intros c m a Hc. destruct normal_total as (Z & HZ & I0). exists Z. split; [exact HZ|]. split; [exact I0|].
  set (q := 1 + 2 * c * a ^ 2). assert (Hq : 0 < q) by (unfold q; nra).
  assert (Hr : 0 < sqrt q) by (apply sqrt_lt_R0; exact Hq). assert (Hs : sqrt q * sqrt q = q) by (apply sqrt_sqrt; lra).
  pose proof (is_RInt_gen_scal _ (exp (- c * m ^ 2 / q)) _ (gen_affine _ (sqrt q) (2 * c * m * a / sqrt q) _ Hr I0)) as P.
  unfold scal in P; cbn in P; unfold mult in P; cbn in P.
  unfold chi. fold q. replace (Z * (/ sqrt q * exp (- c * m ^ 2 / q))) with (exp (- c * m ^ 2 / q) * (Z / sqrt q)) by (unfold Rdiv; ring).
  refine (is_RInt_gen_ext _ _ _ _ P). apply filter_forall. intros p x _. req.
  unfold normal_weight. rewrite <- !exp_plus. f_equal.
  replace ((sqrt q * x + 2 * c * m * a / sqrt q) ^ 2) with (q * x ^ 2 + 4 * c * m * a * x + 4 * c ^ 2 * m ^ 2 * a ^ 2 / q).
  - unfold q. field. fold q. lra.
  - transitivity ((sqrt q * sqrt q) * x ^ 2 + 4 * c * m * a * x + 4 * c ^ 2 * m ^ 2 * a ^ 2 / (sqrt q * sqrt q)); [rewrite Hs; reflexivity|]. field. lra.
Qed.

(** sums of squares of affine functions of separate draws: draw k only enters the square [own k] *)
Definition part (own : nat -> nat) (a : nat -> R) (n j : nat) (z : list R) : R := rsum n (fun k => if Nat.eqb (own k) j then a k * nth k z 0 else 0).
Definition size (own : nat -> nat) (a : nat -> R) (n j : nat) : R := rsum n (fun k => if Nat.eqb (own k) j then a k ^ 2 else 0).
Lemma size_nonneg : forall own a n j, 0 <= size own a n j.
Proof. intros own a n j. unfold size. induction n as [|n IH]; cbn [rsum]; [lra|]. destruct (Nat.eqb (own n) j); [pose proof (pow2_ge_0 (a n))|]; lra. Qed.
Lemma expect_normal_ext : forall g h v, (forall x, g x = h x) -> expect_r DNormal g v -> expect_r DNormal h v.
Proof.
  intros g h v E (Z & HZ & I0 & I1). exists Z. split; [exact HZ|]. split; [exact I0|]. refine (is_RInt_gen_ext _ _ _ _ I1). apply filter_forall. intros p x _. req. rewrite E. reflexivity.
Qed.
Lemma chi_step : forall s c m a, 0 <= c -> 0 <= s -> expect_r DNormal (fun x => chi s c (m + a * x)) (chi (a ^ 2 + s) c m).
Proof.
  intros s c m a Hc Hs. assert (Hq : 0 < 1 + 2 * c * s) by nra.
  apply (expect_normal_ext (fun x => / sqrt (1 + 2 * c * s) * exp (- (c / (1 + 2 * c * s)) * (m + a * x) ^ 2))).
  - intros x. unfold chi. f_equal. f_equal. field. lra.
  - assert (Hd : 0 <= c / (1 + 2 * c * s)) by (apply Rdiv_le_0_compat; assumption).
    pose proof (expect_r_scal _ _ _ (/ sqrt (1 + 2 * c * s)) (normal_chi _ m a Hd)) as P.
    replace (chi (a ^ 2 + s) c m) with (/ sqrt (1 + 2 * c * s) * chi (a ^ 2) (c / (1 + 2 * c * s)) m); [exact P|].
    unfold chi. rewrite <- Rmult_assoc. assert (Ha : 0 <= a ^ 2) by apply pow2_ge_0.
    assert (E : 1 + 2 * c * (a ^ 2 + s) = (1 + 2 * c * s) * (1 + 2 * (c / (1 + 2 * c * s)) * a ^ 2)) by (field; lra).
    rewrite E, sqrt_mult by nra. rewrite Rinv_mult. f_equal. f_equal. rewrite <- E. field. nra.
Qed.

Lemma rprod_split : forall d f j0, (j0 < d)%nat -> rprod d f = f j0 * rprod d (fun j => if Nat.eqb j j0 then 1 else f j).
Proof.
  induction d as [|d IH]; intros f j0 H; [lia|]. cbn [rprod]. destruct (Nat.eqb_spec d j0) as [->|N].
  - rewrite (rprod_ext j0 (fun j => if Nat.eqb j j0 then 1 else f j) f); [ring|]. intros i Hi. destruct (Nat.eqb_spec i j0); [lia|reflexivity].
  - rewrite (IH f j0) by lia. ring.
Qed.
Lemma chi_0 : forall c m, chi 0 c m = exp (- c * m ^ 2).
Proof. intros c m. unfold chi. replace (1 + 2 * c * 0) with 1 by ring. rewrite sqrt_1, Rinv_1, Rmult_1_l. f_equal. field. Qed.
Lemma exp_sum : forall q (g : nat -> R), exp (rsum q g) = rprod q (fun j => exp (g j)).
Proof. induction q as [|q IH]; intros g; [apply exp_0|]. cbn [rsum rprod]. rewrite exp_plus, IH. reflexivity. Qed.
Lemma normals_chi : forall n d own a c m, 0 <= c -> (forall k, (k < n)%nat -> (own k < d)%nat) ->
  average (draw_rs (repeat DNormal n)) (fun z => exp (- c * rsum d (fun j => (m j + part own a n j z) ^ 2))) (rprod d (fun j => chi (size own a n j) c (m j))).
Proof.
  induction n as [|n IH]; intros d own a c m Hc Ho.
  - cbn [repeat draw_rs]. unfold part, size. cbn [rsum]. apply (average_eq _ _ _ (exp (- c * rsum d (fun j => (m j + 0) ^ 2)))).
    + rewrite <- rsum_scal_l, exp_sum. apply rprod_ext. intros j _. rewrite chi_0, Rplus_0_r. reflexivity.
    + apply (average_ret _ [] (fun _ => exp (- c * rsum d (fun j => (m j + 0) ^ 2)))).
  - cbn [repeat draw_rs]. set (own' := fun k => own (S k)). set (a' := fun k => a (S k)). set (j0 := own 0%nat).
    assert (Hj0 : (j0 < d)%nat) by (apply Ho; lia).
    set (m' := fun x j => m j + (if Nat.eqb j0 j then a 0%nat * x else 0)).
    apply (average_r _ _ _ _ (fun x => rprod d (fun j => chi (size own' a' n j) c (m' x j)))).
    + rewrite (rprod_split d (fun j => chi (size own a (S n) j) c (m j)) j0 Hj0), Rmult_comm.
      apply (expect_normal_ext (fun x => rprod d (fun j => if Nat.eqb j j0 then 1 else chi (size own a (S n) j) c (m j)) * chi (size own' a' n j0) c (m j0 + a 0%nat * x))).
      * intros x. rewrite (rprod_split d (fun j => chi (size own' a' n j) c (m' x j)) j0 Hj0). rewrite Rmult_comm. f_equal.
        -- unfold m'. rewrite Nat.eqb_refl. reflexivity.
        -- apply rprod_ext. intros j Hj. destruct (Nat.eqb_spec j j0) as [|N]; [reflexivity|]. unfold m'. rewrite (proj2 (Nat.eqb_neq j0 j)) by congruence. rewrite Rplus_0_r.
           f_equal. unfold size. rewrite rsum_shift. fold j0. rewrite (proj2 (Nat.eqb_neq j0 j)) by congruence. rewrite Rplus_0_l. reflexivity.
      * apply expect_r_scal. replace (size own a (S n) j0) with (a 0%nat ^ 2 + size own' a' n j0).
        -- apply chi_step; [exact Hc|apply size_nonneg].
        -- unfold size. rewrite rsum_shift. fold j0. rewrite Nat.eqb_refl. reflexivity.
    + intros x _. apply average_map.
      apply (average_ext _ _ (fun z => exp (- c * rsum d (fun j => (m' x j + part own' a' n j z) ^ 2)))).
      * intros z. f_equal. f_equal. apply rsum_ext. intros j Hj. f_equal. unfold m', part. rewrite rsum_shift. fold j0. cbn [nth]. destruct (Nat.eqb j0 j); unfold own', a'; ring.
      * apply IH; [exact Hc|]. intros k Hk. apply Ho. lia.
Qed.
