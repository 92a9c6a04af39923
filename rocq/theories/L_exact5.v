(** A concrete segment for the bridge update on known paths. *)
From Coquelicot Require Import AutoDerive Rcomplements Hierarchy Continuity Derive RInt RInt_analysis Series.
From Coq Require Import Reals List Bool Arith ZArith Lra Lia Psatz.
From Verif Require Import Base Np Rng M_hit M_path M_skel M_seed SpecSkel SpecSeed SpecLaw SpecEst SpecExact L_law L_law4 L_law7 L_law5 L_exact L_exact2 L_exact3.
Import ListNotations.
Local Open Scope R_scope.

(** two seeds: the path of the first is the straight line, that of the second sags below it *)
Definition seed_line : skel := mk_skel [0; 1] [0; 0] (-1) 1 0 None.
Definition seed_sag : skel := mk_skel [0; 1/2; 1] [0; -1/4; 0] (-1/2) 1 (-1/4) None.
Definition two_paths (s : skel) (u : R) : R := if Rltb (k_tight s) (-3/4) then 0 else - (u * (1 - u)).
Definition ramp (x : R) : R := Rmax 0 x.
Definition ramp_bounds : bounds_fun := fun lo hi => (ramp lo, ramp lo, Fin (ramp hi)).

Lemma ramp_bounds_ok : forall lo hi x, lo <= x <= hi -> ramp lo <= ramp x <= ramp hi.
Proof. intros lo hi x H. unfold ramp. split; apply Rle_max_compat_l; lra. Qed.
Lemma below_integral : forall (f : R -> R) (h c : R), 0 <= c <= 1 -> (forall u, 0 < u < 1 -> u < c -> f u <= h) -> (forall u, 0 < u < 1 -> c < u -> h < f u) ->
  is_RInt (fun u => ind (negb (Rltb h (f u)))) 0 1 (1 * c).
Proof.
  intros f h c Hc A B. apply (rint_split _ 0 c 1 ((c - 0) * 1) ((1 - c) * 0)); [ring| |].
  - refine (is_RInt_ext (fun _ => 1) _ _ _ _ _ (is_RInt_const 0 c 1)). rewrite Rmin_left, Rmax_right by lra. intros u Hu.
    destruct (Rltb_dec h (f u)) as [[X _]|[X ->]]; [|reflexivity]. specialize (A u ltac:(lra) ltac:(lra)). lra.
  - refine (is_RInt_ext (fun _ => 0) _ _ _ _ _ (is_RInt_const c 1 0)). rewrite Rmin_left, Rmax_right by lra. intros u Hu.
    destruct (Rltb_dec h (f u)) as [[X ->]|[X _]]; [reflexivity|]. specialize (B u ltac:(lra) ltac:(lra)). lra.
Qed.
Lemma clamp_range : forall h, 0 <= clamp h <= 1.
Proof. intros h. unfold clamp. split; [apply Rmax_l|]. apply Rmax_lub; [lra|apply Rmin_r]. Qed.
Lemma clamp_cases : forall h, (h <= 0 /\ clamp h = 0) \/ (0 <= h <= 1 /\ clamp h = h) \/ (1 <= h /\ clamp h = 1).
Proof.
  intros h. destruct (Rle_lt_dec h 0) as [A|A]; [left; split; [exact A|]; unfold clamp; rewrite Rmin_left, Rmax_left by lra; reflexivity|].
  destruct (Rle_lt_dec h 1) as [B|B]; right; [left; split; [lra|apply clamp_in; lra]|right; split; [lra|]; unfold clamp; rewrite Rmin_right, Rmax_right by lra; reflexivity].
Qed.
Lemma line_regular : regular (fun u => u - 0) 1 (2 - 0) (1/2 - 1 * 0).
Proof.
  split; [lra|]. split; [lra|]. split; [intros; lra|]. split.
  - replace (1/2 - 1 * 0) with (1/2) by ring. apply (is_RInt_ext (fun u => u)); [intros; symmetry; apply Rminus_0_r|]. exact diagonal_integral.
  - exists clamp. split; [apply clamp_continuous|]. intros h _. pose proof (clamp_cases h) as C. apply below_integral; [apply clamp_range| |]; intros u Hu Hc; destruct C as [[C E]|[[C E]|[C E]]]; rewrite E in Hc; lra.
Qed.
Lemma square_integral : is_RInt (fun u : R => u * u) 0 1 (1/3).
Proof.
  replace (1/3) with (minus (1 ^ 3 / 3) (0 ^ 3 / 3)) by (unfold minus, plus, opp; cbn; field).
  apply (is_RInt_derive (V := R_CompleteNormedModule) (fun u => u ^ 3 / 3) (fun u => u * u)).
  - intros x _. auto_derive; [exact Logic.I|field].
  - intros x _. apply continuity_pt_filterlim. reg.
Qed.
Lemma sag_regular : regular (fun u => u * u - 0) 1 (2 - 0) (1/3 - 1 * 0).
Proof.
  split; [lra|]. split; [lra|]. split; [intros; nra|]. split.
  - replace (1/3 - 1 * 0) with (1/3) by ring. apply (is_RInt_ext (fun u => u * u)); [intros; symmetry; apply Rminus_0_r|]. exact square_integral.
  - exists (fun h => sqrt (clamp h)). split; [intros h; apply (continuous_comp clamp sqrt); [apply clamp_continuous|apply continuity_pt_filterlim, continuity_pt_sqrt, clamp_range]|].
    intros h _. pose proof (clamp_cases h) as C. pose proof (clamp_range h) as CR.
    assert (SR : 0 <= sqrt (clamp h) <= 1). { split; [apply sqrt_pos|]. rewrite <- sqrt_1. apply sqrt_le_1_alt. lra. }
    pose proof (sqrt_sqrt (clamp h) ltac:(lra)) as SS.
    apply below_integral; [exact SR| |]; intros u Hu Hc.
    + assert (u * u <= clamp h) by nra. destruct C as [[C E]|[[C E]|[C E]]]; rewrite E in *; nra.
    + assert (clamp h < u * u) by nra. destruct C as [[C E]|[[C E]|[C E]]]; rewrite E in *; nra.
Qed.
Lemma regular_ext : forall (f g : R -> R) T b v, (forall u, 0 <= u <= T -> f u = g u) -> regular f T b v -> regular g T b v.
Proof.
  intros f g T b v E (HT & Hb & Hf & Hv & G & HG & HL). split; [exact HT|]. split; [exact Hb|]. split; [intros u Hu; rewrite <- E by lra; apply Hf; lra|]. split.
  - refine (is_RInt_ext _ _ _ _ _ _ Hv). rewrite Rmin_left, Rmax_right by lra. intros u Hu. apply E. lra.
  - exists G. split; [exact HG|]. intros h Hh. refine (is_RInt_ext _ _ _ _ _ _ (HL h Hh)). rewrite Rmin_left, Rmax_right by lra. intros u Hu. rewrite E by lra. reflexivity.
Qed.
Lemma line_exact : exact_on two_paths ramp ramp_bounds seed_line 1 (sqrt 1) 0 1 (1/2) 0 2.
Proof.
  rewrite sqrt_1. split.
  - exists 0. unfold ramp_bounds, low_z, high_z, seed_line; cbn [k_loose k_tight]. rewrite (Rmin_right 1 (-1)), (Rmax_left 1 (-1)), (Rmin_left 0 1), (Rmax_right 0 1) by lra. unfold ramp. rewrite Rmax_left by lra. rewrite Rmax_right by lra. do 2 f_equal. ring.
  - refine (regular_ext _ _ _ _ _ _ line_regular). intros u Hu. unfold segment_path, path_at, two_paths, seed_line; cbn [k_tight]. rewrite (proj2 (Rltb_true (-1) (-3/4))) by lra. unfold ramp. rewrite Rmax_right; [field|]. unfold Rdiv. rewrite Rinv_1. lra.
Qed.
Lemma sag_exact : exact_on two_paths ramp ramp_bounds seed_sag 1 (sqrt 1) 0 1 (1/3) 0 2.
Proof.
  rewrite sqrt_1. split.
  - exists 0. unfold ramp_bounds, low_z, high_z, seed_sag; cbn [k_loose k_tight]. rewrite (Rmin_right 1 (-1/2)), (Rmax_left 1 (-1/2)), (Rmin_left 0 1), (Rmax_right 0 1) by lra. unfold ramp. rewrite Rmax_left by lra. rewrite Rmax_right by lra. do 2 f_equal. ring.
  - refine (regular_ext _ _ _ _ _ _ sag_regular). intros u Hu. unfold segment_path, path_at, two_paths, seed_sag; cbn [k_tight]. rewrite (proj2 (Rltb_false (-1/2) (-3/4))) by lra. unfold ramp. unfold Rdiv at 1 2 3. rewrite Rinv_1, !Rmult_1_r. rewrite Rmax_right; [ring|]. nra.
Qed.
Lemma tail_limit : forall lam, 0 <= lam -> forall e, 0 < e -> exists n0, forall n, (n0 <= n)%nat -> 0 <= poisson_tail lam n < e.
Proof.
  intros lam Hl e He. pose proof (exp_series lam) as ES. pose proof (exp_pos lam) as EP.
  assert (SE : forall n, sum_n (fun n => lam ^ n / INR (fact n)) n = rs (S n) (fun k => lam ^ k / INR (fact k))).
  { induction n as [|n IH]; [rewrite sum_O, rs_S; unfold rs; cbn [map seq fold_right]; symmetry; apply Rplus_0_l|]. rewrite rs_S, sum_Sn, IH. reflexivity. }
  assert (E' : 0 < e * exp lam) by (apply Rmult_lt_0_compat; assumption).
  destruct (ES (fun x => Rabs (x - exp lam) < e * exp lam)) as [n0 H0].
  { exists (mkposreal _ E'). intros y Hy. exact Hy. }
  exists n0. intros n Hn. split.
  - refine (expect_n_pos _ _ _ _ (tail_series lam n Hl)). intros j _. destruct (j <=? n)%nat; lra.
  - specialize (H0 n Hn). rewrite SE in H0. unfold poisson_tail. fold (rs (S n) (fun k => lam ^ k / INR (fact k))). set (x := rs (S n) _) in *.
    apply Rabs_def2 in H0. assert (EI : exp (- lam) * exp lam = 1) by (rewrite <- exp_plus; replace (- lam + lam) with 0 by ring; apply exp_0).
    apply (Rmult_lt_reg_r (exp lam)); [exact EP|]. replace ((1 - exp (- lam) * x) * exp lam) with (exp lam - exp (- lam) * exp lam * x) by ring. rewrite EI. lra.
Qed.
