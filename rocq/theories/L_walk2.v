(** One coordinate: the mass of an interval of proposals is the integral of the step density. *)
From Coquelicot Require Import Coquelicot.
From Coq Require Import Reals List Bool Arith Lra Lia Psatz.
From Verif Require Import Base M_adapt SpecJobs SpecWalk L_adapt L_walk.
From Verif Require Import SpecAdapt Mat.
Local Open Scope R_scope.

Lemma const_deriv : forall lb ub y, exists D, is_derive (fun y => fst (transform_to_const y lb ub)) y D /\ derivable_pt_lim (fun y => fst (transform_to_const y lb ub)) y D /\ Rabs D = exp (- snd (transform_to_const y lb ub)).
Proof.
  intros lb ub y. destruct (const_jac y lb ub) as (D & H1 & H2 & H3). exists D. split; [apply is_derive_Reals; exact H1|]. split; [exact H1|]. rewrite H3, Ropp_involutive, exp_ln; [reflexivity|]. apply Rabs_pos_lt. exact H2.
Qed.
(** substitution with a map of one of the three kinds *)
Lemma substitution : forall (T dT S : R -> R) (g : R -> R) (y a b : R) (up : bool), a <= b -> (forall v, continuous g v) ->
  (forall u, is_derive T u (dT u)) -> (forall u, continuous dT u) -> (forall u, S (T u) = u) -> (forall u, continuous S (T u)) -> (forall u, if up then 0 < dT u else dT u < 0) -> (if up then T a <= T b else T b <= T a) ->
  is_RInt (V := R_NormedModule) (fun x => g (S x - y) / Rabs (dT (S x))) (Rmin (T a) (T b)) (Rmax (T a) (T b)) (RInt (V := R_CompleteNormedModule) (fun u => g (u - y)) a b).
Proof.
  intros T dT S g y a b up Hab CG DT CT ST CS SG MO. set (q := fun x => g (S x - y) / Rabs (dT (S x))).
  assert (NZ : forall u, dT u <> 0) by (intros u; specialize (SG u); destruct up; lra).
  assert (CQ : forall u, continuous q (T u)).
  { intros u. unfold q, Rdiv. apply (continuous_mult (K := R_AbsRing) (fun x => g (S x - y)) (fun x => / Rabs (dT (S x)))).
    - apply (continuous_comp (fun x => S x - y) g); [apply (continuous_minus (V := R_NormedModule) S (fun _ => y)); [apply CS|apply continuous_const]|apply CG].
    - apply (continuous_comp (fun x => Rabs (dT (S x))) Rinv).
      + apply (continuous_comp (fun x => dT (S x)) Rabs); [|apply continuous_Rabs]. apply (continuous_comp S dT); [apply CS|apply CT].
      + apply continuous_Rinv. apply Rabs_no_R0. apply NZ. }
  assert (IQ : is_RInt (V := R_NormedModule) (fun u => scal (dT u) (q (T u))) a b (RInt (V := R_CompleteNormedModule) q (T a) (T b))).
  { apply (is_RInt_comp (V := R_CompleteNormedModule) q T dT a b); [intros u _; apply CQ|intros u _; split; [apply DT|apply CT]]. }
  assert (XQ : ex_RInt (V := R_NormedModule) q (T a) (T b)).
  { apply (ex_RInt_continuous (V := R_CompleteNormedModule)). intros x Hx. 
    assert (CTT : forall c, continuous T c) by (intros c; apply (ex_derive_continuous (V := R_NormedModule)); exists (dT c); apply DT).
    assert (exists u, T u = x) as [u <-]; [|apply CQ].
    destruct (IVT_gen T a b x) as (u & _ & E); [intros c; apply continuity_pt_filterlim, CTT|exact Hx|exists u; exact E]. }
  assert (EV : RInt (V := R_CompleteNormedModule) (fun u => g (u - y)) a b = (if up then 1 else -1) * RInt (V := R_CompleteNormedModule) q (T a) (T b)).
  { apply is_RInt_unique. pose proof (is_RInt_scal (V := R_NormedModule) _ _ _ (if up then 1 else -1) _ IQ) as IS. refine (is_RInt_ext (V := R_NormedModule) _ _ _ _ _ _ IS).
    intros u _. unfold scal; cbn; unfold mult; cbn. unfold q. rewrite ST. specialize (SG u). destruct up; [rewrite Rabs_pos_eq by lra|rewrite Rabs_left by lra]; field; lra. }
  rewrite EV. destruct up.
  - rewrite Rmin_left, Rmax_right, Rmult_1_l by exact MO. apply (RInt_correct (V := R_CompleteNormedModule)). exact XQ.
  - rewrite Rmin_right, Rmax_left by exact MO. pose proof (is_RInt_swap (V := R_NormedModule) _ _ _ _ (RInt_correct (V := R_CompleteNormedModule) _ _ _ XQ)) as SW.
    match type of SW with is_RInt _ _ _ ?l => match goal with |- is_RInt _ _ _ ?r => replace r with l; [exact SW|] end end. unfold opp; cbn. ring.
Qed.
Lemma walk_density : forall lb ub (g : R -> R) y a b, (forall v, continuous g v) -> a <= b -> let T u := fst (transform_to_const u lb ub) in
  exists q : R -> R, (forall u, step_density 1 (fun _ => lb) (fun _ => ub) (fun v => g (v 0%nat)) (fun _ => T y) (fun _ => T u) (q (T u))) /\
    is_RInt (V := R_NormedModule) q (Rmin (T a) (T b)) (Rmax (T a) (T b)) (RInt (V := R_CompleteNormedModule) (fun u => g (u - y)) a b).
Proof.
  intros lb ub g y a b CG Hab T.
  assert (X : exists (dT S : R -> R) (up : bool), (forall u, is_derive T u (dT u)) /\ (forall u, continuous dT u) /\ (forall u, S (T u) = u) /\ (forall u, continuous S (T u)) /\ (forall u, if up then 0 < dT u else dT u < 0) /\ (if up then T a <= T b else T b <= T a)).
  { assert (ID : forall u, T u = u \/ True) by auto. clear ID.
    assert (KI : (forall u, T u = u) \/ (exists l, forall u, T u = l + exp u) \/ (exists r, forall u, T u = r - exp u)).
    { unfold T, transform_to_const. destruct lb as [|l|], ub as [|r|]; cbn; eauto. }
    destruct KI as [E|[[l E]|[r E]]].
    - exists (fun _ => 1), (fun x => x), true. split; [intros u; apply (is_derive_ext (fun x => x)); [intros t; symmetry; apply E|apply is_derive_Reals, derivable_pt_lim_id]|]. split; [intros u; apply continuous_const|]. split; [exact E|]. split; [intros u; apply continuous_id|]. split; [intros u; lra|]. rewrite !E. exact Hab.
    - exists exp, (fun x => ln (x - l)), true. split; [|split; [|split; [|split; [|split]]]].
      + intros u. apply (is_derive_ext (fun x => l + exp x)); [intros t; symmetry; apply E|]. auto_derive; [exact Logic.I|]. ring.
      + intros u. apply continuous_exp.
      + intros u. rewrite E. replace (l + exp u - l) with (exp u) by ring. apply ln_exp.
      + intros u. rewrite E. apply (continuous_comp (fun x => x - l) ln); [apply (continuous_minus (V := R_NormedModule) (fun x => x) (fun _ => l)); [apply continuous_id|apply continuous_const]|]. apply (ex_derive_continuous (V := R_NormedModule)). auto_derive. replace (l + exp u - l) with (exp u) by ring. apply exp_pos.
      + intros u. apply exp_pos.
      + rewrite !E. destruct Hab as [Hab|Hab]; [apply exp_increasing in Hab; lra|rewrite Hab; lra].
    - exists (fun u => - exp u), (fun x => ln (r - x)), false. split; [|split; [|split; [|split; [|split]]]].
      + intros u. apply (is_derive_ext (fun x => r - exp x)); [intros t; symmetry; apply E|]. auto_derive; [exact Logic.I|]. ring.
      + intros u. apply (continuous_opp (V := R_NormedModule)). apply continuous_exp.
      + intros u. rewrite E. replace (r - (r - exp u)) with (exp u) by ring. apply ln_exp.
      + intros u. rewrite E. apply (continuous_comp (fun x => r - x) ln); [apply (continuous_minus (V := R_NormedModule) (fun _ => r) (fun x => x)); [apply continuous_const|apply continuous_id]|]. apply (ex_derive_continuous (V := R_NormedModule)). auto_derive. replace (r - (r - exp u)) with (exp u) by ring. apply exp_pos.
      + intros u. pose proof (exp_pos u). lra.
      + rewrite !E. destruct Hab as [Hab|Hab]; [apply exp_increasing in Hab; lra|rewrite Hab; lra]. }
  destruct X as (dT & S & up & DT & CT & ST & CS & SG & MO). exists (fun x => g (S x - y) / Rabs (dT (S x))). split.
  - intros u. exists (fun _ => y), (fun _ => u), (fun _ => dT u). split.
    + intros i _. split; [reflexivity|]. split; [reflexivity|]. apply is_derive_Reals. exact (DT u).
    + rewrite ST. unfold product. cbn. rewrite Rmult_1_r. reflexivity.
  - exact (substitution T dT S g y a b up Hab CG DT CT ST CS SG MO).
Qed.
From Verif Require Import Np Rng M_mjp M_hit M_path M_skel M_seed M_sw SpecExact SpecExact2 L_exact5 L_exact11 M_full L_adapt2.
Import ListNotations.
(** regime 0 of the two pieces, standing at 1 with the bounds (0, oo), proposes 2; the reverse proposes 1 *)
Definition ex_lb (_ : nat) : ext := Fin 0.
Definition ex_ub (_ : nat) : ext := PosInf.
Definition ex_sp : mv := mv_init (fun _ => 1) (1/5).
Definition ex_gauss (v : vec) : R := exp (- (v 0%nat) ^ 2).
Lemma ex_walk : even_density 1 ex_gauss /\ nth_error [[1]; [5]] 0 = Some (map (rw_state (mv_rw ex_sp)) (seq 0 1)) /\
  (forall j, (j < 1)%nat -> inside (ex_lb j) (ex_ub j) (rw_state (mv_rw ex_sp) j)) /\ (forall j, (j < 1)%nat -> inside (ex_lb j) (ex_ub j) (nth j [2] 0)) /\
  (forall o k, sampler_propose 1 ex_lb ex_ub (fun _ _ _ => ln 2) ex_sp o k = (Ok ([2], - ln 2, 0), k)) /\
  (forall o k, sampler_propose 1 ex_lb ex_ub (fun _ _ _ => 0) (standing ex_sp (fun j => nth j [2] 0)) o k = (Ok (map (rw_state (mv_rw ex_sp)) (seq 0 1), 0, - ln 2), k)) /\
  step_density 1 ex_lb ex_ub ex_gauss (rw_state (mv_rw ex_sp)) (fun j => nth j [2] 0) (exp (- (ln 2) ^ 2) / 2) /\
  step_density 1 ex_lb ex_ub ex_gauss (fun j => nth j [2] 0) (rw_state (mv_rw ex_sp)) (exp (- (ln 2) ^ 2)).
Proof.
  assert (E2 : exp (ln 2) = 2) by (apply exp_ln; lra).
  assert (DE : forall y, derivable_pt_lim (fun y => 0 + exp y) y (exp y)).
  { intros y. rewrite <- (Rplus_0_l (exp y)). apply (derivable_pt_lim_plus (fun _ => 0) exp); [apply derivable_pt_lim_const|apply derivable_pt_lim_exp]. }
  assert (NL : forall x, 0 < x -> transform_to_reals x (Fin 0) PosInf = Some (ln x, - ln x)).
  { intros x Hx. unfold transform_to_reals, np_log. rewrite Rminus_0_r. destruct (Rltb 0 x) eqn:E; [reflexivity|]. exfalso. apply not_true_iff_false in E. apply E. apply Rltb_true. exact Hx. }
  split; [intros u w H; unfold ex_gauss; rewrite (H 0%nat) by lia; f_equal; ring|]. split; [reflexivity|].
  split; [intros j _; unfold ex_lb, ex_ub, inside; cbn; lra|]. split; [intros j Hj; destruct j as [|j]; [|lia]; unfold ex_lb, ex_ub, inside; cbn; lra|].
  split; [|split; [|split]].
  - intros o k. unfold sampler_propose, mv_propose, bind, ret, to_reals_vec, ex_lb, ex_ub, ex_sp, row. cbn [seq forallb mv_init mv_rw rw_init rw_state map andb]. rewrite (NL 1) by lra. cbn [andb transform_to_const fst snd rsum map]. rewrite E2, ln_1. repeat f_equal; ring.
  - intros o k. unfold sampler_propose, mv_propose, bind, ret, to_reals_vec, ex_lb, ex_ub, ex_sp, standing, row. cbn [seq forallb mv_init mv_rw rw_init rw_state map andb nth]. rewrite (NL 2) by lra. cbn [andb transform_to_const fst snd rsum map nth]. rewrite (NL 2) by lra. rewrite exp_0. repeat f_equal; ring.
  - exists (fun _ => 0), (fun _ => ln 2), (fun _ => 2). split.
    + intros i Hi. destruct i as [|i]; [|lia]. unfold constrain, ex_lb, ex_ub; cbn. rewrite E2, exp_0. split; [ring|]. split; [ring|]. pose proof (DE (ln 2)) as D. rewrite E2 in D. exact D.
    + unfold ex_gauss, product. cbn [seq map fold_right]. rewrite Rminus_0_r, Rabs_pos_eq, Rmult_1_r by lra. reflexivity.
  - exists (fun _ => ln 2), (fun _ => 0), (fun _ => 1). split.
    + intros i Hi. destruct i as [|i]; [|lia]. unfold constrain, ex_lb, ex_ub; cbn. rewrite E2, exp_0. split; [ring|]. split; [ring|]. pose proof (DE 0) as D. rewrite exp_0 in D. exact D.
    + unfold ex_gauss, product. cbn [seq map fold_right]. rewrite Rabs_pos_eq, Rmult_1_r by lra. replace (0 - ln 2) with (- ln 2) by ring. replace ((- ln 2) ^ 2) with (ln 2 ^ 2) by ring. field.
Qed.
Lemma step_unique : forall d lb ub g x x', (forall i, (i < d)%nat -> inside (lb i) (ub i) (x i)) -> (forall i, (i < d)%nat -> inside (lb i) (ub i) (x' i)) ->
  (exists v, step_density d lb ub g x x' v) /\ (even_density d g -> forall v w, step_density d lb ub g x x' v -> step_density d lb ub g x x' w -> v = w).
Proof.
  intros d lb ub g x x' I I'. split; [exact (step_exists d lb ub g x x' I I')|]. intros EV v w (y & y' & D & H & E) W.
  rewrite (step_value d lb ub g x x' y y' w EV (fun i Hi => proj1 (H i Hi)) (fun i Hi => proj1 (proj2 (H i Hi))) W).
  apply (step_value d lb ub g x x' y y' v EV (fun i Hi => proj1 (H i Hi)) (fun i Hi => proj1 (proj2 (H i Hi)))). exists y, y', D. split; assumption.
Qed.
