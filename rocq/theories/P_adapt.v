(** Property theorems C23 - C28, C66, C68. *)
From Coq Require Import Reals List ZArith Bool Arith Lia Lra Sorted.
From Verif Require Import Base Np Rng Mat M_mjp SpecMjp SpecLin M_adapt SpecAdapt L_adapt L_adapt2 L_demo L_lindemo L_simdemo.
Import ListNotations.
Local Open Scope R_scope.

(** C23: the two transforms are inverse to each other, the result is inside the bounds and
    the log-Jacobian is minus the log of the absolute derivative. *)
Theorem C23_const_of_reals : forall x lb ub, inside lb ub x ->
  exists y j, transform_to_reals x lb ub = Some (y, j) /\ transform_to_const y lb ub = (x, j).
Proof. exact const_reals. Qed.
Print Assumptions C23_const_of_reals.
Theorem C23_reals_of_const : forall y lb ub,
  transform_to_reals (fst (transform_to_const y lb ub)) lb ub = Some (y, snd (transform_to_const y lb ub)).
Proof. exact reals_const. Qed.
Print Assumptions C23_reals_of_const.
Theorem C23_inside : forall y lb ub, ~ both_finite lb ub -> inside lb ub (fst (transform_to_const y lb ub)).
Proof. exact const_inside. Qed.
Print Assumptions C23_inside.
Theorem C23_jacobian : forall y lb ub, exists d,
  derivable_pt_lim (fun y => fst (transform_to_const y lb ub)) y d /\ d <> 0 /\
  snd (transform_to_const y lb ub) = - ln (Rabs d).
Proof. exact const_jac. Qed.
Print Assumptions C23_jacobian.
(** and so for a whole proposal of the multivariate sampler *)
Theorem C23_proposal : forall dim lb ub mvn sp o k,
  (forall i, (i < dim)%nat -> ~ both_finite (lb i) (ub i)) ->
  (forall i, (i < dim)%nat -> inside (lb i) (ub i) (rw_state (mv_rw sp) i)) ->
  exists prop lf lb_ (df db : vec), fst (mv_propose dim lb ub mvn sp o k) = Ok (Some (prop, lf, lb_)) /\
    (forall i, (i < dim)%nat -> inside (lb i) (ub i) (prop i)) /\
    (forall i, (i < dim)%nat -> exists y, prop i = fst (transform_to_const y (lb i) (ub i)) /\
       derivable_pt_lim (fun y => fst (transform_to_const y (lb i) (ub i))) y (df i) /\ df i <> 0) /\
    (forall i, (i < dim)%nat -> exists y, rw_state (mv_rw sp) i = fst (transform_to_const y (lb i) (ub i)) /\
       derivable_pt_lim (fun y => fst (transform_to_const y (lb i) (ub i))) y (db i) /\ db i <> 0) /\
    lf = - rsum dim (fun i => ln (Rabs (df i))) /\ lb_ = - rsum dim (fun i => ln (Rabs (db i))).
Proof. exact mv_propose_ok. Qed.
Print Assumptions C23_proposal.
Example C23_example : inside (Fin 0) PosInf (1/2) /\ ~ both_finite (Fin 0) PosInf.
Proof. split; [split; simpl; [lra|auto]|]. intros (l & u & _ & H). discriminate. Qed.

(** C24: two finite bounds are not respected. *)
Theorem C24_two_bounds_ignored : forall l u, l < u ->
  (forall y, transform_to_const y (Fin l) (Fin u) = (y, 0)) /\
  exists y, ~ (l <= fst (transform_to_const y (Fin l) (Fin u)) <= u).
Proof. exact const_not_bounded. Qed.
Print Assumptions C24_two_bounds_ignored.
Theorem C24_bounded_proposal_refuted : exists dim lb ub mvn sp,
  (forall i, (i < dim)%nat -> inside (lb i) (ub i) (rw_state (mv_rw sp) i)) /\
  forall o k, exists prop lf lb_, fst (mv_propose dim lb ub mvn sp o k) = Ok (Some (prop, lf, lb_)) /\
   exists i, (i < dim)%nat /\ ~ inside (lb i) (ub i) (prop i).
Proof. exact mv_propose_out. Qed.
Print Assumptions C24_bounded_proposal_refuted.

(** C25: after any history h of adapt calls, k updates took place, the j-th of them at call
    number tau air j = 1^air + ... + j^air. *)
Theorem C25_schedule_rw : forall (T : Type) (opt decay : R) air (x0 : T) scale0 h,
  let sp := run (rw_adapt opt decay air) (rw_init x0 opt scale0) h in
  rw_emp sp = opt :: map snd h /\ rw_state sp = last (map fst h) x0 /\
  exists k, (tau air k <= length h < tau air (S k))%nat /\ length (rw_scale sp) = (k + 1)%nat /\
    nth 0 (rw_scale sp) 0 = scale0 /\
    forall j, (1 <= j <= k)%nat -> nth j (rw_scale sp) 0 - nth (j - 1) (rw_scale sp) 0
       = 1 / Rpower (INR (j + 1)) decay * (mean (entries (tau air (j - 1)) (tau air j) (opt :: map snd h)) - opt).
Proof. exact @rw_schedule. Qed.
Print Assumptions C25_schedule_rw.
Theorem C25_schedule_mjp : forall (T : Type) (opt decay : R) air (x0 : T) scale0 h,
  let sp := run (mjp_adapt opt decay air) (rw_init x0 opt scale0) h in
  rw_emp sp = opt :: map snd h /\ rw_state sp = last (map fst h) x0 /\
  exists k, (tau air k <= length h < tau air (S k))%nat /\ length (rw_scale sp) = (k + 1)%nat /\
    nth 0 (rw_scale sp) 0 = scale0 /\
    forall j, (1 <= j <= k)%nat -> nth j (rw_scale sp) 0 - nth (j - 1) (rw_scale sp) 0
       = 1 / Rpower (INR (j + 1)) decay * (nth (tau air j - 1) (map snd h) 0 - opt).
Proof. exact @mjp_schedule. Qed.
Print Assumptions C25_schedule_mjp.
(** the multivariate sampler has the schedule of rw_adapt; it never fails on samples inside
    the bounds, its proposal covariance is symmetric positive definite, and its mean is the
    sum of the transformed samples over one more than their number *)
Theorem C25_schedule_mv : forall dim lb ub opt decay air x0 h,
  (forall x p, In (x, p) h -> forall i, (i < dim)%nat -> inside (lb i) (ub i) (x i)) ->
  exists sp, run_opt (mv_adapt dim lb ub opt decay air) (mv_init x0 opt) h = Some sp /\
    symmetric dim (mv_prop_cov sp) /\
    (forall x, (exists i, (i < dim)%nat /\ x i <> 0) -> 0 < quad dim (mv_prop_cov sp) x) /\
    mv_rw sp = run (rw_adapt opt decay air) (rw_init x0 opt (- (1))) h /\
    exists reals, length reals = length h /\
     (forall k x p y, nth_error h k = Some (x, p) -> nth_error reals k = Some y ->
        forall i, (i < dim)%nat -> fst (transform_to_const (y i) (lb i) (ub i)) = x i) /\
     (forall i, (i < dim)%nat -> mv_mean sp i = fold_right Rplus 0 (map (fun o => o i) reals) / INR (length h + 1)).
Proof. exact mv_run_cov. Qed.
Print Assumptions C25_schedule_mv.
Theorem C25_triangular : forall k, (2 * tau 1 k = k * (k + 1))%nat.
Proof. exact tau_triangular. Qed.
Print Assumptions C25_triangular.
Theorem C25_step_bound_rw : forall (T : Type) (opt decay : R) air (x0 : T) scale0 h, in01 opt -> Forall in01 (map snd h) ->
  let sp := run (rw_adapt opt decay air) (rw_init x0 opt scale0) h in
  forall j, (1 <= j < length (rw_scale sp))%nat ->
    Rabs (nth j (rw_scale sp) 0 - nth (j - 1) (rw_scale sp) 0) <= Rpower (INR (j + 1)) (- decay).
Proof. exact @rw_steps. Qed.
Print Assumptions C25_step_bound_rw.
Theorem C25_step_bound_mjp : forall (T : Type) (opt decay : R) air (x0 : T) scale0 h, in01 opt -> Forall in01 (map snd h) ->
  let sp := run (mjp_adapt opt decay air) (rw_init x0 opt scale0) h in
  forall j, (1 <= j < length (rw_scale sp))%nat ->
    Rabs (nth j (rw_scale sp) 0 - nth (j - 1) (rw_scale sp) 0) <= Rpower (INR (j + 1)) (- decay).
Proof. exact @mjp_steps. Qed.
Print Assumptions C25_step_bound_mjp.
Example C25_example : in01 (234/1000) /\ Forall in01 (map snd [(0%nat, 1); (1%nat, 0)]) /\ (tau 1 1 <= 2 < tau 1 2)%nat.
Proof. split; [split; lra|]. split; [repeat constructor; simpl; lra|simpl; lia]. Qed.

(** C26: the acceptance recorded at the end of a window is averaged in two updates, and
    the first window contains the initial value. *)
Theorem C26_windows_overlap : forall (T : Type) (opt decay : R) air (x0 : T) scale0 h j,
  (1 <= j)%nat -> (tau air (j + 1) <= length h)%nat ->
  let sp := run (rw_adapt opt decay air) (rw_init x0 opt scale0) h in
  exists p w1 w2, nth_error (map snd h) (tau air j - 1) = Some p /\
    nth j (rw_scale sp) 0 - nth (j - 1) (rw_scale sp) 0 = 1 / Rpower (INR (j + 1)) decay * (mean (w1 ++ [p]) - opt) /\
    nth (j + 1) (rw_scale sp) 0 - nth j (rw_scale sp) 0 = 1 / Rpower (INR (j + 2)) decay * (mean (p :: w2) - opt).
Proof. exact @rw_overlap. Qed.
Print Assumptions C26_windows_overlap.
Theorem C26_first_window : forall (T : Type) (opt decay : R) air (x0 : T) scale0 h p r, map snd h = p :: r ->
  let sp := run (rw_adapt opt decay air) (rw_init x0 opt scale0) h in
  nth 1 (rw_scale sp) 0 - scale0 = 1 / Rpower 2 decay * (mean [opt; p] - opt).
Proof. exact @rw_first_window. Qed.
Print Assumptions C26_first_window.
(** changing one acceptance changes two updates *)
Theorem C26_single_window_refuted : exists h1 h2 : list (nat * R), length h1 = length h2 /\
  (forall i, i <> 0%nat -> nth_error h1 i = nth_error h2 i) /\
  let sp h := run (rw_adapt (1/5) 1 1) (rw_init 0%nat (1/5) 0) h in
  nth 1 (rw_scale (sp h1)) 0 - nth 0 (rw_scale (sp h1)) 0 <> nth 1 (rw_scale (sp h2)) 0 - nth 0 (rw_scale (sp h2)) 0 /\
  nth 2 (rw_scale (sp h1)) 0 - nth 1 (rw_scale (sp h1)) 0 <> nth 2 (rw_scale (sp h2)) 0 - nth 1 (rw_scale (sp h2)) 0.
Proof. exact overlap_witness. Qed.
Print Assumptions C26_single_window_refuted.
Example C26_example : (tau 1 (1 + 1) <= length [(0%nat, 1); (1%nat, 0); (2%nat, 1)])%nat /\ map snd [(0%nat, 1); (1%nat, 0); (2%nat, 1)] = 1 :: [0; 1].
Proof. split; [simpl; lia|reflexivity]. Qed.

(** C27: the scalar sampler never proposes. *)
Theorem C27_scalar_proposal_raises : forall lb ub normal sp o k, fst (rw_propose lb ub normal sp o k) = Raise TypeError.
Proof. exact rw_propose_raises. Qed.
Print Assumptions C27_scalar_proposal_raises.
Theorem C27_ito_update_params_raises : forall (X : Type) lb ub normal samplers n (rest : nat -> R * R * R -> M X) o k, valid o ->
  length samplers = n -> (0 < n)%nat -> fst (ito_update_params lb ub normal samplers n rest o k) = Raise TypeError.
Proof. exact @ito_params_raise. Qed.
Print Assumptions C27_ito_update_params_raises.
Example C27_example : exists o, valid o /\ length [rw_init 0 (1/5) 0] = 1%nat.
Proof. destruct generic_exists as (o & H & _). eauto. Qed.

(** C28: sequential mean and covariance. *)
Theorem C28_mean_and_covariance : forall dim obs m C, obs <> [] -> symmetric dim C -> (forall x, 0 <= quad dim C x) ->
  let s := fold_normal 1 obs (m, C) in
  (forall i, fst s i = sample_mean obs i) /\ symmetric dim (snd s) /\ (forall x, 0 <= quad dim (snd s) x).
Proof. exact normal_all. Qed.
Print Assumptions C28_mean_and_covariance.
(** continuing from k earlier observations *)
Theorem C28_mean_continued : forall obs k m C i,
  INR (k + length obs) * fst (fold_normal (S k) obs (m, C)) i = INR k * m i + fold_right Rplus 0 (map (fun o => o i) obs).
Proof. exact fold_mean. Qed.
Print Assumptions C28_mean_continued.
Theorem C28_covariance_continued : forall obs k m C i j,
  INR (k + length obs) * snd (fold_normal (S k) obs (m, C)) i j = INR k * C i j + errors k m obs i j.
Proof. exact fold_cov. Qed.
Print Assumptions C28_covariance_continued.
(** with the count used by the doctest the mean is wrong unless the new observation equals
    the old mean *)
Theorem C28_doctest_count_wrong : forall (y1 y2 y3 : vec) C i, y3 i <> sample_mean [y1; y2] i ->
  fst (fold_normal 2 [y3] (sample_mean [y1; y2], C)) i <> sample_mean [y1; y2; y3] i.
Proof. exact doctest_always_wrong. Qed.
Print Assumptions C28_doctest_count_wrong.
Theorem C28_sample_covariance_refuted : exists obs : list R, exists C,
  snd (fold_normal 1 (map (fun x _ => x) obs) ((fun _ => hd 0 obs), C)) 0%nat 0%nat <> sample_var obs.
Proof. exact cov_refuted. Qed.
Print Assumptions C28_sample_covariance_refuted.
Example C28_example : symmetric 2 mident /\ forall x, 0 <= quad 2 mident x.
Proof. split; [intros i j _ _; unfold mident; rewrite Nat.eqb_sym; auto|]. intros x. rewrite quad_ident. apply sq_nonneg. Qed.

(** C66: the proposal is not a function of the generator but of numpy's global state. *)
Theorem C66_generator_not_used : forall dim lb ub mvn sp o k o' k',
  fst (mv_propose dim lb ub mvn sp o k) = fst (mv_propose dim lb ub mvn sp o' k') /\ snd (mv_propose dim lb ub mvn sp o k) = k.
Proof. exact mv_propose_ignores. Qed.
Print Assumptions C66_generator_not_used.
Theorem C66_reproducible_refuted : exists dim lb ub sp mvn mvn',
  (forall i, (i < dim)%nat -> inside (lb i) (ub i) (rw_state (mv_rw sp) i)) /\
  forall o k, snd (mv_propose dim lb ub mvn sp o k) = k /\ snd (mv_propose dim lb ub mvn' sp o k) = k /\
  exists p p' f f' b b', fst (mv_propose dim lb ub mvn sp o k) = Ok (Some (p, f, b)) /\
   fst (mv_propose dim lb ub mvn' sp o k) = Ok (Some (p', f', b')) /\ p 0%nat <> p' 0%nat.
Proof. exact mv_propose_global. Qed.
Print Assumptions C66_reproducible_refuted.

(** C68: with two or three observations the regime proposal raises ValueError; with four or
    more it returns a well-formed path over the same horizon that keeps the regime at each
    conditioning time, and those are interior observation times. *)
Theorem C68_short_series_raises : forall L fuel sp dim lam ts o k, (length ts < 4)%nat ->
  fst (hidden_propose L fuel sp dim lam ts o k) = Raise ValueError.
Proof. exact hidden_short. Qed.
Print Assumptions C68_short_series_raises.
Theorem C68_long_series : forall L fuel sp dim lam ts, (2 <= dim)%nat -> generator dim lam -> pos_off dim lam -> expm_exact L ->
  solve_ok L dim (stat_matrix lam) stat_rhs ->
  wf_skel (rw_state sp) -> Forall (fun i => (i < dim)%nat) (sk_x (rw_state sp)) ->
  (4 <= length ts)%nat -> StronglySorted Rlt ts -> hd 0 ts = 0 -> last ts 0 = sk_fin (rw_state sp) ->
  safe_if generic (hidden_propose L fuel sp dim lam ts)
    (fun r => let '(s', cond) := r in wf_skel s' /\ sk_fin s' = sk_fin (rw_state sp) /\ Forall (fun i => (i < dim)%nat) (sk_x s') /\
       incl cond (pyslice ts 2 (-2)) /\ StronglySorted Rlt cond /\
       forall b i, In b cond -> (state_at (rw_state sp) b i <-> state_at s' b i)).
Proof. exact hidden_propose_ok. Qed.
Print Assumptions C68_long_series.
Example C68_example : (2 <= 2)%nat /\ generator 2 gen2 /\ pos_off 2 gen2 /\ expm_exact la0 /\
  StronglySorted Rlt [0; 1; 2; 3] /\ hd 0 [0; 1; 2; 3] = 0 /\ last [0; 1; 2; 3] 0 = 3 /\
  exists o, valid o /\ generic o.
Proof.
  split; [lia|]. split; [apply gen2_generator|]. split; [apply gen2_pos|]. split; [apply la0_expm|].
  split; [repeat constructor; lra|]. split; [reflexivity|]. split; [reflexivity|]. apply generic_exists.
Qed.
