(** Lemmas about ctbayes/misc/adapt.py: averages and proposals. *)
From Coq Require Import Reals List ZArith Bool Arith Lia Lra Sorted.
From Verif Require Import Base Np Rng Mat M_mjp SpecMjp SpecLin M_adapt SpecAdapt L_rng L_mat L_list L_path L_prop L_prop2 L_adapt.
Import ListNotations.
Local Open Scope R_scope.

(** ** seq_update_normal *)
Lemma quad_update dim o n m C x : n <> 0 ->
  quad dim (snd (seq_update_normal o n m C)) x
  = (1 - / n) * quad dim C x + / n * (rsum dim (fun i => x i * (o i - m i))) ^ 2.
Proof.
  intros Hn. unfold quad, seq_update_normal; cbn [snd].
  transitivity (rsum dim (fun i => (1 - / n) * rsum dim (fun j => x i * C i j * x j)
     + / n * ((x i * (o i - m i)) * rsum dim (fun j => x j * (o j - m j))))).
  - apply rsum_ext. intros i Hi. rewrite <- !rsum_scal_l, <- rsum_plus. apply rsum_ext. intros j Hj. field. auto.
  - rewrite rsum_plus, !rsum_scal_l, rsum_scal_r. ring.
Qed.
Lemma update_sym dim o n m C : symmetric dim C -> symmetric dim (snd (seq_update_normal o n m C)).
Proof. intros H i j Hi Hj. unfold seq_update_normal; cbn [snd]. rewrite (H i j) by auto. unfold Rdiv. ring. Qed.
Lemma inv_range n : 1 <= n -> 0 < / n <= 1.
Proof. intros H. split; [apply Rinv_0_lt_compat; lra|]. rewrite <- Rinv_1. apply Rinv_le_contravar; lra. Qed.
Lemma update_psd dim o n m C : 1 <= n -> (forall x, 0 <= quad dim C x) -> forall x, 0 <= quad dim (snd (seq_update_normal o n m C)) x.
Proof.
  intros Hn H x. rewrite quad_update by lra. pose proof (inv_range n Hn). pose proof (H x).
  assert (0 <= (1 - / n) * quad dim C x) by (apply Rmult_le_pos; lra).
  assert (0 <= / n * rsum dim (fun i => x i * (o i - m i)) ^ 2) by (apply Rmult_le_pos; [lra|apply pow2_ge_0]). lra.
Qed.

(** folding with n counting from k+1 *)
Lemma fold_mean obs : forall k m C i, 
  INR (k + length obs) * fst (fold_normal (S k) obs (m, C)) i = INR k * m i + fold_right Rplus 0 (map (fun o => o i) obs).
Proof.
  induction obs as [|o obs IH]; intros k m C i.
  - cbn [fold_normal fst length map fold_right]. rewrite Nat.add_0_r. ring.
  - cbn [fold_normal fst snd]. unfold seq_update_normal. replace (k + length (o :: obs))%nat with (S k + length obs)%nat by (simpl; lia).
    rewrite IH. cbn [map fold_right]. rewrite S_INR. pose proof (pos_INR k). field. lra.
Qed.
Lemma fold_sample_mean obs m C i : obs <> [] -> fst (fold_normal 1 obs (m, C)) i = sample_mean obs i.
Proof.
  intros H. pose proof (fold_mean obs 0 m C i) as E. cbn [Nat.add] in E. rewrite Rmult_0_l, Rplus_0_l in E.
  unfold sample_mean. assert (0 < INR (length obs)) by (apply lt_0_INR; destruct obs; [contradiction|simpl; lia]).
  rewrite <- E. field. lra.
Qed.
(** the covariance is the average of the squared one-step prediction errors *)
Lemma fold_cov obs : forall k m C i j, 
  INR (k + length obs) * snd (fold_normal (S k) obs (m, C)) i j = INR k * C i j + errors k m obs i j.
Proof.
  induction obs as [|o obs IH]; intros k m C i j.
  - cbn [fold_normal snd length errors]. rewrite Nat.add_0_r. ring.
  - cbn [fold_normal fst snd]. unfold seq_update_normal. replace (k + length (o :: obs))%nat with (S k + length obs)%nat by (simpl; lia).
    rewrite IH. cbn [errors]. rewrite S_INR. pose proof (pos_INR k). field. lra.
Qed.
Lemma fold_sym dim obs : forall k m C, symmetric dim C -> symmetric dim (snd (fold_normal (S k) obs (m, C))).
Proof. induction obs as [|o obs IH]; intros k m C H; cbn [fold_normal fst snd]; auto. apply IH. apply (update_sym dim o (INR (S k)) m C H). Qed.
Lemma fold_psd dim obs : forall k m C, (forall x, 0 <= quad dim C x) -> forall x, 0 <= quad dim (snd (fold_normal (S k) obs (m, C))) x.
Proof.
  induction obs as [|o obs IH]; intros k m C H; cbn [fold_normal fst snd]; auto. apply IH.
  apply (update_psd dim o (INR (S k)) m C); auto. rewrite S_INR. pose proof (pos_INR k); lra.
Qed.
Lemma normal_all dim obs m C : obs <> [] -> symmetric dim C -> (forall x, 0 <= quad dim C x) ->
  let s := fold_normal 1 obs (m, C) in
  (forall i, fst s i = sample_mean obs i) /\ symmetric dim (snd s) /\ (forall x, 0 <= quad dim (snd s) x).
Proof. intros H1 H2 H3. repeat split; [intros; apply fold_sample_mean; auto|apply fold_sym; auto|apply fold_psd; auto]. Qed.
(** the doctest counts from the number of earlier observations *)
Lemma doctest_refuted : exists (y1 y2 y3 : vec) C, 
  fst (fold_normal 2 [y3] (sample_mean [y1; y2], C)) 0%nat <> sample_mean [y1; y2; y3] 0%nat.
Proof.
  exists (fun _ => 0), (fun _ => 0), (fun _ => 1), (fun _ _ => 0). unfold sample_mean. simpl. lra.
Qed.
Lemma doctest_always_wrong (y1 y2 y3 : vec) C i : y3 i <> sample_mean [y1; y2] i ->
  fst (fold_normal 2 [y3] (sample_mean [y1; y2], C)) i <> sample_mean [y1; y2; y3] i.
Proof. intros H. unfold sample_mean in *. simpl in *. lra. Qed.
(** the covariance is not the sample covariance even with the right count *)
Lemma cov_refuted : exists obs : list R, exists C, 
  snd (fold_normal 1 (map (fun x _ => x) obs) ((fun _ => hd 0 obs), C)) 0%nat 0%nat <> sample_var obs.
Proof. exists [0; 1; 2], (fun _ _ => 0). unfold sample_var, mean. simpl. lra. Qed.

(** ** multivariate sampler *)
Lemma to_reals_inside dim lb ub x : (forall i, (i < dim)%nat -> inside (lb i) (ub i) (x i)) ->
  exists y j, to_reals_vec dim lb ub x = Some (y, j) /\
    forall i, (i < dim)%nat -> transform_to_reals (x i) (lb i) (ub i) = Some (y i, j i).
Proof.
  intros H. unfold to_reals_vec.
  assert (F : forallb (fun i => match transform_to_reals (x i) (lb i) (ub i) with Some _ => true | None => false end) (seq 0 dim) = true).
  { apply forallb_forall. intros i Hi. apply in_seq in Hi. destruct (const_reals (x i) (lb i) (ub i) (H i ltac:(lia))) as (a & b & -> & _). auto. }
  rewrite F. eexists _, _. split; [reflexivity|]. intros i Hi.
  destruct (const_reals (x i) (lb i) (ub i) (H i Hi)) as (a & b & -> & _). reflexivity.
Qed.
Lemma mv_adapt_rw dim lb ub opt decay air sp x p sp' : mv_adapt dim lb ub opt decay air sp x p = Some sp' ->
  mv_rw sp' = rw_adapt opt decay air (mv_rw sp) x p.
Proof.
  unfold mv_adapt, rw_adapt. destruct (to_reals_vec dim lb ub x) as [[y j]|]; [|discriminate].
  unfold seq_update_normal. destruct (Nat.eqb _ _); intros E; inversion E; reflexivity.
Qed.
Lemma run_opt_snoc {S' P} (step : P -> S' -> R -> option P) init h x p :
  run_opt step init (h ++ [(x, p)]) = match run_opt step init h with Some s => step s x p | None => None end.
Proof. unfold run_opt. rewrite fold_left_app. reflexivity. Qed.
Lemma run_snoc {S' P} (step : P -> S' -> R -> P) init h x p : run step init (h ++ [(x, p)]) = step (run step init h) x p.
Proof. unfold run. rewrite fold_left_app. reflexivity. Qed.

Section Mv.
Context (dim : nat) (lb ub : nat -> ext) (opt decay : R) (air : nat).
Let step := mv_adapt dim lb ub opt decay air.
Lemma mv_run_rw x0 h sp : run_opt step (mv_init x0 opt) h = Some sp ->
  mv_rw sp = run (rw_adapt opt decay air) (rw_init x0 opt (- (1))) h.
Proof.
  revert sp. induction h as [|[x p] h IH] using rev_ind; intros sp.
  - intros E; inversion E. reflexivity.
  - rewrite run_opt_snoc, run_snoc. destruct (run_opt step (mv_init x0 opt) h) as [s|]; [|discriminate].
    intros E. apply mv_adapt_rw in E. rewrite E, IH; auto.
Qed.
(** invariant of the averages *)
Definition mv_good (n : nat) (reals : list vec) (sp : mv) : Prop :=
  length (rw_emp (mv_rw sp)) = S n /\
  (forall i, (i < dim)%nat -> INR (S n) * mv_mean sp i = fold_right Rplus 0 (map (fun o => o i) reals)) /\
  symmetric dim (mv_adapt_cov sp) /\ symmetric dim (mv_prop_cov sp) /\
  (forall x, rsum dim (fun i => x i ^ 2) <= INR (S n) * quad dim (mv_adapt_cov sp) x) /\
  (forall x, rsum dim (fun i => x i ^ 2) <= INR (S n) * quad dim (mv_prop_cov sp) x).
Lemma quad_ident x : quad dim mident x = rsum dim (fun i => x i ^ 2).
Proof.
  unfold quad, mident. apply rsum_ext. intros i Hi.
  transitivity (rsum dim (fun j => if Nat.eqb i j then x i * x j else 0)).
  - apply rsum_ext. intros j Hj. destruct (Nat.eqb i j); ring.
  - rewrite (rsum_delta dim (fun j => x i * x j)) by auto. ring.
Qed.
Lemma sq_nonneg x : 0 <= rsum dim (fun i => x i ^ 2).
Proof. apply rsum_nonneg. intros. apply pow2_ge_0. Qed.
Lemma mv_run_good x0 h : (forall x p, In (x, p) h -> forall i, (i < dim)%nat -> inside (lb i) (ub i) (x i)) ->
  exists sp reals, run_opt step (mv_init x0 opt) h = Some sp /\ mv_good (length h) reals sp /\
    length reals = length h /\
    forall k x p y, nth_error h k = Some (x, p) -> nth_error reals k = Some y ->
      forall i, (i < dim)%nat -> fst (transform_to_const (y i) (lb i) (ub i)) = x i.
Proof.
  induction h as [|[x p] h IH] using rev_ind; intros HI.
  - exists (mv_init x0 opt), []. split; [reflexivity|]. split; [|split; [reflexivity|intros [|k]; discriminate]].
    assert (MS : symmetric dim mident) by (intros i j _ _; unfold mident; rewrite Nat.eqb_sym; auto).
    repeat split; auto.
    + intros i Hi. simpl. ring.
    + intros y. cbn [mv_init mv_adapt_cov length]. rewrite quad_ident. simpl. lra.
    + intros y. cbn [mv_init mv_prop_cov length]. rewrite quad_ident. simpl. lra.
  - destruct IH as (sp & reals & E & (G1 & G2 & G3 & G4 & G5 & G6) & GL & GR).
    { intros x' p' H. apply (HI x' p'). apply in_or_app; auto. }
    rewrite run_opt_snoc, E. unfold step, mv_adapt.
    destruct (to_reals_inside dim lb ub x) as (y & jj & EY & HY).
    { intros i Hi. apply (HI x p); auto. apply in_or_app; right; left; auto. }
    rewrite EY. set (n := length h) in *. replace (length (h ++ [(x, p)])) with (n + 1)%nat by (rewrite app_length; reflexivity). rewrite !G1.
    set (up := seq_update_normal y (INR (1 + S n)) (mv_mean sp) (mv_adapt_cov sp)).
    assert (NN : 0 < INR (S n)) by (apply lt_0_INR; lia).
    assert (N1 : INR (1 + S n) = INR (S n) + 1) by (rewrite plus_INR; simpl (INR 1); ring).
    assert (U1 : forall i, (i < dim)%nat -> INR (S (n + 1)) * fst up i = fold_right Rplus 0 (map (fun o => o i) (reals ++ [y]))).
    { intros i Hi. replace (INR (S (n + 1))) with (INR (S n) + 1) by (rewrite <- S_INR; f_equal; lia).
      rewrite map_app, fold_right_app. cbn [map fold_right]. unfold up, seq_update_normal; cbn [fst]. rewrite N1.
      transitivity (INR (S n) * mv_mean sp i + y i); [field; lra|]. rewrite G2 by auto. clear.
      induction reals as [|r reals IH]; simpl; [ring|]. rewrite <- IH. ring. }
    assert (U2 : symmetric dim (snd up)) by (apply update_sym; auto).
    assert (U3 : forall v, rsum dim (fun i => v i ^ 2) <= INR (S (n + 1)) * quad dim (snd up) v).
    { intros v. replace (INR (S (n + 1))) with (INR (1 + S n)) by (f_equal; lia). unfold up. rewrite quad_update by (rewrite N1; lra).
      replace (INR (1 + S n) * ((1 - / INR (1 + S n)) * quad dim (mv_adapt_cov sp) v + / INR (1 + S n) * rsum dim (fun i => v i * (y i - mv_mean sp i)) ^ 2))
        with (INR (S n) * quad dim (mv_adapt_cov sp) v + rsum dim (fun i => v i * (y i - mv_mean sp i)) ^ 2) by (rewrite N1; field; lra).
      specialize (G5 v). pose proof (pow2_ge_0 (rsum dim (fun i => v i * (y i - mv_mean sp i)))). lra. }
    assert (U4 : forall v, rsum dim (fun i => v i ^ 2) <= INR (S (n + 1)) * quad dim (mv_prop_cov sp) v).
    { intros v. specialize (G6 v). pose proof (sq_nonneg v). replace (INR (S (n + 1))) with (INR (S n) + 1) by (rewrite <- S_INR; f_equal; lia).
      assert (0 <= quad dim (mv_prop_cov sp) v).
      { apply (Rmult_le_reg_l (INR (S n))); auto. rewrite Rmult_0_r. lra. } lra. }
    assert (UR : forall k x' p' y', nth_error (h ++ [(x, p)]) k = Some (x', p') -> nth_error (reals ++ [y]) k = Some y' ->
      forall i, (i < dim)%nat -> fst (transform_to_const (y' i) (lb i) (ub i)) = x' i).
    { intros k x' p' y' K1 K2 i Hi. destruct (lt_dec k (length h)) as [L|L].
      - rewrite nth_error_app1 in K1 by auto. rewrite nth_error_app1 in K2 by lia. eapply GR; eauto.
      - rewrite nth_error_app2 in K1 by lia. rewrite nth_error_app2 in K2 by lia. rewrite GL in K2. fold n in K1.
        destruct (k - n)%nat as [|m]; [|destruct m; discriminate]. inversion K1; inversion K2; subst.
        destruct (const_reals (x' i) (lb i) (ub i)) as (a & b & Q1 & Q2).
        { apply (HI x' p'); auto. apply in_or_app; right; left; auto. }
        rewrite HY in Q1 by auto. inversion Q1; subst. rewrite Q2. auto. }
    destruct up as [mean' cov'] eqn:EU. cbn [fst snd] in *.
    destruct (Nat.eqb _ _).
    + eexists _, (reals ++ [y]). split; [reflexivity|]. split; [|split; [rewrite app_length; simpl; lia|exact UR]].
      split; [cbn [mv_rw rw_emp]; rewrite app_length, G1; cbn [length]; lia|].
      split; [exact U1|]. split; [exact U2|]. split; [exact U2|]. split; [exact U3|exact U3].
    + eexists _, (reals ++ [y]). split; [reflexivity|]. split; [|split; [rewrite app_length; simpl; lia|exact UR]].
      split; [cbn [mv_rw rw_emp]; rewrite app_length, G1; cbn [length]; lia|].
      split; [exact U1|]. split; [exact U2|]. split; [exact G4|]. split; [exact U3|exact U4].
Qed.

Lemma mv_run_cov x0 h : (forall x p, In (x, p) h -> forall i, (i < dim)%nat -> inside (lb i) (ub i) (x i)) ->
  exists sp, run_opt step (mv_init x0 opt) h = Some sp /\
    symmetric dim (mv_prop_cov sp) /\
    (forall x, (exists i, (i < dim)%nat /\ x i <> 0) -> 0 < quad dim (mv_prop_cov sp) x) /\
    mv_rw sp = run (rw_adapt opt decay air) (rw_init x0 opt (- (1))) h /\
    exists reals, length reals = length h /\
     (forall k x p y, nth_error h k = Some (x, p) -> nth_error reals k = Some y ->
        forall i, (i < dim)%nat -> fst (transform_to_const (y i) (lb i) (ub i)) = x i) /\
     (forall i, (i < dim)%nat -> mv_mean sp i = fold_right Rplus 0 (map (fun o => o i) reals) / INR (length h + 1)).
Proof.
  intros HI. destruct (mv_run_good x0 h HI) as (sp & reals & E & (G1 & G2 & G3 & G4 & G5 & G6) & GL & GR).
  exists sp. split; [auto|]. split; [auto|]. assert (NN : 0 < INR (S (length h))) by (apply lt_0_INR; lia).
  split.
  { intros x (i & Hi & Hx). apply (Rmult_lt_reg_l (INR (S (length h)))); auto. rewrite Rmult_0_r.
    eapply Rlt_le_trans; [|apply G6]. apply (rsum_pos dim _ i); auto; [intros; apply pow2_ge_0|]. simpl. rewrite Rmult_1_r.
    assert (0 < x i * x i) by (apply Rlt_0_sqr; auto). auto. }
  split; [apply mv_run_rw; auto|]. exists reals. split; [auto|]. split; [auto|].
  intros i Hi. rewrite <- G2 by auto. replace (length h + 1)%nat with (S (length h)) by lia. field. lra.
Qed.

(** proposals *)
Lemma mv_propose_ok mvn sp o k : (forall i, (i < dim)%nat -> ~ both_finite (lb i) (ub i)) ->
  (forall i, (i < dim)%nat -> inside (lb i) (ub i) (rw_state (mv_rw sp) i)) ->
  exists prop lf lb_ (df db : vec), fst (mv_propose dim lb ub mvn sp o k) = Ok (Some (prop, lf, lb_)) /\
    (forall i, (i < dim)%nat -> inside (lb i) (ub i) (prop i)) /\
    (forall i, (i < dim)%nat -> exists y, prop i = fst (transform_to_const y (lb i) (ub i)) /\ derivable_pt_lim (fun y => fst (transform_to_const y (lb i) (ub i))) y (df i) /\ df i <> 0) /\
    (forall i, (i < dim)%nat -> exists y, rw_state (mv_rw sp) i = fst (transform_to_const y (lb i) (ub i)) /\ derivable_pt_lim (fun y => fst (transform_to_const y (lb i) (ub i))) y (db i) /\ db i <> 0) /\
    lf = - rsum dim (fun i => ln (Rabs (df i))) /\ lb_ = - rsum dim (fun i => ln (Rabs (db i))).
Proof.
  intros HB HI. destruct (to_reals_inside dim lb ub _ HI) as (y & jj & EY & HY).
  unfold mv_propose, ret; cbn [fst]. rewrite EY.
  set (pr_ := mvn y _).
  assert (CH : forall (l : nat -> R), exists d : vec, forall i, derivable_pt_lim (fun y => fst (transform_to_const y (lb i) (ub i))) (l i) (d i) /\ d i <> 0 /\
     snd (transform_to_const (l i) (lb i) (ub i)) = - ln (Rabs (d i))).
  { intros l. exists (fun i => match lb i, ub i with Fin _, Fin _ => 1 | Fin _, _ => exp (l i) | _, Fin _ => - exp (l i) | _, _ => 1 end).
    intros i. destruct (const_jac (l i) (lb i) (ub i)) as (d & D1 & D2 & D3).
    assert (X : d = match lb i, ub i with Fin _, Fin _ => 1 | Fin _, _ => exp (l i) | _, Fin _ => - exp (l i) | _, _ => 1 end).
    { clear D2 D3. eapply uniqueness_limite; [exact D1|]. unfold transform_to_const.
      destruct (lb i) as [|a|], (ub i) as [|b|]; cbn [fst]; try apply derivable_pt_lim_id.
      - replace (- exp (l i)) with (0 - exp (l i)) by ring. apply (derivable_pt_lim_minus (fct_cte b) exp); [apply derivable_pt_lim_const|apply derivable_pt_lim_exp].
      - replace (exp (l i)) with (0 + exp (l i)) by ring. apply (derivable_pt_lim_plus (fct_cte a) exp); [apply derivable_pt_lim_const|apply derivable_pt_lim_exp].
      - replace (exp (l i)) with (0 + exp (l i)) by ring. apply (derivable_pt_lim_plus (fct_cte a) exp); [apply derivable_pt_lim_const|apply derivable_pt_lim_exp].
      - replace (- exp (l i)) with (0 - exp (l i)) by ring. apply (derivable_pt_lim_minus (fct_cte b) exp); [apply derivable_pt_lim_const|apply derivable_pt_lim_exp]. }
    rewrite <- X. auto. }
  destruct (CH pr_) as (df & DF). destruct (CH y) as (db & DB).
  eexists _, _, _, df, db. split; [reflexivity|]. split; [|split; [|split; [|split]]].
  - intros i Hi. apply const_inside; auto.
  - intros i Hi. exists (pr_ i). destruct (DF i) as (D1 & D2 & D3). auto.
  - intros i Hi. exists (y i). destruct (DB i) as (D1 & D2 & D3). split; auto.
    destruct (const_reals _ _ _ (HI i Hi)) as (a & b & Q1 & Q2). rewrite HY in Q1 by auto. inversion Q1; subst. rewrite Q2. auto.
  - transitivity (rsum dim (fun i => -1 * ln (Rabs (df i)))); [|rewrite rsum_scal_l; ring].
    apply rsum_ext. intros i Hi. destruct (DF i) as (D1 & D2 & D3). rewrite D3. ring.
  - transitivity (rsum dim (fun i => -1 * ln (Rabs (db i)))); [|rewrite rsum_scal_l; ring].
    apply rsum_ext. intros i Hi. destruct (DB i) as (D1 & D2 & D3). 
    destruct (const_reals _ _ _ (HI i Hi)) as (a & b & Q1 & Q2). rewrite HY in Q1 by auto. inversion Q1; subst.
    rewrite Q2 in D3. cbn [snd] in D3. rewrite D3. ring.
Qed.
End Mv.

Lemma mv_propose_out : exists dim lb ub mvn sp, 
  (forall i, (i < dim)%nat -> inside (lb i) (ub i) (rw_state (mv_rw sp) i)) /\
  forall o k, exists prop lf lb_, fst (mv_propose dim lb ub mvn sp o k) = Ok (Some (prop, lf, lb_)) /\
   exists i, (i < dim)%nat /\ ~ inside (lb i) (ub i) (prop i).
Proof.
  exists 1%nat, (fun _ => Fin 0), (fun _ => Fin 1), (fun m _ i => m i + 1), (mv_init (fun _ => 1/2) (1/5)).
  split; [intros i Hi; simpl; split; lra|].
  intros o k. eexists _, _, _. split; [reflexivity|]. exists 0%nat. split; [lia|]. unfold inside. simpl. intros [_ H]. lra.
Qed.

Lemma mv_propose_global : exists dim lb ub sp mvn mvn', (forall i, (i < dim)%nat -> inside (lb i) (ub i) (rw_state (mv_rw sp) i)) /\
  forall o k, snd (mv_propose dim lb ub mvn sp o k) = k /\ snd (mv_propose dim lb ub mvn' sp o k) = k /\
  exists p p' f f' b b', fst (mv_propose dim lb ub mvn sp o k) = Ok (Some (p, f, b)) /\ fst (mv_propose dim lb ub mvn' sp o k) = Ok (Some (p', f', b')) /\
   p 0%nat <> p' 0%nat.
Proof.
  exists 1%nat, (fun _ => NegInf), (fun _ => PosInf), (mv_init (fun _ => 0) (1/5)), (fun m _ i => m i), (fun m _ i => m i + 1).
  split; [intros i Hi; unfold inside; simpl; auto|]. intros o k. split; [reflexivity|]. split; [reflexivity|].
  eexists _, _, _, _, _, _. split; [reflexivity|]. split; [reflexivity|]. simpl. lra.
Qed.
Lemma mv_propose_ignores dim lb ub mvn sp o k o' k' :
  fst (mv_propose dim lb ub mvn sp o k) = fst (mv_propose dim lb ub mvn sp o' k') /\ snd (mv_propose dim lb ub mvn sp o k) = k.
Proof. split; reflexivity. Qed.

(** ** scalar sampler *)
Lemma rw_propose_raises lb ub normal sp o k : fst (rw_propose lb ub normal sp o k) = Raise TypeError.
Proof.
  unfold rw_propose. destruct (match transform_to_reals (rw_state sp) lb ub with Some p => p | None => (0, 0) end) as [a b].
  destruct (transform_to_const _ lb ub) as [c d]. reflexivity.
Qed.
Lemma ito_params_raise {X} lb ub normal samplers n (rest : nat -> R * R * R -> M X) o k : valid o ->
  length samplers = n -> (0 < n)%nat -> fst (ito_update_params lb ub normal samplers n rest o k) = Raise TypeError.
Proof.
  intros HV HL HN. unfold ito_update_params. destruct (Nat.eqb_spec n 0) as [?|_]; [lia|].
  unfold bind at 1. unfold draw_n. pose proof (proj2 HV k (DPick n) I HN) as P. cbn [nsupport] in P.
  set (i := ora_n o k (DPick n)) in *. unfold bind at 1. unfold lift_opt.
  destruct (nth_error samplers i) as [sp|] eqn:E; [|apply nth_error_None in E; lia].
  unfold bind at 1. pose proof (rw_propose_raises (lb i) (ub i) normal sp o (S k)) as H.
  destruct (rw_propose (lb i) (ub i) normal sp o (S k)) as [[|e|] k']; cbn [fst] in H; try discriminate. inversion H; subst. reflexivity.
Qed.

(** ** regime sampler *)
Lemma mask_sorted l : forall m r, mask l m = Some r -> StronglySorted Rlt l -> StronglySorted Rlt r.
Proof.
  induction l as [|a l IH]; intros [|b m] r; simpl; try discriminate.
  - intros E; inversion E; auto.
  - destruct (mask l m) as [r'|] eqn:E; [|discriminate]. intros E' H; inversion E'; subst. inversion H as [|? ? H1 H2]; subst.
    destruct b; [|eapply IH; eauto]. constructor; [eapply IH; eauto|]. rewrite Forall_forall in *. intros x Hx. apply H2. eapply mask_incl; eauto.
Qed.
Lemma mask_total {A} (l : list A) : forall m, length m = length l -> exists r, mask l m = Some r.
Proof.
  induction l as [|a l IH]; intros [|b m] H; simpl in *; try discriminate; [eexists; auto|].
  destruct (IH m ltac:(lia)) as (r & ->). eexists; auto.
Qed.
Lemma inner_slice {A} (a b : A) l : pyslice (a :: l ++ [b]) 1 (-1) = l.
Proof.
  unfold pyslice, norm_bound. cbn [length]. rewrite app_length. cbn [length].
  change (1 <? 0)%Z with false. change (-1 <? 0)%Z with true. cbv iota.
  replace (Nat.min (Z.to_nat 1) (S (length l + 1))) with 1%nat by lia.
  replace (Z.to_nat (Z.max 0 (-1 + Z.of_nat (S (length l + 1))))) with (S (length l)) by lia.
  cbn [skipn]. replace (S (length l) - 1)%nat with (length l) by lia. rewrite firstn_app, firstn_all, Nat.sub_diag. simpl. apply app_nil_r.
Qed.
Lemma slice_short {A} (l : list A) : (length l < 2)%nat -> pyslice l 1 (-1) = [].
Proof. destruct l as [|a [|b l]]; simpl; intros H; try reflexivity. lia. Qed.
Lemma hidden_short L fuel sp dim lam ts o k : (length ts < 4)%nat ->
  fst (hidden_propose L fuel sp dim lam ts o k) = Raise ValueError.
Proof.
  intros H. unfold hidden_propose, mjp_propose.
  replace (Nat.ltb (length (pyslice ts 1 (-1))) 2) with true; [reflexivity|]. symmetry. apply Nat.ltb_lt.
  destruct ts as [|a [|b [|c [|d ts]]]]; simpl in *; lia.
Qed.
Lemma split_ends {A} (l : list A) : (2 <= length l)%nat -> exists a m b, l = a :: m ++ [b].
Proof.
  intros H. destruct l as [|a l]; [simpl in H; lia|]. destruct l as [|b l] using rev_ind; [simpl in H; lia|]. eauto.
Qed.
Lemma sorted_inner a m b : StronglySorted Rlt (a :: m ++ [b]) -> StronglySorted Rlt m /\ forall x, In x m -> a < x < b.
Proof.
  intros H. inversion H as [|? ? H1 H2]; subst. rewrite Forall_forall in H2.
  assert (H3 : forall x, In x m -> x < b).
  { clear -H1. induction m as [|c m IH]; intros x []; simpl in H1; inversion H1 as [|? ? Q1 Q2]; subst.
    - rewrite Forall_forall in Q2. apply Q2. apply in_or_app; right; left; auto.
    - apply IH; auto. }
  split.
  - clear -H1. induction m as [|c m IH]; [constructor|]. simpl in H1. inversion H1 as [|? ? Q1 Q2]; subst. constructor; auto.
    rewrite Forall_forall in *. intros x Hx. apply Q2. apply in_or_app; auto.
  - intros x Hx. split; auto. apply H2. apply in_or_app; auto.
Qed.
Lemma hidden_propose_ok L fuel sp dim lam ts : (2 <= dim)%nat -> generator dim lam -> pos_off dim lam -> expm_exact L ->
  solve_ok L dim (stat_matrix lam) stat_rhs ->
  wf_skel (rw_state sp) -> Forall (fun i => (i < dim)%nat) (sk_x (rw_state sp)) ->
  (4 <= length ts)%nat -> StronglySorted Rlt ts -> hd 0 ts = 0 -> last ts 0 = sk_fin (rw_state sp) ->
  safe_if generic (hidden_propose L fuel sp dim lam ts)
    (fun r => let '(s', cond) := r in wf_skel s' /\ sk_fin s' = sk_fin (rw_state sp) /\ Forall (fun i => (i < dim)%nat) (sk_x s') /\
       incl cond (pyslice ts 2 (-2)) /\ StronglySorted Rlt cond /\
       forall b i, In b cond -> (state_at (rw_state sp) b i <-> state_at s' b i)).
Proof.
  intros HD HG HO HE HSo W FS HL HS HH HLa.
  destruct (split_ends ts ltac:(lia)) as (a & m & b & ->). simpl in HH; subst a.
  rewrite last_cons' in HLa. rewrite last_last in HLa. subst b.
  unfold hidden_propose. rewrite inner_slice. cbn [length] in HL. rewrite app_length in HL. simpl in HL.
  destruct (sorted_inner _ _ _ HS) as [SM IM].
  destruct (split_ends m ltac:(lia)) as (c & l & d & ->).
  destruct (sorted_inner _ _ _ SM) as [SL IL].
  assert (E2 : pyslice (0 :: (c :: l ++ [d]) ++ [sk_fin (rw_state sp)]) 2 (-2) = l).
  { unfold pyslice, norm_bound. cbn [length]. rewrite !app_length. cbn [length]. rewrite app_length. cbn [length].
    change (2 <? 0)%Z with false. change (-2 <? 0)%Z with true. cbv iota.
    replace (Nat.min (Z.to_nat 2) _) with 2%nat by lia.
    replace (Z.to_nat _) with (S (S (length l))) by lia. cbn [skipn app].
    replace (S (S (length l)) - 2)%nat with (length l) by lia.
    rewrite <- app_assoc, firstn_app, firstn_all, Nat.sub_diag. simpl. apply app_nil_r. }
  rewrite E2. unfold mjp_propose. rewrite inner_slice.
  replace (Nat.ltb (length (c :: l ++ [d])) 2) with false by (symmetry; apply Nat.ltb_ge; simpl; rewrite app_length; simpl; lia).
  eapply safe_bind; [apply total_safe, total_draw_rs|]. intros us Hus. cbv beta in Hus.
  apply Forall2_length in Hus. rewrite repeat_length in Hus.
  destruct (mask_total l (map (fun u => Rltb u (1 / (1 + exp (last (rw_scale sp) 0)))) us)) as (cond & EC).
  { rewrite map_length, <- Hus. simpl. rewrite app_length. simpl. lia. }
  rewrite EC. 
  assert (IC : incl cond l) by (eapply mask_incl; eauto).
  assert (SC : StronglySorted Rlt cond) by (eapply mask_sorted; eauto).
  assert (BC : forall x, In x cond -> 0 < x < sk_fin (rw_state sp)).
  { intros x Hx. apply IM. right. apply in_or_app. left. auto. }
  eapply safe_bind with (Q := fun tc => tc = cond); [apply total_safe; apply (total_lift_opt _ _ _ cond); auto|].
  intros tc ->.
  assert (KEY : safe_if generic (do ps <- mutate_partition L fuel (partition_skeleton (rw_state sp) cond) dim lam; lift (paste_partition ps))
    (fun s' => wf_skel s' /\ sk_fin s' = sk_fin (rw_state sp) /\ Forall (fun i => (i < dim)%nat) (sk_x s') /\
       forall b i, In b cond -> (state_at (rw_state sp) b i <-> state_at s' b i))).
  { destruct cond as [|c0 cond].
    - intros o k HV HGe. pose proof (proposal_fresh_safe L dim lam fuel (rw_state sp) HD HG HO HSo (timed_pos _ (proj1 W)) o k HV) as P.
      destruct (fst _) as [s'|e|]; auto. destruct P as (P1 & P2 & P3). split; [auto|]. split; [auto|]. split; [auto|]. intros ? ? [].
    - apply proposal_ok; auto. discriminate. }
  intros o k HV HGe. specialize (KEY o k HV HGe). unfold bind in *.
  destruct (mutate_partition L fuel (partition_skeleton (rw_state sp) cond) dim lam o k) as [[ps|e|] k']; auto.
  unfold lift in *. destruct (paste_partition ps) as [s'|e|]; cbn [fst] in *; auto.
  cbn [ret fst]. destruct KEY as (K1 & K2 & K3 & K4). auto 10.
Qed.

(** witness: the first acceptance enters the first two updates *)
Lemma overlap_witness : exists h1 h2 : list (nat * R), length h1 = length h2 /\
  (forall i, i <> 0%nat -> nth_error h1 i = nth_error h2 i) /\
  let sp h := run (rw_adapt (1/5) 1 1) (rw_init 0%nat (1/5) 0) h in
  nth 1 (rw_scale (sp h1)) 0 - nth 0 (rw_scale (sp h1)) 0 <> nth 1 (rw_scale (sp h2)) 0 - nth 0 (rw_scale (sp h2)) 0 /\
  nth 2 (rw_scale (sp h1)) 0 - nth 1 (rw_scale (sp h1)) 0 <> nth 2 (rw_scale (sp h2)) 0 - nth 1 (rw_scale (sp h2)) 0.
Proof.
  exists [(0%nat, 1); (0%nat, 0); (0%nat, 0)], [(0%nat, 0); (0%nat, 0); (0%nat, 0)].
  split; [reflexivity|]. split; [intros [|[|[|i]]] H; try contradiction; reflexivity|].
  cbv zeta.
  pose proof (rw_schedule (1/5) 1 1 0%nat 0 [(0%nat, 1); (0%nat, 0); (0%nat, 0)]) as H1.
  pose proof (rw_schedule (1/5) 1 1 0%nat 0 [(0%nat, 0); (0%nat, 0); (0%nat, 0)]) as H2.
  destruct H1 as (_ & _ & k & K & _ & _ & E). destruct H2 as (_ & _ & k' & K' & _ & _ & E').
  assert (k = 2%nat). { destruct k as [|[|[|k]]]; simpl in K; lia. }
  assert (k' = 2%nat). { destruct k' as [|[|[|k']]]; simpl in K'; lia. }
  subst k k'. cbv zeta in *.
  pose proof (E 1%nat ltac:(lia)) as E1. pose proof (E 2%nat ltac:(lia)) as E2.
  pose proof (E' 1%nat ltac:(lia)) as E1'. pose proof (E' 2%nat ltac:(lia)) as E2'.
  change (1 - 1)%nat with 0%nat in *. change (2 - 1)%nat with 1%nat in *.
  assert (P : forall n, 0 < INR (n + 1) -> Rpower (INR (n + 1)) 1 = INR (n + 1)) by (intros; apply Rpower_1; auto).
  rewrite E1, E2, E1', E2', !P by (apply lt_0_INR; lia). unfold entries, mean. simpl. lra.
Qed.
