(** Which normal law the multivariate random walk proposes from, for C25. *)
From Coq Require Import Reals List Bool Arith Lia Lra.
From Verif Require Import Base Np Rng Mat M_adapt SpecAdapt SpecMvprop L_adapt L_adapt2.
Import ListNotations.
Local Open Scope R_scope.

Section Prop_.
Context (dim : nat) (lb ub : nat -> ext) (opt decay : R) (air : nat).
Let step := mv_adapt dim lb ub opt decay air.

Lemma fold_normal_snoc l : forall n s o, fold_normal n (l ++ [o]) s =
  seq_update_normal o (INR (n + length l)) (fst (fold_normal n l s)) (snd (fold_normal n l s)).
Proof.
  induction l as [|a l IH]; intros n s o; cbn [app fold_normal length].
  - rewrite Nat.add_0_r. reflexivity.
  - rewrite IH. replace (S n + length l)%nat with (n + S (length l))%nat by lia. reflexivity.
Qed.

(** one adaptation *)
Lemma mv_adapt_cases sp x p sp' : step sp x p = Some sp' ->
  exists y j, to_reals_vec dim lb ub x = Some (y, j) /\
    (mv_mean sp', mv_adapt_cov sp') = seq_update_normal y (INR (1 + length (rw_emp (mv_rw sp)))) (mv_mean sp) (mv_adapt_cov sp) /\
    rw_emp (mv_rw sp') = rw_emp (mv_rw sp) ++ [p] /\
    ((length (rw_emp (mv_rw sp)) + 1 = last (rw_periods (mv_rw sp)) 0%nat + 1)%nat /\ mv_prop_cov sp' = mv_adapt_cov sp' /\
       rw_periods (mv_rw sp') = rw_periods (mv_rw sp) ++ [(last (rw_periods (mv_rw sp)) 0 + length (rw_periods (mv_rw sp)) ^ air)%nat]
     \/ (length (rw_emp (mv_rw sp)) + 1 <> last (rw_periods (mv_rw sp)) 0%nat + 1)%nat /\ mv_prop_cov sp' = mv_prop_cov sp /\
       rw_periods (mv_rw sp') = rw_periods (mv_rw sp)).
Proof.
  unfold step, mv_adapt. destruct (to_reals_vec dim lb ub x) as [[y j]|] eqn:E; [|discriminate].
  destruct (seq_update_normal y (INR (1 + length (rw_emp (mv_rw sp)))) (mv_mean sp) (mv_adapt_cov sp)) as [m c] eqn:EN.
  rewrite app_length. cbn [length].
  destruct (Nat.eqb_spec (length (rw_emp (mv_rw sp)) + 1) (last (rw_periods (mv_rw sp)) 0%nat + 1)) as [Q|Q]; intros H; injection H as <-;
    exists y, j; cbn [mv_rw mv_mean mv_adapt_cov mv_prop_cov rw_emp rw_periods]; (split; [reflexivity|]); (split; [first [exact (eq_sym EN)|reflexivity]|]); (split; [reflexivity|]); [left|right]; auto.
Qed.

Lemma to_reals_back x y j : to_reals_vec dim lb ub x = Some (y, j) ->
  forall i, (i < dim)%nat -> transform_to_reals (x i) (lb i) (ub i) = Some (y i, snd (transform_to_const (y i) (lb i) (ub i))).
Proof.
  unfold to_reals_vec. destruct (forallb _ _) eqn:F; [|discriminate]. intros H; injection H as <- _. intros i Hi.
  rewrite forallb_forall in F. specialize (F i). rewrite in_seq in F. specialize (F ltac:(lia)).
  destruct (transform_to_reals (x i) (lb i) (ub i)) as [[a b]|] eqn:E; [|discriminate]. f_equal. f_equal.
  revert E. unfold transform_to_reals, transform_to_const.
  destruct (lb i), (ub i); try (intros H; injection H as <- <-; reflexivity);
    match goal with |- context[np_log ?u] => destruct (np_log u) end; try discriminate; intros H; injection H as <- <-; reflexivity.
Qed.

Lemma mv_run_stats x0 h : forall sp, run_opt step (mv_init x0 opt) h = Some sp ->
  length (rw_emp (mv_rw sp)) = S (length h) /\
  exists reals, transformed dim lb ub h reals /\ (mv_mean sp, mv_adapt_cov sp) = fold_normal 2 reals (fun _ => 0, mident).
Proof.
  induction h as [|[x p] h IH] using rev_ind; intros sp.
  - intros E; injection E as <-. split; [reflexivity|]. exists []. split; [|reflexivity]. split; [reflexivity|]. intros [|k]; discriminate.
  - rewrite run_opt_snoc. destruct (run_opt step (mv_init x0 opt) h) as [s|]; [|discriminate]. intros E.
    destruct (IH s eq_refl) as (EL & reals & [B1 B2] & ES). destruct (mv_adapt_cases _ _ _ _ E) as (y & j & EY & EC & EE & _).
    rewrite EE, !app_length, EL. cbn [length]. split; [lia|]. exists (reals ++ [y]). split.
    + split; [rewrite !app_length, B1; reflexivity|]. intros k x' p' y' H1 H2.
      destruct (Nat.lt_ge_cases k (length h)) as [L|L].
      * rewrite nth_error_app1 in H1, H2 by lia. eauto.
      * rewrite nth_error_app2 in H1, H2 by lia. rewrite B1 in H2. destruct (k - length h)%nat as [|q]; cbn in H1, H2.
        -- injection H1 as <- <-. injection H2 as <-. exact (to_reals_back _ _ _ EY).
        -- destruct q; discriminate.
    + rewrite fold_normal_snoc, <- ES. cbn [fst snd]. rewrite EC, EL, B1. reflexivity.
Qed.

Lemma mv_run_window x0 h : forall sp, run_opt step (mv_init x0 opt) h = Some sp ->
  exists k, rw_periods (mv_rw sp) = map (tau air) (seq 0 (k + 2)) /\ (tau air k <= length h < tau air (S k))%nat /\
    exists s, run_opt step (mv_init x0 opt) (firstn (tau air k) h) = Some s /\ mv_prop_cov sp = mv_adapt_cov s.
Proof.
  induction h as [|[x p] h IH] using rev_ind; intros sp.
  - intros E; injection E as <-. exists 0%nat. split; [|split].
    + cbn. rewrite Nat.pow_1_l. reflexivity.
    + cbn. rewrite Nat.pow_1_l. lia.
    + exists (mv_init x0 opt). split; reflexivity.
  - intros E0. pose proof E0 as E. rewrite run_opt_snoc in E. destruct (run_opt step (mv_init x0 opt) h) as [s|] eqn:ER; [|discriminate].
    destruct (IH s eq_refl) as (k & EP & HK & s0 & ES & EC). destruct (mv_run_stats x0 h s ER) as (EL & _).
    destruct (mv_adapt_cases _ _ _ _ E) as (y & j & _ & _ & _ & W). rewrite EP, last_tau, EL in W.
    rewrite map_length, seq_length in W. rewrite app_length. cbn [length].
    replace (k + 1)%nat with (S k) in W by lia. pose proof (tau_lt air (S k)) as TL.
    destruct W as [(Q & WC & WP)|(Q & WC & WP)].
    + exists (S k). split; [|split].
      * rewrite WP. replace (S k + 2)%nat with (S (k + 2)) by lia. rewrite (seq_S (k + 2)), map_app. cbn [map plus]. f_equal. f_equal.
        replace (k + 2)%nat with (S (S k)) by lia. reflexivity.
      * lia.
      * exists sp. split; [|exact WC]. rewrite firstn_all2; [exact E0|]. rewrite app_length. cbn [length]. lia.
    + exists k. split; [congruence|]. split; [lia|]. exists s0. split; [|congruence].
      rewrite firstn_app. replace (tau air k - length h)%nat with 0%nat by lia. cbn [firstn]. rewrite app_nil_r. exact ES.
Qed.

(** the proposal covariance is that of the samples up to the end of the last window *)
Lemma mv_prop_window x0 h sp : run_opt step (mv_init x0 opt) h = Some sp ->
  exists k reals, (tau air k <= length h < tau air (S k))%nat /\ transformed dim lb ub (firstn (tau air k) h) reals /\
    mv_prop_cov sp = snd (fold_normal 2 reals (fun _ => 0, mident)).
Proof.
  intros E. destruct (mv_run_window x0 h sp E) as (k & _ & HK & s & ES & EC). destruct (mv_run_stats x0 _ s ES) as (_ & reals & B & F).
  exists k, reals. split; [exact HK|]. split; [exact B|]. rewrite EC, <- F. reflexivity.
Qed.

(** a proposal is one draw of a normal around the transformed state, transformed back *)
Lemma mv_propose_normal mvn sp o k prop f b k' : mv_propose dim lb ub mvn sp o k = (Ok (Some (prop, f, b)), k') ->
  exists y, unbounded dim lb ub (rw_state (mv_rw sp)) y /\
    unbounded dim lb ub prop (mvn y (fun i j => mv_prop_cov sp i j * exp (last (rw_scale (mv_rw sp)) 0))).
Proof.
  unfold mv_propose, ret. destruct (to_reals_vec dim lb ub (rw_state (mv_rw sp))) as [[y j]|] eqn:E; [|discriminate].
  intros H; injection H as <- _ _ _. exists y. split; [exact (to_reals_back _ _ _ E)|]. intros i _. apply reals_const.
Qed.
End Prop_.

(** after two samples of one free parameter the covariance is that after the first *)
Lemma mv_prop_demo : exists sp, run_opt (mv_adapt 1 (fun _ => NegInf) (fun _ => PosInf) (1/4) (1/2) 1) (mv_init (fun _ => 0) (1/4))
    [(fun _ => 2, 1); (fun _ => 5, 0)] = Some sp /\
  mv_prop_cov sp 0%nat 0%nat = 5 / 2 /\ mv_adapt_cov sp 0%nat 0%nat <> 5 / 2.
Proof.
  unfold run_opt, mv_adapt, to_reals_vec, mv_init, rw_init, seq_update_normal. cbn. eexists. split; [reflexivity|]. cbn. unfold mident. cbn. split; lra.
Qed.
