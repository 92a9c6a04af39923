(** Lemmas about ctbayes/misc/adapt.py. *)
From Coq Require Import Reals List ZArith Bool Arith Lia Lra Sorted.
From Verif Require Import Base Np Rng Mat M_mjp M_adapt SpecAdapt L_rng L_mat.
Import ListNotations.
Local Open Scope R_scope.

(** ** transforms *)
Lemma np_log_pos x : 0 < x -> np_log x = Some (ln x).
Proof. intros H. unfold np_log. apply Rltb_true in H. rewrite H. auto. Qed.
Lemma const_reals x lb ub : inside lb ub x -> exists y j, transform_to_reals x lb ub = Some (y, j) /\ transform_to_const y lb ub = (x, j).
Proof.
  intros [H1 H2]. unfold transform_to_reals, transform_to_const.
  destruct lb as [|l|], ub as [|u|]; try (exists x, 0; split; reflexivity).
  - rewrite np_log_pos by lra. eexists _, _; split; [reflexivity|]. rewrite exp_ln by lra. f_equal; ring.
  - rewrite np_log_pos by lra. eexists _, _; split; [reflexivity|]. rewrite exp_ln by lra. f_equal; ring.
  - rewrite np_log_pos by lra. eexists _, _; split; [reflexivity|]. rewrite exp_ln by lra. f_equal; ring.
  - rewrite np_log_pos by lra. eexists _, _; split; [reflexivity|]. rewrite exp_ln by lra. f_equal; ring.
Qed.
Lemma reals_const y lb ub : transform_to_reals (fst (transform_to_const y lb ub)) lb ub = Some (y, snd (transform_to_const y lb ub)).
Proof.
  unfold transform_to_reals, transform_to_const. pose proof (exp_pos y).
  destruct lb as [|l|], ub as [|u|]; cbn [fst snd]; auto;
    match goal with |- context [np_log ?a] => replace a with (exp y) by ring end; rewrite np_log_pos, ln_exp by lra; auto.
Qed.
Lemma const_inside y lb ub : ~ both_finite lb ub -> inside lb ub (fst (transform_to_const y lb ub)).
Proof.
  intros H. unfold transform_to_const, inside. pose proof (exp_pos y).
  destruct lb as [|l|], ub as [|u|]; cbn [fst]; split; try lra; auto; exfalso; apply H; exists l, u; auto.
Qed.
Lemma const_jac y lb ub : exists d, derivable_pt_lim (fun y => fst (transform_to_const y lb ub)) y d /\ d <> 0 /\
  snd (transform_to_const y lb ub) = - ln (Rabs d).
Proof.
  pose proof (exp_pos y) as P.
  assert (H1 : forall f, (forall y, f y = y) -> derivable_pt_lim f y 1).
  { intros f Hf. intros eps He. exists (mkposreal 1 Rlt_0_1). intros h Hh _. rewrite !Hf.
    replace ((y + h - y) / h - 1) with 0 by (field; auto). rewrite Rabs_R0. auto. }
  assert (H2 : forall l, derivable_pt_lim (fun y => l + exp y) y (exp y)).
  { intros l. replace (exp y) with (0 + exp y) by ring. apply (derivable_pt_lim_plus (fct_cte l) exp).
    - apply derivable_pt_lim_const.
    - apply derivable_pt_lim_exp. }
  assert (H3 : forall l, derivable_pt_lim (fun y => l - exp y) y (- exp y)).
  { intros l. replace (- exp y) with (0 - exp y) by ring. apply (derivable_pt_lim_minus (fct_cte l) exp).
    - apply derivable_pt_lim_const.
    - apply derivable_pt_lim_exp. }
  assert (L1 : - ln (Rabs 1) = 0) by (rewrite Rabs_R1, ln_1; ring).
  assert (L2 : - ln (Rabs (exp y)) = - y) by (rewrite Rabs_right by lra; rewrite ln_exp; auto).
  assert (L3 : - ln (Rabs (- exp y)) = - y) by (rewrite Rabs_Ropp, Rabs_right by lra; rewrite ln_exp; auto).
  unfold transform_to_const. destruct lb as [|l|], ub as [|u|]; cbn [fst snd];
    [exists 1|exists (- exp y)|exists 1|exists (exp y)|exists 1|exists (exp y)|exists 1|exists (- exp y)|exists 1]; repeat split; auto; lra.
Qed.
Lemma const_not_bounded l u : l < u -> (forall y, transform_to_const y (Fin l) (Fin u) = (y, 0)) /\
  exists y, ~ (l <= fst (transform_to_const y (Fin l) (Fin u)) <= u).
Proof. intros H. split; auto. exists (u + 1). simpl. lra. Qed.

(** ** schedule *)
Lemma tau_pow air k : (1 <= k -> 1 <= k ^ air)%nat.
Proof. intros H. change 1%nat with (1 ^ air)%nat at 1 || idtac. induction air; simpl; [lia|]. nia. Qed.
Lemma tau_lt air k : (tau air k < tau air (S k))%nat.
Proof. cbn [tau]. pose proof (tau_pow air (S k)). lia. Qed.
Lemma tau_mono air j k : (j <= k -> tau air j <= tau air k)%nat.
Proof. induction 1; auto. pose proof (tau_lt air m). lia. Qed.
Lemma tau_triangular k : (2 * tau 1 k = k * (k + 1))%nat.
Proof. induction k as [|k IH]; [reflexivity|]. cbn [tau]. rewrite Nat.pow_1_r. lia. Qed.
Lemma tau_1 air : tau air 1 = 1%nat.
Proof. simpl. rewrite Nat.pow_1_l. auto. Qed.

Section Core.
Context {S' : Type} (opt decay : R) (air : nat) (incr : list R -> list nat -> R -> R).
Definition core (sp : rw S') (sample : S') (prob : R) : rw S' :=
  let emp := rw_emp sp ++ [prob] in
  let per := rw_periods sp in
  if Nat.eqb (length emp) (last per 0%nat + 1) then
    mk_rw sample
      (rw_scale sp ++ [last (rw_scale sp) 0 + learning_rate (length per) decay * (incr emp per prob - opt)])
      emp (per ++ [(last per 0 + length per ^ air)%nat])
  else mk_rw sample (rw_scale sp) emp per.

Definition inv (target : nat -> list R -> R) (scale0 : R) (x0 : S') (h : list (S' * R)) (sp : rw S') : Prop :=
  rw_emp sp = opt :: map snd h /\ rw_state sp = last (map fst h) x0 /\
  exists k, (tau air k <= length h < tau air (S k))%nat /\
    rw_periods sp = map (tau air) (seq 0 (k + 2)) /\ length (rw_scale sp) = (k + 1)%nat /\
    nth 0 (rw_scale sp) 0 = scale0 /\
    forall j, (1 <= j <= k)%nat -> nth j (rw_scale sp) 0 - nth (j - 1) (rw_scale sp) 0
       = learning_rate (j + 1) decay * (target j (rw_emp sp) - opt).

Context (target : nat -> list R -> R).
(** what the update adds is determined by the entries recorded so far *)
Hypothesis TG : forall j emp prob, (1 <= j)%nat -> length emp = tau air j ->
  incr (emp ++ [prob]) (map (tau air) (seq 0 (j + 1))) prob = target j (emp ++ [prob]).
Hypothesis TS : forall j emp prob, (1 <= j)%nat -> (tau air j + 1 <= length emp)%nat -> target j (emp ++ [prob]) = target j emp.

Lemma last_tau k : last (map (tau air) (seq 0 (k + 2))) 0%nat = tau air (k + 1).
Proof. replace (k + 2)%nat with (S (k + 1)) by lia. rewrite seq_S, map_app. cbn [map]. rewrite last_last. f_equal. Qed.
Lemma core_run scale0 x0 h : inv target scale0 x0 h (run core (rw_init x0 opt scale0) h).
Proof.
  induction h as [|[x p] h IH] using rev_ind.
  - split; [reflexivity|]. split; [reflexivity|]. exists 0%nat. cbn [length tau run fold_left rw_init rw_periods rw_scale].
    pose proof (tau_pow air 1). split; [lia|]. split; [|split; [reflexivity|split; [reflexivity|intros; lia]]].
    simpl. rewrite Nat.pow_1_l. reflexivity.
  - unfold run in *. rewrite fold_left_app. cbn [fold_left fst snd].
    set (sp := fold_left _ h _) in *. destruct IH as (E1 & E2 & k & Hk & E3 & E4 & E0 & E5).
    assert (EL : length (rw_emp sp) = S (length h)) by (rewrite E1; simpl; rewrite map_length; auto).
    unfold inv. rewrite !map_app, app_length. cbn [map length fst snd]. rewrite last_last.
    unfold core. rewrite app_length. cbn [length]. rewrite EL, E3, last_tau.
    destruct (Nat.eqb_spec (S (length h) + 1) (tau air (k + 1) + 1)) as [EQ|NE].
    + cbn [rw_emp rw_state rw_scale rw_periods]. split; [rewrite E1; reflexivity|]. split; [reflexivity|].
      exists (S k). rewrite map_length, seq_length. replace (k + 1)%nat with (S k) in * by lia.
      pose proof (tau_lt air (S k)). split; [lia|]. split.
      { replace (S k + 2)%nat with (S (k + 2)) by lia. rewrite (seq_S (k + 2)), map_app. f_equal. cbn [map]. f_equal.
        cbn [Nat.add]. replace (k + 2)%nat with (S (S k)) by lia. reflexivity. }
      split; [rewrite app_length, E4; simpl; lia|].
      split; [rewrite app_nth1 by lia; auto|].
      intros j Hj. destruct (Nat.eq_dec j (S k)) as [->|NJ].
      * rewrite app_nth2 by lia. rewrite E4. replace (S k - S k)%nat with 0%nat by lia. cbn [nth].
        rewrite app_nth1 by lia.
        assert (LS : last (rw_scale sp) 0 = nth (S k - 1) (rw_scale sp) 0).
        { replace (S k - 1)%nat with (length (rw_scale sp) - 1)%nat by lia.
          destruct (rw_scale sp) as [|a l] using rev_ind; [simpl in E4; lia|]. rewrite last_last, app_length, app_nth2 by (simpl; lia).
          simpl. replace (_ - _)%nat with 0%nat by lia. auto. }
        rewrite LS. replace (k + 2)%nat with (S k + 1)%nat by lia.
        rewrite <- (TG (S k) (rw_emp sp) p) by (try lia). replace (k + 2)%nat with (S k + 1)%nat by lia. ring.
      * rewrite !app_nth1 by lia. rewrite E5 by lia. rewrite TS; [reflexivity|lia|].
        pose proof (tau_mono air j k ltac:(lia)). lia.
    + cbn [rw_emp rw_state rw_scale rw_periods]. split; [rewrite E1; reflexivity|]. split; [reflexivity|].
      exists k. replace (k + 1)%nat with (S k) in * by lia. split; [lia|]. split; [reflexivity|]. split; [lia|]. split; [auto|].
      intros j Hj. rewrite E5 by lia. rewrite TS; [reflexivity|lia|].
        pose proof (tau_mono air j k ltac:(lia)). lia.
Qed.
End Core.

Lemma nth_tau air j : (1 <= j)%nat -> nth (length (map (tau air) (seq 0 (j + 1))) - 2) (map (tau air) (seq 0 (j + 1))) 0%nat = tau air (j - 1).
Proof.
  intros H. rewrite map_length, seq_length. rewrite (nth_indep _ 0%nat (tau air 0)) by (rewrite map_length, seq_length; lia).
  rewrite map_nth. rewrite seq_nth by lia. f_equal. lia.
Qed.

Lemma rw_schedule {S'} (opt decay : R) air (x0 : S') scale0 h :
  let sp := run (rw_adapt opt decay air) (rw_init x0 opt scale0) h in
  rw_emp sp = opt :: map snd h /\ rw_state sp = last (map fst h) x0 /\
  exists k, (tau air k <= length h < tau air (S k))%nat /\ length (rw_scale sp) = (k + 1)%nat /\
    nth 0 (rw_scale sp) 0 = scale0 /\
    forall j, (1 <= j <= k)%nat -> nth j (rw_scale sp) 0 - nth (j - 1) (rw_scale sp) 0
       = 1 / Rpower (INR (j + 1)) decay * (mean (entries (tau air (j - 1)) (tau air j) (opt :: map snd h)) - opt).
Proof.
  cbv zeta.
  pose proof (core_run (S' := S') opt decay air (fun emp per _ => np_mean (skipn (nth (length per - 2) per 0%nat) emp))
    (fun j emp => mean (entries (tau air (j - 1)) (tau air j) emp))) as H.
  assert (TL : forall j, (1 <= j)%nat -> (tau air (j - 1) < tau air j)%nat).
  { intros j Hj. replace (tau air j) with (tau air (S (j - 1))) by (f_equal; lia). apply tau_lt. }
  specialize (H ltac:(intros j emp prob Hj HL; cbv beta; rewrite nth_tau by auto; unfold np_mean, mean, entries;
    rewrite (firstn_all2 (n := tau air j + 1 - tau air (j - 1))); [reflexivity|rewrite skipn_length, app_length; simpl; lia])).
  specialize (H ltac:(intros j emp prob Hj HL; cbv beta; unfold entries; specialize (TL j Hj);
    rewrite skipn_app, firstn_app; rewrite skipn_length;
    replace (tau air j + 1 - tau air (j - 1) - (length emp - tau air (j - 1)))%nat with 0%nat by lia; simpl; rewrite app_nil_r; reflexivity)).
  destruct (H scale0 x0 h) as (E1 & E2 & k & Hk & E3 & E4 & E0 & E5).
  change (run (core opt decay air (fun emp per _ => np_mean (skipn (nth (length per - 2) per 0%nat) emp))) (rw_init x0 opt scale0) h)
    with (run (rw_adapt opt decay air) (rw_init x0 opt scale0) h) in *.
  split; [auto|]. split; [auto|]. exists k. split; [auto|]. split; [auto|]. split; [auto|]. intros j Hj. rewrite E5 by auto. rewrite E1. reflexivity.
Qed.

Lemma mjp_schedule {S'} (opt decay : R) air (x0 : S') scale0 h :
  let sp := run (mjp_adapt opt decay air) (rw_init x0 opt scale0) h in
  rw_emp sp = opt :: map snd h /\ rw_state sp = last (map fst h) x0 /\
  exists k, (tau air k <= length h < tau air (S k))%nat /\ length (rw_scale sp) = (k + 1)%nat /\
    nth 0 (rw_scale sp) 0 = scale0 /\
    forall j, (1 <= j <= k)%nat -> nth j (rw_scale sp) 0 - nth (j - 1) (rw_scale sp) 0
       = 1 / Rpower (INR (j + 1)) decay * (nth (tau air j - 1) (map snd h) 0 - opt).
Proof.
  cbv zeta.
  pose proof (core_run (S' := S') opt decay air (fun emp per p => p)
    (fun j emp => nth (tau air j) emp 0)) as H.
  specialize (H ltac:(intros j emp prob Hj HL; cbv beta; rewrite <- HL, app_nth2, Nat.sub_diag by lia; reflexivity)).
  specialize (H ltac:(intros j emp prob Hj HL; cbv beta; rewrite app_nth1 by lia; reflexivity)).
  destruct (H scale0 x0 h) as (E1 & E2 & k & Hk & E3 & E4 & E0 & E5).
  change (run (core opt decay air (fun emp per p => p)) (rw_init x0 opt scale0) h)
    with (run (mjp_adapt opt decay air) (rw_init x0 opt scale0) h) in *.
  split; [auto|]. split; [auto|]. exists k. split; [auto|]. split; [auto|]. split; [auto|]. intros j Hj. rewrite E5 by auto. rewrite E1.
  pose proof (tau_mono air 1 j ltac:(lia)) as T. rewrite tau_1 in T.
  destruct (tau air j) as [|n]; [lia|]. cbn [nth]. replace (S n - 1)%nat with n by lia. reflexivity.
Qed.

(** the averages stay in [0,1] *)
Lemma mean_range l : l <> [] -> Forall in01 l -> in01 (mean l).
Proof.
  intros NE HF. unfold mean, in01. assert (L : 0 < INR (length l)) by (apply lt_0_INR; destruct l; [contradiction|simpl; lia]).
  assert (B : 0 <= fold_right Rplus 0 l <= INR (length l)).
  { clear NE L. induction HF as [|a l Ha HF IH]; [simpl; lra|]. unfold in01 in Ha. cbn [fold_right length]. rewrite S_INR. lra. }
  split; [apply Rmult_le_pos; [lra|apply Rlt_le, Rinv_0_lt_compat; auto]|].
  apply (Rmult_le_reg_r (INR (length l))); auto. unfold Rdiv. rewrite Rmult_assoc, Rinv_l by lra. lra.
Qed.
Lemma entries_In a b l x : In x (entries a b l) -> In x l.
Proof.
  unfold entries. intros H. rewrite <- (firstn_skipn a l). apply in_or_app. right.
  rewrite <- (firstn_skipn (b + 1 - a) (skipn a l)). apply in_or_app; auto.
Qed.
Lemma rate_bound_01 j decay m opt : in01 m -> in01 opt -> (1 <= j)%nat ->
  Rabs (1 / Rpower (INR (j + 1)) decay * (m - opt)) <= Rpower (INR (j + 1)) (- decay).
Proof.
  intros Hm Ho Hj. assert (P : 0 < Rpower (INR (j + 1)) decay) by apply exp_pos.
  rewrite Rpower_Ropp. unfold Rdiv. rewrite Rmult_1_l, Rabs_mult. rewrite (Rabs_right (/ _)) by (left; apply Rinv_0_lt_compat; auto).
  rewrite <- (Rmult_1_r (/ Rpower _ _)) at 2. apply Rmult_le_compat_l; [left; apply Rinv_0_lt_compat; auto|].
  unfold in01 in *. apply Rabs_le. lra.
Qed.
Lemma rw_steps {S'} (opt decay : R) air (x0 : S') scale0 h : in01 opt -> Forall in01 (map snd h) ->
  let sp := run (rw_adapt opt decay air) (rw_init x0 opt scale0) h in
  forall j, (1 <= j < length (rw_scale sp))%nat ->
    Rabs (nth j (rw_scale sp) 0 - nth (j - 1) (rw_scale sp) 0) <= Rpower (INR (j + 1)) (- decay).
Proof.
  intros Ho HF. cbv zeta. destruct (rw_schedule opt decay air x0 scale0 h) as (_ & _ & k & Hk & EL & _ & E5).
  intros j Hj. rewrite E5 by lia. apply rate_bound_01; auto; [|lia]. apply mean_range.
  - unfold entries. intros E. apply (f_equal (@length R)) in E. rewrite firstn_length, skipn_length in E. cbn [length] in E. rewrite map_length in E.
    pose proof (tau_mono air j k ltac:(lia)). assert (tau air (j - 1) < tau air j)%nat.
    { replace (tau air j) with (tau air (S (j - 1))) by (f_equal; lia). apply tau_lt. } lia.
  - rewrite Forall_forall. intros x Hx. apply entries_In in Hx. destruct Hx as [<-|Hx]; auto. rewrite Forall_forall in HF; auto.
Qed.
Lemma mjp_steps {S'} (opt decay : R) air (x0 : S') scale0 h : in01 opt -> Forall in01 (map snd h) ->
  let sp := run (mjp_adapt opt decay air) (rw_init x0 opt scale0) h in
  forall j, (1 <= j < length (rw_scale sp))%nat ->
    Rabs (nth j (rw_scale sp) 0 - nth (j - 1) (rw_scale sp) 0) <= Rpower (INR (j + 1)) (- decay).
Proof.
  intros Ho HF. cbv zeta. destruct (mjp_schedule opt decay air x0 scale0 h) as (_ & _ & k & Hk & EL & _ & E5).
  intros j Hj. rewrite E5 by lia. apply rate_bound_01; auto; [|lia].
  rewrite Forall_forall in HF. apply HF. apply nth_In. rewrite map_length.
  pose proof (tau_mono air j k ltac:(lia)). pose proof (tau_mono air 1 j ltac:(lia)) as T. rewrite tau_1 in T. lia.
Qed.

(** windows overlap *)
Lemma entries_snoc a b l x : (a <= b)%nat -> nth_error l b = Some x -> exists w, entries a b l = w ++ [x].
Proof.
  intros H E. exists (firstn (b - a) (skipn a l)). unfold entries. replace (b + 1 - a)%nat with (S (b - a)) by lia.
  assert (E' : nth_error (skipn a l) (b - a) = Some x).
  { rewrite <- E. clear -H. revert b H. revert l. induction a as [|a IH]; intros l b H; [f_equal; lia|].
    destruct l as [|y l]; [destruct (b - S a)%nat, b; reflexivity|]. destruct b as [|b]; [lia|]. cbn [skipn nth_error]. rewrite <- (IH l b) by lia. f_equal. }
  revert E'. generalize (skipn a l) as m. induction (b - a)%nat as [|n IH]; intros [|y m] E'; try discriminate.
  - simpl in *. inversion E'; auto.
  - change (y :: firstn (S n) m = y :: (firstn n m ++ [x])). f_equal. apply IH. exact E'.
Qed.
Lemma entries_cons a b l x : (a <= b)%nat -> nth_error l a = Some x -> exists w, entries a b l = x :: w.
Proof.
  intros H E. unfold entries. assert (E' : exists r, skipn a l = x :: r).
  { revert l E. induction a as [|a IH]; intros [|y l] E; try discriminate; [inversion E; subst; eexists; reflexivity|].
    cbn [skipn]. apply (IH ltac:(lia)); auto. }
  destruct E' as (r & ->). replace (b + 1 - a)%nat with (S (b - a)) by lia. cbn [firstn]. eexists; reflexivity.
Qed.
Lemma rw_overlap {S'} (opt decay : R) air (x0 : S') scale0 h j : (1 <= j)%nat -> (tau air (j + 1) <= length h)%nat ->
  let sp := run (rw_adapt opt decay air) (rw_init x0 opt scale0) h in
  exists p w1 w2, nth_error (map snd h) (tau air j - 1) = Some p /\
    nth j (rw_scale sp) 0 - nth (j - 1) (rw_scale sp) 0 = 1 / Rpower (INR (j + 1)) decay * (mean (w1 ++ [p]) - opt) /\
    nth (j + 1) (rw_scale sp) 0 - nth j (rw_scale sp) 0 = 1 / Rpower (INR (j + 2)) decay * (mean (p :: w2) - opt).
Proof.
  intros Hj HL. cbv zeta. destruct (rw_schedule opt decay air x0 scale0 h) as (_ & _ & k & Hk & EL & _ & E5).
  assert (KJ : (j + 1 <= k)%nat).
  { destruct (le_lt_dec (j + 1) k); auto. pose proof (tau_mono air (S k) (j + 1) ltac:(lia)). lia. }
  pose proof (tau_mono air 1 j ltac:(lia)) as T. rewrite tau_1 in T.
  assert (TJ : (tau air j < tau air (j + 1))%nat) by (replace (j + 1)%nat with (S j) by lia; apply tau_lt).
  destruct (nth_error (map snd h) (tau air j - 1)) as [p|] eqn:EP.
  2:{ apply nth_error_None in EP. rewrite map_length in EP. lia. }
  assert (EP' : nth_error (opt :: map snd h) (tau air j) = Some p).
  { destruct (tau air j) as [|n]; [lia|]. cbn [nth_error]. rewrite <- EP. f_equal. lia. }
  destruct (entries_snoc (tau air (j - 1)) (tau air j) (opt :: map snd h) p) as (w1 & W1); auto.
  { apply tau_mono. lia. }
  destruct (entries_cons (tau air j) (tau air (j + 1)) (opt :: map snd h) p) as (w2 & W2); auto; [lia|].
  exists p, w1, w2. split; [auto|]. split.
  - rewrite E5 by lia. rewrite W1. reflexivity.
  - pose proof (E5 (j + 1)%nat ltac:(lia)) as E. replace (j + 1 - 1)%nat with j in E by lia. rewrite E, W2.
    replace (j + 1 + 1)%nat with (j + 2)%nat by lia. reflexivity.
Qed.
Lemma rw_first_window {S'} (opt decay : R) air (x0 : S') scale0 h p r : map snd h = p :: r ->
  let sp := run (rw_adapt opt decay air) (rw_init x0 opt scale0) h in
  nth 1 (rw_scale sp) 0 - scale0 = 1 / Rpower 2 decay * (mean [opt; p] - opt).
Proof.
  intros E. cbv zeta. destruct (rw_schedule opt decay air x0 scale0 h) as (_ & _ & k & Hk & EL & E0 & E5).
  assert (LH : (1 <= length h)%nat) by (rewrite <- (map_length snd), E; simpl; lia).
  assert (K1 : (1 <= k)%nat) by (destruct k; [rewrite tau_1 in Hk; lia|lia]).
  specialize (E5 1%nat ltac:(lia)). replace (1 - 1)%nat with 0%nat in E5 by lia. rewrite E0 in E5. rewrite E5, tau_1, E.
  change (tau air 0) with 0%nat. unfold entries. cbn [skipn firstn Nat.add Nat.sub]. reflexivity.
Qed.
