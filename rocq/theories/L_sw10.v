(** The chain of the switching sampler keeps its invariant. *)
From Coq Require Import Reals List Bool Arith ZArith Lia Lra Sorted.
From Verif Require Import Base Np Rng Mat M_mjp M_inf M_bf M_adapt M_path M_skel M_seed M_models M_sw M_chain SpecMjp SpecLin SpecInf SpecSkel SpecSeed SpecSw SpecChain.
From Verif Require Import L_rng L_mat L_sim L_list L_path L_path2 L_part L_prop L_occ L_stat L_inf L_adapt2 L_sde2 L_skel L_skel4 L_seed L_seed2 L_seed3 L_seed4 L_sw L_sw2 L_sw3 L_sw4 L_sw5 L_sw6 L_sw7 L_sw8 L_sw9.
Import ListNotations.
Local Open Scope R_scope.

Notation okseed := (fun s : M_skel.skel => standard s /\ ends 1 0 0 s).
Lemma ends_extends s s' : extends s s' -> ends 1 0 0 s -> ends 1 0 0 s'.
Proof. intros (_ & _ & _ & X1 & X2 & X3 & _) (E1 & E2 & E3). repeat split; congruence. Qed.
Lemma raw_okseed dim fuel mp maxp (vol : nat -> R) : (0 < maxp)%nat -> (forall y, (y < dim)%nat -> 0 < vol y) -> raw_seeds generic dim okseed fuel mp maxp NegInf PosInf vol.
Proof.
  intros Hm HV dt y x0 x1 Hd Hy. assert (Hc : 0 < sqrt dt * vol y) by (apply Rmult_lt_0_compat; [apply sqrt_lt_R0; auto|auto]).
  intros o k V [G1 G2]. pose proof (raw_seed_returns _ _ dt _ x0 x1 (sw_operators (vol y) dt x0 x1) Hd fuel mp maxp NegInf PosInf Hc I I Hm o k V G1) as H. destruct (fst _); auto.
  destruct H as (W & E & _). split; auto. split; auto. apply E.
Qed.
Lemma coin_okseed dim fuel mp maxp (vol : nat -> R) disc bounds batch : (forall y, (y < dim)%nat -> 0 < vol y) -> coin_keeps generic okseed dim fuel mp maxp vol disc bounds batch.
Proof.
  intros HV dt y y' x0 x1 s Hd Hy [ST E]. assert (Hc : 0 < sqrt dt * vol y) by (apply Rmult_lt_0_compat; [apply sqrt_lt_R0; auto|auto]).
  eapply returns_weaken; [apply (seed_coin_returns _ _ dt _ x0 x1 (sw_operators (vol y) dt x0 x1) Hd Hc); auto|]. intros r [A B]. split; auto. eapply ends_extends; eauto.
Qed.
Lemma dual_okseed dim fuel mp maxp vol disc grad batch thi thi' : dual_keeps generic okseed dim fuel mp maxp vol disc grad batch thi thi'.
Proof.
  intros dt y v0 v1 s up Hd Hy [ST E] o k V G. unfold sw_param_coin. cbv zeta. replace (dt - 0) with dt by ring.
  destruct (fst _) as [[acc s']| |] eqn:F; auto.
  destruct (dual_statement _ _ _ _ dt _ v0 v1 _ v0 v1 (sw_operators (vol thi y) dt v0 v1) (sw_operators (vol thi' y) dt v0 v1) Hd _ _ _ _ _ _ _ _ _ _ _ _ _ ST V G F) as (log & _ & _ & A & B & _).
  simpl. split; auto. eapply ends_extends; eauto.
Qed.
Lemma rdot_nonneg (l m : list R) : Forall (Rle 0) l -> Forall (Rle 0) m -> 0 <= rdot l m.
Proof.
  unfold rdot. revert m; induction l as [|a l IH]; intros [|b m] Hl Hm; simpl; try lra. inversion Hl; inversion Hm; subst. specialize (IH m H2 H6). nra.
Qed.
Lemma hold_of_nonneg s i : timed s -> 0 <= hold_of s i.
Proof.
  intros H. unfold hold_of. apply rdot_nonneg.
  - apply Forall_forall. intros x Hx. apply in_map_iff in Hx as (a & <- & _). destruct (Nat.eqb a i); lra.
  - unfold ediff1d_end. apply Forall_app. split; [|constructor; [lra|constructor]]. apply Forall_forall. intros x Hx. left. eapply diff_pos; eauto. apply (td_sorted s H).
Qed.
Lemma generator_mat_of dim (A : omat) (Gm : mat) : (forall i j, (i < dim)%nat -> (j < dim)%nat -> A i j = Some (Gm i j)) -> generator dim Gm -> pos_off dim Gm -> generator dim (mat_of A) /\ pos_off dim (mat_of A).
Proof.
  intros HA [G1 G2] HP. assert (E : forall i j, (i < dim)%nat -> (j < dim)%nat -> mat_of A i j = Gm i j) by (intros; unfold mat_of; rewrite HA; auto).
  split; [split|].
  - intros i j Hi Hj N. rewrite E by auto. auto.
  - intros i Hi. rewrite <- (G2 i Hi). apply rsum_ext. intros; auto.
  - intros i j Hi Hj N. rewrite E by auto. auto.
Qed.
Lemma update_generator_ok G dim K alp bet t vt : good dim t vt K -> 0 < last t 0 -> hyper dim (Rlt 0) alp -> hyper dim (Rlt 0) bet ->
  returns_if G (mcmc_update_generator dim (anch_of K) alp bet) (fun lam => generator dim (mat_of lam) /\ pos_off dim (mat_of lam)).
Proof.
  intros HK HT HA HB. unfold mcmc_update_generator. rewrite (prune_of K (good_nonempty _ _ _ _ HK)).
  eapply returns_bind; [apply returns_lift; intros x Hx; exact Hx|]. intros y E. injection E as <-.
  pose proof (path_timed _ _ _ _ HK HT) as TM. destruct (L_inf.update_ok dim (path_of K) alp bet) as (alp1 & bet1 & E1 & U1 & U2 & U3); auto.
  { unfold path_of. cbn [M_mjp.sk_x]. apply Forall_forall. intros s Hs. apply in_map_iff in Hs as ([u s'] & <- & Hin). cbn [snd].
    assert (In (u, s') (map fst K)). { destruct (devirt_kept _ _ Hin) as [[r E]|[a [Ha _]]]; [rewrite E; left; auto|apply (adj_in _ _ _ Ha)]. }
    apply in_map_iff in H as (e & E & He). pose proof (g_dim _ _ _ _ HK) as D. rewrite Forall_forall in D. specialize (D e He). unfold st in D. rewrite E in D. exact D. }
  rewrite E1. eapply returns_bind; [apply returns_lift; intros x Hx; exact Hx|]. intros p E. injection E as <-. cbn [fst snd].
  destruct HA as [A1 A2], HB as [B1 B2]. eapply returns_weaken; [apply (returns_mono anyo G); [intros; exact I|]; apply total_returns, total_any, sample_param_ok|].
  - split; [auto|]. intros i j Hi Hj N. destruct (A2 i j Hi Hj N) as (a & Ea & Ha). rewrite U2, Ea by auto. cbn [option_map]. eexists; split; [reflexivity|]. pose proof (pos_INR (n_jumps (M_mjp.sk_x (path_of K)) i j)). lra.
  - split; [intros i Hi; rewrite U3, (B1 i Hi); auto|]. intros i j Hi Hj N. destruct (B2 i j Hi Hj N) as (a & Ea & Ha). rewrite U3, Ea by auto. cbn [option_map]. eexists; split; [reflexivity|]. pose proof (hold_of_nonneg (path_of K) i TM). lra.
  - intros lam (Gm & E & G1 & G2). eapply generator_mat_of; eauto.
Qed.

Section Chain.
Context (L : linalg) (dim fuel mp maxp : nat) (vol : list (list R) -> nat -> R) (disc : list (list R) -> nat -> R -> R) (bounds : list (list R) -> nat -> bounds_fun)
  (grad : list R -> list R -> R -> R -> R -> R -> R -> list R) (log_prior : list (list R) -> R) (loglik : list (list R) -> anchorage -> option nat -> R * R)
  (batch : nat) (precoin : bool) (pr : R) (maxf : nat) (t vt : list R) (opt decay : R) (air : nat) (alp bet : omat) (okrow : list R -> Prop).
Hypothesis HG : obs_grid t vt (last t 0).
Hypothesis H4 : (4 <= length t)%nat.
Hypothesis HD : (2 <= dim)%nat.
Hypothesis HA : hyper dim (Rlt 0) alp.
Hypothesis HB : hyper dim (Rlt 0) bet.
Hypothesis HE : expm_exact L.
Hypothesis HSo : forall Q, generator dim Q -> pos_off dim Q -> solve_ok L dim (stat_matrix Q) stat_rhs.
Hypothesis Hm : (0 < maxp)%nat.
Hypothesis HV : forall thi, length thi = dim -> Forall okrow thi -> forall y, (y < dim)%nat -> 0 < vol thi y.
Definition inv (c : M_chain.chain) : Prop := exists K, c_h c = anch_of K /\ good dim t vt K /\ length K = S (length (c_z c)) /\ Forall okseed (c_z c) /\ rw_state (c_sp c) = path_of K /\
  length (c_thi c) = dim /\ Forall okrow (c_thi c) /\ generator dim (c_lam c) /\ pos_off dim (c_lam c).
Lemma grid_zero : In 0 t.
Proof. pose proof (og_first _ _ _ HG) as E. destruct t; inversion E. left; auto. Qed.
Lemma inv_ok c : inv c -> chain_ok dim okrow t vt c.
Proof.
  intros (K & E1 & E2 & E3 & E4 & E5 & E6 & E7 & E8 & E9). split; auto. rewrite E1, E5. replace (length (c_z c)) with (length K - 1)%nat by lia.
  apply good_ok; auto; [eapply sorted_last_pos; eauto|apply grid_zero|apply HG].
Qed.
Lemma sized_anch K (z : partition) : length K = S (length z) -> sized3 z (anch_of K).
Proof. intros H. unfold sized3, anch_of. cbn [a_t a_y a_v]. rewrite !map_length. auto. Qed.
Lemma joint_ok i c : inputs_ok okrow i -> inv c -> returns_if generic (update_joint L dim fuel mp maxp NegInf PosInf vol disc bounds grad log_prior loglik batch precoin pr maxf t vt opt decay air alp bet i c) inv.
Proof.
  intros (IP & I1 & I2) (K & E1 & HK & E3 & E4 & E5 & E6 & E7 & E8 & E9). unfold update_joint. rewrite E1.
  pose proof (sorted_last_pos _ _ _ HG) as HT.
  eapply returns_bind; [eapply update_generator_ok; eauto|]. intros lam [L1 L2].
  eapply returns_bind with (Q := fun r => let '(_, thi, z) := r in length thi = dim /\ Forall okrow thi /\ length z = length (c_z c) /\ Forall okseed z).
  { apply returns_lift. intros [[accs thi] z] EU.
    destruct (update_params_local _ _ _ _ _ _ _ _ _ _ _ _ _ _ _ _ _ _ _ _ (fun j => proj1 (I1 j)) (sized_anch K (c_z c) E3) EU) as (P1 & P2 & P3 & P4 & P5).
    split; [congruence|]. split; [|split; [auto|]].
    - apply Forall_forall. intros r Hr. destruct (In_nth_error _ _ Hr) as [j Hj]. assert (Hl : (j < length (c_thi c))%nat) by (rewrite <- P2; apply nth_error_Some; congruence).
      destruct (P5 j Hl) as (acc & thi_i & z_i & q & lf & lb & Q1 & Q2 & Q3 & Q4 & _). rewrite Q4 in Hj. destruct acc.
      + injection Hj as <-. pose proof (IP j (in_params i j) 0%nat (proj1 (I1 j)) (proj2 (I1 j))) as X. rewrite Q2 in X. exact X.
      + rewrite Forall_forall in E7. apply E7. eapply nth_error_In; eauto.
    - apply Forall_forall. intros s Hs. destruct (In_nth_error _ _ Hs) as [j Hj]. assert (Hl : (j < length (c_z c))%nat) by (rewrite <- P3; apply nth_error_Some; congruence).
      destruct (P4 j Hl) as (y & Hy & Hyl). destruct (P5 y Hyl) as (acc & thi_i & z_i & q & lf & lb & Q1 & Q2 & Q3 & Q4 & Q5 & _). rewrite (Q5 j Hy Hl) in Hj.
      pose proof (param_section_P generic okseed dim fuel mp maxp vol disc grad log_prior loglik batch precoin pr maxf (in_propose i y) (c_thi c) (c_z c) (anch_of K) y (fun _ => True)
        (sized_anch K (c_z c) E3) (good_sorted _ _ _ _ HK)) as X.
      specialize (X ltac:(cbn [anch_of a_y]; pose proof (g_dim _ _ _ _ HK) as D; rewrite Forall_forall in D |- *; intros x Hx; apply in_map_iff in Hx as (e & <- & He); auto) E4 (returns_triv _ _) (fun q _ => dual_okseed _ _ _ _ _ _ _ _ _ _)).
      specialize (X (in_params i y) 0%nat (proj1 (I1 y)) (proj2 (I1 y))). rewrite Q1 in X. cbn [snd] in X. rewrite Forall_forall in X. apply X. eapply nth_error_In; eauto. }
  intros [[accs thi] z] (T1 & T2 & T3 & T4). eapply returns_bind.
  - eapply (returns_mono (fun o => generic o /\ generic o) _); [tauto|]. eapply L_sw7.update_ok with (P := okseed) (dim := dim); eauto.
    + apply raw_okseed; auto.
    + apply coin_okseed; auto.
    + congruence.
  - intros [[y' cond] [[z' h'] sp']] (K' & F1 & F2 & F3 & F4 & F5 & _). apply returns_ret. exists K'. cbn [c_h c_z c_sp c_thi c_lam]. auto 12.
Qed.
Lemma resume_ok ins : Forall (inputs_ok okrow) ins -> forall c, inv c ->
  returns_if generic (resume_sampling L dim fuel mp maxp NegInf PosInf vol disc bounds grad log_prior loglik batch precoin pr maxf t vt opt decay air alp bet ins c) (fun l => length l = length ins /\ Forall inv l).
Proof.
  induction 1 as [|i ins Hi _ IH]; intros c Hc; cbn [resume_sampling]; [apply returns_ret; auto|].
  eapply returns_bind; [apply joint_ok; auto|]. intros c' Hc'. eapply returns_bind; [apply IH; auto|]. intros l [Hl1 Hl2]. apply returns_ret. simpl. auto.
Qed.
Lemma posterior_ok init ins : okrow init -> Forall (inputs_ok okrow) ins ->
  returns_if generic (sample_posterior L dim fuel mp maxp NegInf PosInf vol disc bounds grad log_prior loglik batch precoin pr maxf t vt opt decay air alp bet init ins)
    (fun l => length l = length ins /\ Forall (chain_ok dim okrow t vt) l).
Proof.
  intros HI HIn. unfold sample_posterior. pose proof (sorted_last_pos _ _ _ HG) as HT.
  assert (EL : last_opt t = Some (last t 0)). { destruct (grid_shape _ _ _ HG) as (m & -> & _). change (0 :: m ++ [last t 0]) with ((0 :: m) ++ [last t 0]). rewrite last_opt_app. now rewrite last_last. }
  rewrite EL. eapply returns_bind; [apply returns_lift_opt; intros x Hx; exact Hx|]. intros fin EF. injection EF as <-.
  destruct (get_ev_ok dim alp bet HA HB) as (Gm & GE & GG & GP & _). 
  destruct (generator_mat_of dim _ Gm GE GG GP) as [Q1 Q2].
  eapply returns_bind; [apply sample_forwards_spec; [auto|discriminate]|]. intros y (W & FY & DY & _).
  assert (TL : length (repeat init dim) = dim) by apply repeat_length. assert (TR : Forall okrow (repeat init dim)) by (apply Forall_forall; intros x Hx; apply repeat_spec in Hx; subst; auto).
  eapply returns_bind; [apply sample_aug_ok with (dim := dim) (P := okseed); auto; [rewrite FY; auto|apply raw_okseed; auto]|].
  intros [z h] (K & F1 & F2 & F3 & F4 & F5). cbn [fst snd] in *.
  eapply returns_weaken; [apply resume_ok; auto|].
  - exists K. cbn [c_h c_z c_sp c_thi c_lam]. unfold rw_init. cbn [rw_state]. auto 12.
  - intros l [Hl Hf]. split; auto. eapply Forall_impl; [|exact Hf]. intros c Hc. apply inv_ok; auto.
Qed.
End Chain.
