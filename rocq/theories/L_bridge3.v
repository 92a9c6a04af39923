(** sample_bridge and sample_backwards for every generator with a positive rate. *)
From Coq Require Import Reals List ZArith Bool Arith Lia Lra Sorted.
From Verif Require Import Base Np Rng Mat M_mjp SpecMjp SpecLin L_list L_path L_rng L_mat L_sim L_bridge L_bridge2 L_mutate.
Import ListNotations.
Local Open Scope R_scope.

Section G.
Variables (L : linalg) (dim : nat) (gen : mat) (fin_t : R).
Hypothesis Hgen : generator dim gen.
Hypothesis Hneg : exists a, (a < dim)%nat /\ gen a a < 0.
Hypothesis Hfin : 0 < fin_t.
Hypothesis HL : expm_exact L.

Lemma neg_rate : 0 < rate_bound dim gen.
Proof. destruct Hneg as (a & Ha & Na). pose proof (rate_bound_ge dim gen a Ha). lra. Qed.

Lemma target_pos o k i f : uniform_pos o -> (i < dim)%nat -> (f < dim)%nat -> 0 < get_trans L dim fin_t gen i f ->
  0 < target L dim gen fin_t (ora_r o k (DUniform 0 1)) i f.
Proof.
  intros HU Hi Hf HC. unfold target. apply Rmult_lt_0_compat; [|apply exp_pos].
  apply Rmult_lt_0_compat; auto. apply HU; lra.
Qed.

Lemma bridge_pos_ok fuel i f : (i < dim)%nat -> (f < dim)%nat -> 0 < get_trans L dim fin_t gen i f ->
  safe_if uniform_pos (sample_bridge L fuel fin_t i f dim gen) (bridge_path dim fin_t i f).
Proof.
  intros Hi Hf HC o k V HU. pose proof (sample_bridge_cases L dim gen fin_t Hgen neg_rate Hfin HL fuel i f o k V Hi Hf) as H.
  destruct (fst _) as [s|e|]; auto. destruct H as [(N & T & _)|[H _]]; auto.
  pose proof (target_pos o k i f HU Hi Hf HC). lra.
Qed.

Lemma bridge_path_wf s i f : bridge_path dim fin_t i f s -> StronglySorted Rlt (sk_t s) ->
  wf_skel s /\ sk_fin s = fin_t /\ Forall (fun j => (j < dim)%nat) (sk_x s) /\ initial_state s i /\ final_state s f.
Proof.
  intros (B1 & B2 & B3 & B4 & B5 & B6 & B7 & B8 & B9) HS. repeat split; auto.
  intros t Ht. rewrite B6. apply B4; auto.
Qed.

Lemma bridge_generic_ok fuel i f : (i < dim)%nat -> (f < dim)%nat -> 0 < get_trans L dim fin_t gen i f ->
  safe_if generic (sample_bridge L fuel fin_t i f dim gen)
    (fun s => wf_skel s /\ sk_fin s = fin_t /\ Forall (fun j => (j < dim)%nat) (sk_x s) /\ initial_state s i /\ final_state s f).
Proof.
  intros Hi Hf HC o k V HG. pose proof (sample_bridge_cases L dim gen fin_t Hgen neg_rate Hfin HL fuel i f o k V Hi Hf) as H.
  destruct (fst _) as [s|e|]; auto. destruct H as [(N & T & _)|[H HS]].
  - pose proof (target_pos o k i f (proj1 HG) Hi Hf HC). lra.
  - apply bridge_path_wf; auto.
Qed.

(** every outcome, also of probability zero *)
Lemma bridge_all fuel i f o k s : valid o -> (i < dim)%nat -> (f < dim)%nat ->
  fst (sample_bridge L fuel fin_t i f dim gen o k) = Ok s ->
  bridge_path dim fin_t i f s \/
  (i <> f /\ s = mk_skel [0] [i] fin_t /\ (ora_r o k (DUniform 0 1) = 0 \/ get_trans L dim fin_t gen i f = 0)).
Proof.
  intros V Hi Hf E. pose proof (sample_bridge_cases L dim gen fin_t Hgen neg_rate Hfin HL fuel i f o k V Hi Hf) as H.
  rewrite E in H. destruct H as [(N & T & Es)|[H _]]; auto. right. split; auto. split; auto.
  unfold target in T. apply Rmult_integral in T as [T|T]; [|pose proof (exp_pos (rate_bound dim gen * fin_t)); lra].
  apply Rmult_integral in T; auto.
Qed.
Lemma bridge_noraise fuel i f o k e : valid o -> (i < dim)%nat -> (f < dim)%nat ->
  fst (sample_bridge L fuel fin_t i f dim gen o k) <> Raise e.
Proof.
  intros V Hi Hf E. pose proof (sample_bridge_cases L dim gen fin_t Hgen neg_rate Hfin HL fuel i f o k V Hi Hf) as H.
  rewrite E in H. auto.
Qed.
Lemma bridge_term i f o k : valid o -> (i < dim)%nat -> (f < dim)%nat ->
  exists fuel0, forall fuel, (fuel0 <= fuel)%nat -> exists s, fst (sample_bridge L fuel fin_t i f dim gen o k) = Ok s.
Proof. intros V Hi Hf. apply (sample_bridge_terminates L dim gen fin_t Hgen neg_rate Hfin HL); auto. Qed.

Lemma backwards_choice f : (f < dim)%nat ->
  let btrans := map (fun i => get_trans L dim fin_t gen i f / rsum dim (fun j => get_trans L dim fin_t gen j f)) (seq 0 dim) in
  is_prob_vector btrans = true /\ (forall i, 0 < nth i btrans 0 -> (i < dim)%nat -> 0 < get_trans L dim fin_t gen i f).
Proof.
  intros Hf btrans.
  assert (NN : forall j, (j < dim)%nat -> 0 <= get_trans L dim fin_t gen j f)
    by (intros j Hj; apply (trans_nonneg L dim gen fin_t Hgen neg_rate Hfin HL); auto).
  assert (SP : 0 < rsum dim (fun j => get_trans L dim fin_t gen j f)).
  { apply (rsum_pos dim _ f); auto. apply (trans_pos_diag L dim gen fin_t Hgen neg_rate Hfin HL); auto. }
  split.
  - unfold is_prob_vector. apply andb_true_iff; split.
    + apply forallb_forall. intros v Hv. apply in_map_iff in Hv as (i & <- & Hi). apply in_seq in Hi.
      apply Rleb_true. apply Rmult_le_pos; [apply NN; lia|left; apply Rinv_0_lt_compat; auto].
    + apply Reqb_true. unfold btrans. rewrite rsum_list, rsum_div. field. lra.
  - intros i Hp Hi. unfold btrans in Hp.
    rewrite (nth_indep _ 0 ((fun i => get_trans L dim fin_t gen i f / rsum dim (fun j => get_trans L dim fin_t gen j f)) 0%nat)) in Hp
      by (rewrite map_length, seq_length; auto).
    rewrite (map_nth (fun i => get_trans L dim fin_t gen i f / rsum dim (fun j => get_trans L dim fin_t gen j f))) in Hp.
    rewrite seq_nth in Hp by auto. simpl in Hp. destruct (NN i Hi) as [|Z]; auto. rewrite <- Z in Hp. unfold Rdiv in Hp. lra.
Qed.

Lemma backwards_gen_ok fuel f : (f < dim)%nat ->
  safe_if uniform_pos (sample_backwards L fuel fin_t f dim gen)
    (fun s => exists i, (i < dim)%nat /\ bridge_path dim fin_t i f s) /\
  safe_if generic (sample_backwards L fuel fin_t f dim gen)
    (fun s => wf_skel s /\ sk_fin s = fin_t /\ Forall (fun j => (j < dim)%nat) (sk_x s) /\ final_state s f).
Proof.
  intros Hf. destruct (backwards_choice f Hf) as [B1 B2]. unfold sample_backwards. split.
  - eapply safe_bind; [apply total_safe, total_choice; apply B1|]. simpl. intros i [Hp Hi].
    rewrite map_length, seq_length in Hi. eapply safe_weaken; [apply bridge_pos_ok; auto|]. simpl; eauto.
  - eapply safe_bind; [apply total_safe, total_choice; apply B1|]. simpl. intros i [Hp Hi].
    rewrite map_length, seq_length in Hi. eapply safe_weaken; [apply bridge_generic_ok; auto|]. simpl; tauto.
Qed.
End G.
