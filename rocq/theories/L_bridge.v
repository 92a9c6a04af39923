(** Lemmas about sample_bridge and sample_backwards (mjplib/skeleton.py). *)
From Coq Require Import Reals List ZArith Bool Arith Lia Lra Sorted Permutation.
From Verif Require Import Base Np Rng Mat M_mjp SpecMjp L_list L_path L_part L_path2 L_rng L_mat L_sim.
Import ListNotations.
Local Open Scope R_scope.

(** ** the minimum of the diagonal *)
Lemma np_min_from_le (d : R) l : np_min_from d l <= d.
Proof.
  revert d; induction l as [|a l IH]; intros d; simpl; [lra|].
  eapply Rle_trans; [apply IH|]. destruct (Rltb_dec a d) as [[L ->]|[L ->]]; lra.
Qed.
Lemma np_min_from_in (d : R) l a : In a l -> np_min_from d l <= a.
Proof.
  revert d; induction l as [|b l IH]; intros d; simpl; [tauto|]. intros [->|H].
  - eapply Rle_trans; [apply np_min_from_le|]. destruct (Rltb_dec a d) as [[L ->]|[L ->]]; lra.
  - apply IH; auto.
Qed.
Lemma np_min_from_mem (d : R) l : np_min_from d l = d \/ In (np_min_from d l) l.
Proof.
  revert d; induction l as [|b l IH]; intros d; simpl; auto.
  destruct (IH (if Rltb b d then b else d)) as [E|H]; auto.
  rewrite E. destruct (Rltb b d); auto.
Qed.
Lemma rate_bound_ge dim gen i : (i < dim)%nat -> - gen i i <= rate_bound dim gen.
Proof.
  intros H. unfold rate_bound. apply Ropp_le_contravar.
  destruct i; [apply np_min_from_le|]. apply np_min_from_in.
  apply (in_map (fun i => gen i i)). apply in_seq. lia.
Qed.

Lemma Rdiv_le_1 a b : 0 < b -> a <= b -> a / b <= 1.
Proof.
  intros H1 H2. unfold Rdiv. rewrite <- (Rinv_r b) by lra.
  apply Rmult_le_compat_r; auto. left. apply Rinv_0_lt_compat; auto.
Qed.

Section Bridge.
Variables (dim : nat) (gen : mat).
Hypothesis Hgen : generator dim gen.
Hypothesis Hrb : 0 < rate_bound dim gen.
Let P := dtrans dim gen.

Lemma dtrans_stochastic : stochastic dim P.
Proof.
  destruct Hgen as [G1 G2]. split.
  - intros i j Hi Hj. unfold P, dtrans, mident. destruct (Nat.eqb_spec i j) as [->|N].
    + pose proof (rate_bound_ge dim gen j Hj) as B.
      assert (- gen j j / rate_bound dim gen <= 1) by (apply (Rdiv_le_1 _ _ Hrb); exact B).
      unfold Rdiv in *. lra.
    + specialize (G1 i j Hi Hj N). assert (0 <= gen i j / rate_bound dim gen) by (apply Rle_mult_inv_pos; auto). lra.
  - intros i Hi. unfold P, dtrans. rewrite rsum_plus, rsum_div, G2 by auto.
    rewrite (proj2 (stochastic_ident dim) i Hi). unfold Rdiv; lra.
Qed.

Definition powers (n : nat) : list mat := map (mpow dim P) (seq 0 (S n)).
Lemma powers_S n : powers (S n) = powers n ++ [mpow dim P (S n)].
Proof. unfold powers. rewrite (seq_S (S n)), map_app. reflexivity. Qed.
Lemma powers_hd_rev n : hd mident (rev (powers n)) = mpow dim P n.
Proof.
  unfold powers. rewrite seq_S, map_app, rev_app_distr. reflexivity.
Qed.
Lemma powers_nth n m : (m <= n)%nat -> nth m (powers n) mident = mpow dim P m.
Proof.
  intros H. unfold powers. rewrite (nth_indep _ mident (mpow dim P 0)) by (rewrite map_length, seq_length; lia).
  rewrite map_nth, seq_nth by lia. reflexivity.
Qed.

(** the loop: what it returns when it stops *)
Lemma n_trans_loop_spec fuel lam i f u : forall n p m l,
  n_trans_loop fuel dim P lam i f u n p (rev (powers n)) = Ok (m, l) ->
  (n <= m)%nat /\ l = powers m /\ (m = n -> eltb p u = false) /\ ((n < m)%nat -> mpow dim P m i f <> 0).
Proof.
  induction fuel as [|fuel IH]; intros n p m l; cbn [n_trans_loop]; [discriminate|].
  destruct (eltb p u) eqn:E.
  - rewrite powers_hd_rev. change (mmul dim (mpow dim P n) P) with (mpow dim P (S n)).
    replace (mpow dim P (S n) :: rev (powers n)) with (rev (powers (S n)))
      by (rewrite powers_S, rev_app_distr; reflexivity).
    intros H. apply IH in H as (H1 & H2 & H3 & H4). repeat split; auto; try lia.
    intros _. destruct (Nat.eq_dec m (S n)) as [->|N]; [|apply H4; lia].
    specialize (H3 eq_refl). destruct (Reqb_dec (mpow dim P (S n) i f) 0) as [[Z EQ]|[Z EQ]]; auto.
    rewrite EQ in H3. congruence.
  - intros H; injection H as <- <-. repeat split; auto; try lia. apply (rev_involutive (powers n)).
Qed.

(** the probability vector of a step *)
Lemma bridge_probs_nth n m cur f j : (S m <= n)%nat -> (j < dim)%nat ->
  nth j (bridge_probs dim P (powers n) m cur f) 0 = P cur j * mpow dim P m j f / mpow dim P (S m) cur f.
Proof.
  intros H Hj. unfold bridge_probs.
  match goal with |- nth j (map ?g _) 0 = _ => rewrite (nth_indep _ 0 (g 0%nat)) by (rewrite map_length, seq_length; auto);
    rewrite (map_nth g) end.
  rewrite seq_nth by auto. simpl plus. rewrite !powers_nth by lia. reflexivity.
Qed.
Lemma bridge_probs_ok n m cur f : (S m <= n)%nat -> (cur < dim)%nat -> (f < dim)%nat ->
  0 < mpow dim P (S m) cur f ->
  is_prob_vector (bridge_probs dim P (powers n) m cur f) = true.
Proof.
  intros H Hc Hf Hp. destruct dtrans_stochastic as [S1 S2].
  apply is_prob_vector_spec. split.
  - intros x Hx. unfold bridge_probs in Hx. apply in_map_iff in Hx as (j & <- & Hj). apply in_seq in Hj.
    rewrite !powers_nth by lia. apply Rle_mult_inv_pos; auto. apply Rmult_le_pos; [apply S1; lia|].
    apply (stochastic_mpow dim P m dtrans_stochastic); lia.
  - unfold bridge_probs. rewrite rsum_list, rsum_div.
    rewrite (rsum_ext dim _ (fun j => P cur j * mpow dim P m j f)) by (intros; rewrite powers_nth by lia; auto).
    rewrite powers_nth by lia.
    change (rsum dim (fun j => P cur j * mpow dim P m j f)) with (mmul dim P (mpow dim P m) cur f).
    rewrite mpow_comm by auto. field. lra.
Qed.

Lemma bridge_states_spec G n f : (f < dim)%nat -> forall steps cur, (S steps <= n)%nat -> (cur < dim)%nat ->
  0 < mpow dim P (S steps) cur f ->
  total_if G (bridge_states dim P (powers n) f steps cur)
    (fun xs => length xs = steps /\ Forall (fun i => (i < dim)%nat) xs).
Proof.
  intros Hf. induction steps as [|m IH]; intros cur Hs Hc Hp; cbn [bridge_states].
  - apply total_ret; auto.
  - eapply total_bind; [apply total_choice, bridge_probs_ok; auto; lia|].
    intros y [Hy1 Hy2]. unfold bridge_probs in Hy2. rewrite map_length, seq_length in Hy2.
    rewrite bridge_probs_nth in Hy1 by (auto; lia).
    assert (HY : 0 < mpow dim P (S m) y f).
    { pose proof (proj1 (stochastic_mpow dim P (S m) dtrans_stochastic) y f Hy2 Hf) as N0.
      destruct (Req_dec (mpow dim P (S m) y f) 0) as [Z|Z]; [|lra].
      rewrite Z in Hy1. unfold Rdiv in Hy1. rewrite Rmult_0_r, Rmult_0_l in Hy1. lra. }
    eapply total_bind; [apply IH; auto; lia|].
    intros ys [H1 H2]. apply total_ret. simpl. split; auto.
Qed.

Lemma bridge_states_returns G f steps : forall pows cur,
  returns_if G (bridge_states dim P pows f steps cur)
    (fun xs => length xs = steps /\ Forall (fun i => (i < dim)%nat) xs).
Proof.
  induction steps as [|m IH]; intros pows cur; cbn [bridge_states].
  - apply returns_ret; auto.
  - eapply returns_bind; [apply returns_choice|]. intros y [_ Hy].
    unfold bridge_probs in Hy. rewrite map_length, seq_length in Hy.
    eapply returns_bind; [apply IH|]. intros ys [H1 H2]. apply returns_ret. simpl; auto.
Qed.
End Bridge.

(** ** times of the jumps *)
Lemma draw_uniforms G lo hi n : lo < hi ->
  total_if G (draw_rs (repeat (DUniform lo hi) n)) (fun l => length l = n /\ Forall (fun u => lo <= u < hi) l).
Proof.
  intros H. eapply total_weaken; [apply total_draw_rs|]. intros l HF.
  remember (repeat (DUniform lo hi) n) as ds eqn:E. revert n E.
  induction HF as [|d x ds xs Hx HF IH]; intros n E; destruct n; try discriminate; simpl in *; auto.
  inversion E; subst. destruct (IH n eq_refl) as [L1 L2]. split; [auto|]. constructor; auto.
  destruct Hx as (u & Hu & ->). split; [|].
  - assert (0 <= (hi - lo) * u) by (apply Rmult_le_pos; lra). lra.
  - assert ((hi - lo) * u < (hi - lo) * 1) by (apply Rmult_lt_compat_l; lra). lra.
Qed.
Lemma draw_uniforms_generic lo hi n : lo < hi ->
  total_if generic (draw_rs (repeat (DUniform lo hi) n))
    (fun l => length l = n /\ Forall (fun u => lo < u < hi) l /\ NoDup l).
Proof.
  intros H o k V [G1 G2]. pose proof (draw_uniforms generic lo hi n H o k V (conj G1 G2)) as HD.
  rewrite draw_rs_repeat in *. simpl in *. destruct HD as [L1 L2]. split; auto. split.
  - rewrite Forall_forall in *. intros u Hu. specialize (L2 u Hu).
    apply in_map_iff in Hu as (i & <- & Hi). specialize (G1 i lo hi H). lra.
  - clear L1 L2. apply NoDup_nth_error. intros i j Hi E. rewrite map_length, seq_length in Hi.
    assert (Hj : (j < n)%nat).
    { apply not_ge. intros GE. rewrite (proj2 (nth_error_None _ j)) in E by (rewrite map_length, seq_length; auto).
      apply nth_error_None in E. rewrite map_length, seq_length in E. lia. }
    rewrite !nth_error_map, !(nth_error_nth' _ 0%nat), !seq_nth in E by (rewrite ?seq_length; auto).
    simpl in E. inversion E as [E']. destruct (Nat.eq_dec i j) as [|N]; auto.
    exfalso. apply (G2 (k + i)%nat (k + j)%nat lo hi H); auto; lia.
Qed.
Lemma NoDup_sorted_lt l : NoDup l -> StronglySorted Rle l -> StronglySorted Rlt l.
Proof.
  induction 2 as [|a l Hs IH HF]; constructor; inversion H; subst; auto.
  rewrite Forall_forall in *. intros b Hb. specialize (HF b Hb).
  destruct (Req_dec a b) as [->|N]; [contradiction|lra].
Qed.

(** ** removing virtual jumps keeps the first and the last state *)
Lemma dv_last i J : last (map snd (dv i J)) i = last (map snd J) i.
Proof.
  revert i; induction J as [|[a x] J IH]; intros i; auto. simpl dv.
  destruct (Nat.eqb_spec x i) as [->|N].
  - rewrite IH. cbn [map snd]. rewrite (last_cons' (map snd J) i i). reflexivity.
  - cbn [map snd]. rewrite !last_cons'. apply IH.
Qed.
