(** Scripts and witnesses for the statements about the jump-process samplers. *)
From Coq Require Import Reals List ZArith Bool Arith Lia Lra Sorted.
From Verif Require Import Base Np Rng Mat M_mjp SpecMjp SpecLin L_list L_path L_rng L_mat L_sim L_bridge L_bridge2 L_bridge3 L_mutate L_ppp L_stat L_lindemo.
Import ListNotations.
Local Open Scope R_scope.

(** all draws constant *)
Definition script_const (u e b : R) (p c : nat) : script := {|
  sc_u := fun _ => u; sc_e := fun _ => e; sc_b := fun _ => b; sc_n := fun _ => 0; sc_w := fun _ => 1;
  sc_g := fun _ => 1; sc_l := fun _ => 1; sc_p := fun _ => p; sc_c := fun _ => c; sc_k := fun _ => 0%nat |}.
Lemma script_const_ok u e b p c : 0 <= u < 1 -> 0 < e -> 0 < b < 1 -> script_ok (script_const u e b p c).
Proof. intros. constructor; simpl; auto; intros; lra. Qed.

(** draws with pairwise distinct uniforms *)
Definition script_generic : script := {|
  sc_u := fun k => / (INR k + 2); sc_e := fun _ => 1; sc_b := fun _ => 1/2; sc_n := fun _ => 0; sc_w := fun _ => 1;
  sc_g := fun _ => 1; sc_l := fun _ => 1; sc_p := fun _ => 1%nat; sc_c := fun _ => 0%nat; sc_k := fun _ => 0%nat |}.
Lemma script_generic_ok : script_ok script_generic.
Proof.
  constructor; simpl; intros; try lra. pose proof (pos_INR k).
  assert (0 < / (INR k + 2)) by (apply Rinv_0_lt_compat; lra).
  split; [lra|]. rewrite <- Rinv_1. apply Rinv_lt_contravar; lra.
Qed.
Lemma generic_exists : exists o, valid o /\ generic o.
Proof.
  exists (oracle_of script_generic). split; [apply oracle_of_valid, script_generic_ok|]. split.
  - intros k lo hi H. simpl. pose proof (pos_INR k).
    assert (0 < / (INR k + 2)) by (apply Rinv_0_lt_compat; lra). nra.
  - intros k k' lo hi H N E. simpl in E. apply N, INR_eq.
    assert (E2 : / (INR k + 2) = / (INR k' + 2)).
    { apply Rmult_eq_reg_l with (hi - lo); lra. }
    assert (INR k + 2 = INR k' + 2); [|lra]. rewrite <- (Rinv_inv (INR k + 2)), E2, Rinv_inv. reflexivity.
Qed.

(** a zero uniform makes sample_bridge stay in init_x *)
Lemma bridge_zero_uniform : exists o s, valid o /\
  fst (sample_bridge la0 1 1 0 1 2 gen2 o 0%nat) = Ok s /\ final_state s 0%nat /\ ~ final_state s 1%nat.
Proof.
  exists (oracle_of (script_const 0 1 (1/2) 1 0)), (mk_skel [0] [0%nat] 1). 
  assert (V : valid (oracle_of (script_const 0 1 (1/2) 1 0))) by (apply oracle_of_valid, script_const_ok; lra).
  split; auto. split; [|split].
  - unfold sample_bridge, sample_n_trans, bind, draw_r, lift, ret.
    set (v := ora_r _ 0 (DUniform 0 1)). assert (Ev : v = 0) by (unfold v; simpl; ring). rewrite Ev.
    assert (E0 : eln 0 = NegInf) by apply eln_0. rewrite E0. cbn [eplus n_trans_loop eltb Nat.eqb]. reflexivity.
  - exists []. reflexivity.
  - intros ([|a x] & H); simpl in H; inversion H. destruct x; discriminate.
Qed.

Lemma exp_gen2_pos : 0 < get_trans la0 2 1 gen2 0%nat 1%nat.
Proof. apply (trans_all_pos la0 2 gen2); auto using gen2_generator, gen2_pos, la0_expm; lra. Qed.

(** two batches of one point each: the second lies beyond the bound *)
Lemma ppp_out_of_bounds : exists o bts pt, valid o /\ fst (sample_batch_ppp 1 [1] 1 o 0%nat) = Ok bts /\
  In pt (concat bts) /\ 1 < hd 0 pt.
Proof.
  set (o := oracle_of (script_const 0 1 (9/10) 2 0)).
  assert (V : valid o) by (apply oracle_of_valid, script_const_ok; lra).
  exists o. destruct (sample_batch_ppp_ok 1 [] Rlt_0_1 (Forall_nil _) 1 1 o 0 Rlt_0_1 Nat.lt_0_1 V) as (bts & E & _).
  assert (E2 : fst (sample_batch_ppp 1 [1] 1 o 0%nat) = Ok [[[0 + 1 * (9/10)]]; [[0 + 1 * (9/10) + 1 * (9/10)]]]).
  { unfold sample_batch_ppp, ppp_start, bind, assert_, lift_opt, draw_n, ret. cbn [hd_error tl np_min_from].
    rewrite (proj2 (Rltb_true 0 1) Rlt_0_1). cbn [Nat.ltb Nat.leb].
    assert (EN : ora_n o 0 (DPoisson (1 * np_prod [1])) = 2%nat).
    { simpl. destruct (Reqb_dec (1 * (1 * 1)) 0) as [[H _]|[_ ->]]; auto. lra. }
    rewrite EN. reflexivity. }
  eexists _, [0 + 1 * (9/10) + 1 * (9/10)]. split; auto. split; [exact E2|]. split; [right; left; reflexivity|]. simpl. lra.
Qed.

(** shape of the batches *)
Lemma batch_shape n m (bts : list (list (list R))) : (0 < m)%nat -> map (@length _) bts = batch_sizes n m ->
  length (concat bts) = n /\
  forall i b, nth_error bts i = Some b -> (1 <= length b <= m)%nat /\ ((S i < length bts)%nat -> length b = m).
Proof.
  intros Hm E. split.
  - rewrite length_concat, E. apply batch_sizes_spec; auto.
  - intros i b Hb. assert (Hi : (i < length bts)%nat) by (apply nth_error_Some; congruence).
    assert (LB : length bts = length (batch_sizes n m)) by (rewrite <- E, map_length; auto).
    assert (Eb : nth_error (batch_sizes n m) i = Some (length b)) by (rewrite <- E, nth_error_map, Hb; auto).
    rewrite LB in *. unfold batch_sizes in *. set (q := (n / m)%nat) in *. 
    pose proof (Nat.mod_upper_bound n m ltac:(lia)) as U.
    rewrite app_length, repeat_length in *. destruct (Nat.lt_ge_cases i q) as [H|H].
    + rewrite nth_error_app1 in Eb by (rewrite repeat_length; auto).
      apply nth_error_In, repeat_spec in Eb. lia.
    + rewrite nth_error_app2 in Eb by (rewrite repeat_length; auto). rewrite repeat_length in Eb.
      destruct (Nat.eqb_spec (n mod m) 0) as [Z|Z]; [destruct (i - q)%nat; discriminate|].
      simpl in *. destruct (i - q)%nat as [|d] eqn:D; simpl in Eb; [|destruct d; discriminate]. inversion Eb. lia.
Qed.

Lemma choice_vector dim gen m cur f pows : generator dim gen -> (exists a, (a < dim)%nat /\ gen a a < 0) ->
  (exists n, (S m <= n)%nat /\ pows = map (mpow dim (dtrans dim gen)) (seq 0 (S n))) ->
  (cur < dim)%nat -> (f < dim)%nat -> 0 < mpow dim (dtrans dim gen) (S m) cur f ->
  is_prob_vector (bridge_probs dim (dtrans dim gen) pows m cur f) = true /\
  forall j, (j < dim)%nat -> 0 < nth j (bridge_probs dim (dtrans dim gen) pows m cur f) 0 -> 0 < mpow dim (dtrans dim gen) m j f.
Proof.
  intros HG HN (n & Hn & ->) Hc Hf HP. pose proof (neg_rate dim gen HN) as HR. split.
  - apply bridge_probs_ok; auto.
  - intros j Hj H. change (map (mpow dim (dtrans dim gen)) (seq 0 (S n))) with (powers dim gen n) in H.
    rewrite bridge_probs_nth in H by auto.
    destruct (proj1 (stochastic_mpow dim _ m (dtrans_stochastic dim gen HG HR)) j f Hj Hf) as [P|Z]; auto.
    rewrite <- Z in H. unfold Rdiv in H. rewrite Rmult_0_r, Rmult_0_l in H. lra.
Qed.

Lemma batch_ppp_points b0 bs intensity m o k :
  0 < b0 -> Forall (fun b => 0 < b) bs -> 0 < intensity -> (0 < m)%nat -> valid o ->
  exists bts, fst (sample_batch_ppp intensity (b0 :: bs) m o k) = Ok bts /\
    length (concat bts) = ora_n o k (DPoisson (intensity * fold_right Rmult 1 (b0 :: bs))) /\
    (forall i b, nth_error bts i = Some b -> (1 <= length b <= m)%nat /\ ((S i < length bts)%nat -> length b = m)) /\
    Forall (fun pt => exists t r, pt = t :: r /\ 0 <= t /\ Forall2 (fun b u => 0 <= u < b) bs r) (concat bts) /\
    StronglySorted Rle (map (hd 0) (concat bts)).
Proof.
  intros H1 H2 H3 H4 V. destruct (sample_batch_ppp_ok b0 bs H1 H2 intensity m o k H3 H4 V) as (bts & E & E2 & E3 & E4 & _).
  exists bts. destruct (batch_shape _ m bts H4 E2) as [S1 S2]. split; auto.
Qed.
Lemma batch_ppp_bound b0 bs intensity m o k bts :
  0 < b0 -> Forall (fun b => 0 < b) bs -> 0 < intensity -> (0 < m)%nat -> valid o ->
  fst (sample_batch_ppp intensity (b0 :: bs) m o k) = Ok bts ->
  Forall (fun pt => 0 <= hd 0 pt <= INR (length bts) * b0) (concat bts) /\
  ((ora_n o k (DPoisson (intensity * fold_right Rmult 1%R (b0 :: bs))%R) <= m)%nat -> Forall (fun pt => 0 <= hd 0 pt <= b0) (concat bts)).
Proof.
  intros H1 H2 H3 H4 V E. destruct (sample_batch_ppp_ok b0 bs H1 H2 intensity m o k H3 H4 V) as (bts' & E1 & E2 & E3 & E4 & E5).
  rewrite E in E1. inversion E1; subst bts'.
  assert (F : Forall (fun pt => 0 <= hd 0 pt <= INR (length bts) * b0) (concat bts)).
  { rewrite Forall_forall in *. intros pt Hp. apply E5, in_map; auto. }
  split; auto. intros HN. eapply Forall_impl; [|apply F]. simpl. intros pt Hp.
  assert (HL : (length bts <= 1)%nat).
  { destruct (batch_shape _ m bts H4 E2) as [S1 S2]. change (np_prod (b0 :: bs)) with (fold_right Rmult 1 (b0 :: bs)) in S1.
    destruct bts as [|a [|b bts]]; cbn [length]; try lia.
    destruct (S2 0%nat a eq_refl) as [_ A]. destruct (S2 1%nat b eq_refl) as [B _]. specialize (A ltac:(cbn [length]; lia)).
    cbn [concat] in S1. rewrite !app_length in S1. lia. }
  apply le_INR in HL. simpl in HL. nra.
Qed.

Lemma forwards_term L d fuel fin_t dim gen i :
  0 < d -> (2 <= dim)%nat -> (forall a b, (a < dim)%nat -> (b < dim)%nat -> a <> b -> 0 <= gen a b) -> (i < dim)%nat ->
  fin_t < INR fuel * d ->
  forall o k, valid o -> (forall k' sc, d <= ora_r o k' (DExp sc)) ->
  exists s, fst (sample_forwards L (S fuel) fin_t (Some i) dim gen o k) = Ok s.
Proof.
  intros H1 H2 H3 H4 H5 o k V HD.
  pose proof (forwards_loop_term d fuel fin_t dim gen H1 H2 H3 [] [] (Fin 0) i H4 ltac:(simpl; lra) o k V HD) as T.
  change (sample_forwards L (S fuel) fin_t (Some i) dim gen o k) with (forwards_loop (S fuel) fin_t dim gen [] [] (Fin 0) i o k).
  destruct (fst _) as [s|e|]; try contradiction. eauto.
Qed.

Lemma gen2_power : 0 < mpow 2 (dtrans 2 gen2) 2 0%nat 1%nat.
Proof.
  assert (RB : rate_bound 2 gen2 = 2).
  { unfold rate_bound. simpl. destruct (Rltb_dec (-2) (-1)) as [[_ ->]|[H _]]; lra. }
  unfold mpow, mmul, dtrans. rewrite RB. unfold mident. simpl. lra.
Qed.
