(** The switching chain with its parameter samplers. *)
From Coq Require Import Reals List Bool Arith Lia Lra.
From Verif Require Import Base Np Rng L_rng Mat M_mjp M_inf M_bf M_adapt M_path M_skel M_seed M_models M_sw M_chain M_full SpecAdapt SpecFull L_sw9 L_adapt.
Import ListNotations.
Local Open Scope R_scope.

Lemma bind_ok : forall A B (m : M A) (f : A -> M B) o k b k', bind m f o k = (Ok b, k') -> exists a k1, m o k = (Ok a, k1) /\ f a o k1 = (Ok b, k').
Proof. intros A B m f o k b k' H. unfold bind in H. destruct (m o k) as [[a|e|] k1]; try discriminate. exists a, k1. split; [reflexivity|exact H]. Qed.

(** ** One sampler *)
Lemma transform_some : forall x lb ub, one_sided lb ub x -> exists p, transform_to_reals x lb ub = Some p.
Proof.
  intros x lb ub H. unfold transform_to_reals, np_log. destruct lb as [|l|], ub as [|u|]; cbn in H; try (eexists; reflexivity).
  - rewrite (proj2 (Rltb_true 0 (u - x))) by lra. eexists; reflexivity.
  - rewrite (proj2 (Rltb_true 0 (x - l))) by lra. eexists; reflexivity.
  - rewrite (proj2 (Rltb_true 0 (x - l))) by lra. eexists; reflexivity.
  - rewrite (proj2 (Rltb_true 0 (u - x))) by lra. eexists; reflexivity.
Qed.
Lemma to_reals_some : forall d lb ub (x : vec), (forall i, (i < d)%nat -> one_sided (lb i) (ub i) (x i)) -> exists p, to_reals_vec d lb ub x = Some p.
Proof.
  intros d lb ub x H. unfold to_reals_vec. rewrite (proj2 (forallb_forall _ _)); [eexists; reflexivity|].
  intros i Hi. apply in_seq in Hi. destruct (transform_some (x i) (lb i) (ub i)) as (p & ->); [apply H; lia|reflexivity].
Qed.
Lemma const_one_sided : forall y lb ub, one_sided lb ub (fst (transform_to_const y lb ub)).
Proof. intros y lb ub. pose proof (exp_pos y). destruct lb as [|l|], ub as [|u|]; cbn; auto; lra. Qed.
Lemma adapt_some : forall d lb ub opt decay air sp x p, admissible d lb ub x -> exists sp', mv_adapt d lb ub opt decay air sp (col x) p = Some sp'.
Proof.
  intros d lb ub opt decay air sp x p [_ H]. unfold mv_adapt. destruct (to_reals_some d lb ub (col x) H) as ([sr q] & ->). unfold seq_update_normal.
  destruct (Nat.eqb _ _); eexists; reflexivity.
Qed.
Lemma adapt_state : forall d lb ub opt decay air sp x p sp', mv_adapt d lb ub opt decay air sp x p = Some sp' -> rw_state (mv_rw sp') = x.
Proof.
  intros d lb ub opt decay air sp x p sp' H. unfold mv_adapt in H. destruct (to_reals_vec d lb ub x) as [[sr q]|]; [|discriminate]. unfold seq_update_normal in H.
  destruct (Nat.eqb _ _); injection H as <-; reflexivity.
Qed.
Lemma row_nth : forall d (v : vec) i, (i < d)%nat -> nth i (row d v) 0 = v i.
Proof.
  intros d v i Hi. unfold row. rewrite (nth_indep _ 0 (v 0%nat)) by (rewrite map_length, seq_length; exact Hi). rewrite map_nth, seq_nth by exact Hi. reflexivity.
Qed.
Lemma propose_ok : forall d lb ub mvn sp x, rw_state (mv_rw sp) = col x -> admissible d lb ub x ->
  exists q f b, (forall o k, sampler_propose d lb ub mvn sp o k = (Ok (q, f, b), k)) /\ admissible d lb ub q.
Proof.
  intros d lb ub mvn sp x E [_ H]. unfold sampler_propose, mv_propose. rewrite E. destruct (to_reals_some d lb ub (col x) H) as ([sr q] & ->).
  eexists _, _, _. split; [intros o k; reflexivity|]. split; [unfold row; rewrite map_length, seq_length; reflexivity|].
  intros i Hi. rewrite row_nth by exact Hi. apply const_one_sided.
Qed.

(** ** All samplers *)
Lemma adapt_all_ok : forall d lb ub opt decay air sps acc thi, length sps = length acc -> length sps = length thi -> Forall (admissible d lb ub) thi ->
  exists sps', adapt_all d lb ub opt decay air sps acc thi = Ok sps'.
Proof.
  intros d lb ub opt decay air. induction sps as [|sp sps IH]; intros [|a acc] [|x thi] E1 E2 H; try discriminate; [exists []; reflexivity|].
  inversion H as [|? ? Hx Ht]; subst. cbn [adapt_all]. destruct (adapt_some d lb ub opt decay air sp x (if a then 1 else 0) Hx) as (sp' & ->).
  destruct (IH acc thi) as (r & ->); [cbn in E1; lia|cbn in E2; lia|exact Ht|]. exists (sp' :: r). reflexivity.
Qed.
Lemma adapt_all_nth : forall d lb ub opt decay air sps acc thi sps', length sps = length acc -> length sps = length thi -> adapt_all d lb ub opt decay air sps acc thi = Ok sps' ->
  length sps' = length sps /\ forall i sp', nth_error sps' i = Some sp' -> exists sp a x, nth_error sps i = Some sp /\ nth_error acc i = Some a /\ nth_error thi i = Some x /\
    mv_adapt d lb ub opt decay air sp (col x) (if (a : bool) then 1 else 0) = Some sp'.
Proof.
  intros d lb ub opt decay air. induction sps as [|sp sps IH]; intros [|a acc] [|x thi] sps' E1 E2 H; try discriminate.
  - injection H as <-. split; [reflexivity|]. intros [|i] sp' Hi; discriminate.
  - cbn [adapt_all] in H. destruct (mv_adapt d lb ub opt decay air sp (col x) (if a then 1 else 0)) as [sp1|] eqn:EA; [|discriminate].
    destruct (adapt_all d lb ub opt decay air sps acc thi) as [r|e|] eqn:ER; try discriminate. injection H as <-.
    destruct (IH acc thi r) as [L1 N1]; [cbn in E1; lia|cbn in E2; lia|exact ER|]. split; [cbn; rewrite L1; reflexivity|].
    intros [|i] sp' Hi; cbn [nth_error] in *; [injection Hi as <-; exists sp, a, x; auto|apply N1; exact Hi].
Qed.

Section Rows.
Context (fuel mp max_props : nat) (vol : list (list R) -> nat -> R) (disc : list (list R) -> nat -> R -> R)
  (grad : list R -> list R -> R -> R -> R -> R -> R -> list R) (log_prior : list (list R) -> R) (loglik : list (list R) -> anchorage -> option nat -> R * R)
  (batch : nat) (precoin : bool) (pr_portkey : R) (max_flips : nat).
Lemma section_row : forall propose thi z h i o k acc th z' k', update_params_section fuel mp max_props vol disc grad log_prior loglik batch precoin pr_portkey max_flips propose thi z h i o k = (Ok (acc, th, z'), k') ->
  exists q f b k1, propose o k = (Ok (q, f, b), k1) /\ th = if acc then list_set thi i q else thi.
Proof.
  intros propose thi z h i o k acc th z' k' H. unfold update_params_section in H. destruct (bind_ok _ _ _ _ _ _ _ _ H) as ([[q f] b] & k1 & E & H1). exists q, f, b, k1. split; [exact E|].
  cbv zeta in H1. destruct (bind_ok _ _ _ _ _ _ _ _ H1) as (r & k2 & _ & H2). unfold after_step in H2. destruct (fst r) as [[[[a ?] zz]|]|]; try discriminate; injection H2 as <- <- _ _; reflexivity.
Qed.
Lemma params_rows : forall propose omes thi z h acc thi' z', update_params fuel mp max_props vol disc grad log_prior loglik batch precoin pr_portkey max_flips propose omes thi z h = Ok (acc, thi', z') ->
  length acc = length thi /\ length thi' = length thi /\
  forall i, (i < length thi)%nat -> exists x a, nth_error thi' i = Some x /\ nth_error acc i = Some a /\
    if a : bool then exists q f b k1, propose i (omes i) 0%nat = (Ok (q, f, b), k1) /\ x = q else nth_error thi i = Some x.
Proof.
  intros propose omes thi z h acc thi' z' H. unfold update_params in H. destruct (run_jobs _ _ _) as [parts| |] eqn:E1; cbn [rbind] in H; try discriminate.
  destruct (assemble _ _) as [[th zz]| |] eqn:E2; cbn [rbind] in H; try discriminate. injection H as <- <- <-.
  destruct (run_jobs_nth _ _ _ _ E1) as [L1 N1]. rewrite map_length, seq_length in L1. destruct (assemble_ok _ _ _ _ E2) as (A1 & A2 & A3 & _).
  split; [rewrite map_length; exact L1|]. cbn [fst]. split; [congruence|]. intros i Hi.
  destruct (N1 i _ (nth_map_seq _ _ i Hi)) as ([[a th_i] z_i] & Hp & Ep). rewrite Nat.add_0_l in Ep. destruct (A3 i _ Hp) as [B1 B2]. cbn [fst snd] in B1.
  destruct (update_params_section fuel mp max_props vol disc grad log_prior loglik batch precoin pr_portkey max_flips (propose i) thi z h i (omes i) 0%nat) as [r k'] eqn:ES. cbn [fst] in Ep. subst r.
  destruct (section_row _ _ _ _ _ _ _ _ _ _ _ ES) as (q & f & b & k1 & EQ & HT).
  destruct (nth_error th i) as [x|] eqn:EX; [|congruence]. exists x, a. split; [reflexivity|]. split; [rewrite nth_error_map, Hp; reflexivity|]. rewrite HT in B1. destruct a.
  - exists q, f, b, k1. split; [exact EQ|]. symmetry in B1. apply (nth_error_nth _ _ []) in B1. rewrite L_skel.list_set_nth, Nat.eqb_refl in B1. rewrite (proj2 (Nat.ltb_lt _ _) Hi) in B1. cbn in B1. congruence.
  - congruence.
Qed.
End Rows.
