(** The switching chain with its parameter samplers: refinement and invariants. *)
From Coq Require Import Reals List Bool Arith Lia Lra.
From Verif Require Import Base Np Rng L_rng Mat M_mjp M_inf M_bf M_adapt M_path M_skel M_seed M_models M_sw M_chain M_full SpecAdapt SpecFull L_sw9 L_adapt L_full.
Import ListNotations.
Local Open Scope R_scope.

Lemma bind_case : forall A B (m : M A) (f : A -> M B) o k, bind m f o k = match m o k with (Ok a, k') => f a o k' | (Raise e, k') => (Raise e, k') | (NoFuel, k') => (NoFuel, k') end.
Proof. intros. unfold bind. destruct (m o k) as [[a|e|] k']; reflexivity. Qed.
Section Full.
Context (L : linalg) (dim fuel mp max_props : nat) (lb_x ub_x : ext) (vol : list (list R) -> nat -> R) (disc : list (list R) -> nat -> R -> R) (bounds : list (list R) -> nat -> bounds_fun)
  (grad : list R -> list R -> R -> R -> R -> R -> R -> list R) (log_prior : list (list R) -> R) (loglik : list (list R) -> anchorage -> option nat -> R * R)
  (batch : nat) (precoin : bool) (pr_portkey : R) (max_flips : nat) (t vt : list R) (opt_prob decay : R) (air : nat) (alp bet : omat)
  (d : nat) (lb ub : nat -> ext).
Notation full_update := (full_update L dim fuel mp max_props lb_x ub_x vol disc bounds grad log_prior loglik batch precoin pr_portkey max_flips t vt opt_prob decay air alp bet d lb ub).
Notation full_resume := (full_resume L dim fuel mp max_props lb_x ub_x vol disc bounds grad log_prior loglik batch precoin pr_portkey max_flips t vt opt_prob decay air alp bet d lb ub).
Notation update_joint := (update_joint L dim fuel mp max_props lb_x ub_x vol disc bounds grad log_prior loglik batch precoin pr_portkey max_flips t vt opt_prob decay air alp bet).
Notation resume_sampling := (resume_sampling L dim fuel mp max_props lb_x ub_x vol disc bounds grad log_prior loglik batch precoin pr_portkey max_flips t vt opt_prob decay air alp bet).
Notation full_posterior := (full_posterior L dim fuel mp max_props lb_x ub_x vol disc bounds grad log_prior loglik batch precoin pr_portkey max_flips t vt opt_prob decay air alp bet d lb ub).
Notation sample_posterior := (sample_posterior L dim fuel mp max_props lb_x ub_x vol disc bounds grad log_prior loglik batch precoin pr_portkey max_flips t vt opt_prob decay air alp bet).

Definition feed (i : full_inputs) (sps : list mv) : inputs := mk_inputs (proposals d lb ub (fi_mvn i) sps) (fi_params i) (fi_hidden i).
(** every sampler is at the parameters of its regime *)
Definition synced (c : chain) (sps : list mv) : Prop := length (c_thi c) = length sps /\
  forall i sp x, nth_error sps i = Some sp -> nth_error (c_thi c) i = Some x -> rw_state (mv_rw sp) = col x /\ admissible d lb ub x.
Lemma synced_proposals : forall c sps mvn j, synced c sps -> (j < length sps)%nat ->
  exists q f b, (forall o k, proposals d lb ub mvn sps j o k = (Ok (q, f, b), k)) /\ admissible d lb ub q.
Proof.
  intros c sps mvn j [HL H] Hj. unfold proposals. destruct (nth_error sps j) as [sp|] eqn:E; [|apply nth_error_None in E; lia].
  destruct (nth_error (c_thi c) j) as [x|] eqn:EX; [|apply nth_error_None in EX; lia]. destruct (H j sp x E EX) as [H1 H2]. exact (propose_ok d lb ub (mvn j) sp x H1 H2).
Qed.
Lemma feed_good : forall i c sps, synced c sps -> good_proposals d lb ub (length sps) (feed i sps).
Proof.
  intros i c sps HS. split; intros j Hj; cbn [in_propose feed]; [exact (synced_proposals c sps (fi_mvn i) j HS Hj)|].
  intros o k. unfold proposals. rewrite (proj2 (nth_error_None _ _) Hj). reflexivity.
Qed.
Lemma feed_from : forall i c sps, synced c sps -> from_samplers d lb ub (fi_mvn i) sps (feed i sps).
Proof.
  intros i c sps HS j sp Hj. assert (Hl : (j < length sps)%nat) by (apply nth_error_Some; congruence). destruct (synced_proposals c sps (fi_mvn i) j HS Hl) as (q & f & b & E & _).
  cbn [in_propose feed]. unfold proposals in *. rewrite Hj in *. unfold sampler_propose, mv_propose in *. unfold bind, ret in *.
  specialize (E (Build_oracle (fun _ _ => 0) (fun _ _ => 0%nat)) 0%nat). destruct (to_reals_vec d lb ub (rw_state (mv_rw sp))) as [[x y]|]; [|discriminate].
  eexists _, _, _. split; intros o k; reflexivity.
Qed.
Lemma step_synced : forall c sps i acc thi z sps', synced c sps ->
  update_params fuel mp max_props vol disc grad log_prior loglik batch precoin pr_portkey max_flips (proposals d lb ub (fi_mvn i) sps) (fi_params i) (c_thi c) (c_z c) (c_h c) = Ok (acc, thi, z) ->
  Forall (admissible d lb ub) thi /\ (exists r, adapt_all d lb ub opt_prob decay air sps acc thi = Ok r) /\
  (adapt_all d lb ub opt_prob decay air sps acc thi = Ok sps' -> forall lam z' h' sp', synced (mk_chain thi lam z' h' sp') sps').
Proof.
  intros c sps i acc thi z sps' HS H. destruct (params_rows _ _ _ _ _ _ _ _ _ _ _ _ _ _ _ _ _ _ _ _ H) as (L1 & L2 & R). pose proof HS as [HL HX].
  assert (F : Forall (admissible d lb ub) thi).
  { apply Forall_forall. intros x Hx. destruct (In_nth_error _ _ Hx) as [j Hj]. assert (Hl : (j < length (c_thi c))%nat) by (rewrite <- L2; apply nth_error_Some; congruence).
    destruct (R j Hl) as (y & [|] & Ey & _ & D); rewrite Hj in Ey; injection Ey as <-; [destruct D as (q & f & b & k1 & E & ->)|].
    - destruct (synced_proposals c sps (fi_mvn i) j HS ltac:(lia)) as (q' & f' & b' & E' & A). rewrite E' in E. injection E as <- _ _ _. exact A.
    - destruct (nth_error sps j) as [sp|] eqn:ES; [|apply nth_error_None in ES; lia]. exact (proj2 (HX j sp x ES D)). }
  split; [exact F|]. split; [apply adapt_all_ok; [lia|lia|exact F]|].
  intros HA lam z' h' sp'. assert (Q1 : length sps = length acc) by lia. assert (Q2 : length sps = length thi) by lia. destruct (adapt_all_nth _ _ _ _ _ _ _ _ _ _ Q1 Q2 HA) as [L3 N]. split; [cbn [c_thi]; lia|]. cbn [c_thi].
  intros j sp x Hs Hx. destruct (N j sp Hs) as (sp0 & a & x' & _ & _ & E & EA). rewrite Hx in E. injection E as <-. split; [exact (adapt_state _ _ _ _ _ _ _ _ _ _ EA)|]. rewrite Forall_forall in F. apply F. eapply nth_error_In; eauto.
Qed.
Lemma update_refines : forall i c sps o k, synced c sps -> exists r k', full_update i c sps o k = (r, k') /\ update_joint (feed i sps) c o k = (res_map fst r, k') /\
  (forall c' sps', r = Ok (c', sps') -> synced c' sps' /\ length sps' = length sps).
Proof.
  intros i c sps o k HS. unfold M_full.full_update, M_chain.update_joint, feed. cbn [in_propose in_params in_hidden]. unfold bind at 1. unfold bind at 4.
  destruct (mcmc_update_generator dim (c_h c) alp bet o k) as [[lam|e|] k1]; [|exists (Raise e), k1; repeat split; discriminate|exists NoFuel, k1; repeat split; discriminate].
  unfold bind at 1. unfold bind at 3. unfold lift at 1. unfold lift at 2.
  destruct (update_params fuel mp max_props vol disc grad log_prior loglik batch precoin pr_portkey max_flips (proposals d lb ub (fi_mvn i) sps) (fi_params i) (c_thi c) (c_z c) (c_h c)) as [[[acc thi] z]|e|] eqn:EP;
    [|exists (Raise e), k1; repeat split; discriminate|exists NoFuel, k1; repeat split; discriminate].
  destruct (step_synced c sps i acc thi z [] HS EP) as (_ & (sps' & EA) & _). unfold bind at 1. rewrite EA. unfold lift at 1. cbv beta iota.
  destruct (step_synced c sps i acc thi z sps' HS EP) as (_ & _ & SY). specialize (SY EA).
  destruct (params_rows _ _ _ _ _ _ _ _ _ _ _ _ _ _ _ _ _ _ _ _ EP) as (L1 & L2 & _). destruct HS as [HL _]. assert (Q1 : length sps = length acc) by lia. assert (Q2 : length sps = length thi) by lia. destruct (adapt_all_nth _ _ _ _ _ _ _ _ _ _ Q1 Q2 EA) as [L3 _].
  unfold bind. destruct (update_hidden L fuel mp max_props lb_x ub_x (vol thi) (disc thi) (bounds thi) (loglik thi) batch precoin pr_portkey max_flips t vt opt_prob decay air dim (mat_of lam) (fi_hidden i) (c_sp c) z (c_h c) o k1) as [[[y [[z' h'] sp']]|e|] k2];
    [|exists (Raise e), k2; repeat split; discriminate|exists NoFuel, k2; repeat split; discriminate].
  unfold ret. eexists _, k2. split; [reflexivity|]. split; [reflexivity|]. intros c' s' E. injection E as <- <-. split; [apply SY|exact L3].
Qed.
Lemma resume_refines : forall okin ins c sps o k, synced c sps -> Forall okin ins -> exists r k' ins', full_resume ins c sps o k = (r, k') /\ resume_sampling ins' c o k = (res_map (map fst) r, k') /\
  Forall2 same_draws ins ins' /\ Forall (good_proposals d lb ub (length sps)) ins' /\
  (forall l, r = Ok l -> Forall (fun s => synced (fst s) (snd s) /\ length (snd s) = length sps) l /\
    forall n i i' ss, nth_error ins n = Some i -> nth_error ins' n = Some i' -> nth_error (sps :: map snd l) n = Some ss -> from_samplers d lb ub (fi_mvn i) ss i').
Proof.
  intros okin. induction ins as [|i ins IH]; intros c sps o k HS HF.
  - exists (Ok []), k, []. split; [reflexivity|]. split; [reflexivity|]. split; [constructor|]. split; [constructor|]. intros l E. injection E as <-. split; [constructor|]. intros [|n] i i' ss; discriminate.
  - inversion HF as [|? ? Hi Ht]; subst. destruct (update_refines i c sps o k HS) as (r & k1 & E1 & E2 & E3).
    assert (FI : forall i, good_proposals d lb ub (length sps) (feed i sps)) by (intros y; exact (feed_good y c sps HS)).
    cbn [M_full.full_resume]. unfold bind at 1. rewrite E1. destruct r as [[c' sps']|e|].
    + destruct (E3 c' sps' eq_refl) as [S1 S2]. destruct (IH c' sps' o k1 S1 Ht) as (r & k2 & ins' & F1 & F2 & F3 & F4 & F5). unfold bind. cbn [fst snd]. rewrite F1.
      exists (match r with Ok l => Ok ((c', sps') :: l) | Raise e => Raise e | NoFuel => NoFuel end), k2, (feed i sps :: ins'). split; [destruct r; reflexivity|].
      split; [cbn [M_chain.resume_sampling]; unfold bind; rewrite E2; cbn [res_map fst]; rewrite F2; destruct r; reflexivity|].
      split; [constructor; [split; reflexivity|exact F3]|]. split; [constructor; [exact (FI i)|rewrite S2 in F4; exact F4]|].
      intros l E. destruct r as [l0|e|]; try discriminate. injection E as <-. destruct (F5 l0 eq_refl) as [F6 F7]. split; [constructor; [split; assumption|]; rewrite S2 in F6; exact F6|].
      intros [|n] i0 i' ss N1 N2 N3.
      * injection N1 as <-. injection N2 as <-. injection N3 as <-. exact (feed_from i c sps HS).
      * exact (F7 n i0 i' ss N1 N2 N3).
    + exists (Raise e), k1, (feed i sps :: map (fun j => feed j sps) ins). split; [reflexivity|]. split; [cbn [M_chain.resume_sampling]; unfold bind; rewrite E2; reflexivity|].
      split; [constructor; [split; reflexivity|clear; induction ins; constructor; [split; reflexivity|assumption]]|].
      split; [constructor; [exact (FI i)|]|discriminate]. apply Forall_forall. intros x Hx. apply in_map_iff in Hx. destruct Hx as (y & <- & _). exact (FI y).
    + exists NoFuel, k1, (feed i sps :: map (fun j => feed j sps) ins). split; [reflexivity|]. split; [cbn [M_chain.resume_sampling]; unfold bind; rewrite E2; reflexivity|].
      split; [constructor; [split; reflexivity|clear; induction ins; constructor; [split; reflexivity|assumption]]|].
      split; [constructor; [exact (FI i)|]|discriminate]. apply Forall_forall. intros x Hx. apply in_map_iff in Hx. destruct Hx as (y & <- & _). exact (FI y).
Qed.
Lemma start_synced : forall init lam z h sp, admissible d lb ub init -> synced (mk_chain (repeat init dim) lam z h sp) (repeat (mv_init (col init) opt_prob) dim).
Proof.
  intros init lam z h sp H. split; [cbn [c_thi]; rewrite !repeat_length; reflexivity|]. cbn [c_thi]. intros i s x Hs Hx.
  apply nth_error_In in Hs, Hx. apply repeat_spec in Hs, Hx. subst. split; [reflexivity|exact H].
Qed.
(** the chain with samplers is the chain with proposals from outside, for suitable admissible proposals *)
Lemma full_refines : forall init ins o k, admissible d lb ub init -> exists ins', Forall2 same_draws ins ins' /\
  Forall (good_proposals d lb ub dim) ins' /\
  (sample_posterior init ins' o k = (res_map (map fst) (fst (full_posterior init ins o k)), snd (full_posterior init ins o k)) /\
  forall l, fst (full_posterior init ins o k) = Ok l -> forall n i i' sps, nth_error ins n = Some i -> nth_error ins' n = Some i' ->
    nth_error (repeat (mv_init (fun j => nth j init 0) opt_prob) dim :: map snd l) n = Some sps -> from_samplers d lb ub (fi_mvn i) sps i').
Proof.
  intros init ins o k HA. unfold M_full.full_posterior, M_chain.sample_posterior.
  assert (DUMMY : exists ins', Forall2 same_draws ins ins' /\ Forall (good_proposals d lb ub dim) ins').
  { exists (map (fun i => mk_inputs (fun j => if (j <? dim)%nat then ret (init, 0, 0) else raise IndexError) (fi_params i) (fi_hidden i)) ins). split; [clear; induction ins; constructor; [split; reflexivity|assumption]|].
    apply Forall_forall. intros x Hx. apply in_map_iff in Hx. destruct Hx as (y & <- & _). split; intros j Hj; cbn [in_propose].
    - exists init, 0, 0. rewrite (proj2 (Nat.ltb_lt _ _) Hj). split; [reflexivity|exact HA].
    - rewrite (proj2 (Nat.ltb_ge _ _) Hj). reflexivity. }
  cbv zeta. destruct (lift_opt IndexError (last_opt t) o k) as [[fin|e|] k1] eqn:E1; [|destruct DUMMY as (x & X1 & X2); exists x; split; [exact X1|split; [exact X2|]]; rewrite !bind_case, E1; (split; [reflexivity|discriminate])|destruct DUMMY as (x & X1 & X2); exists x; split; [exact X1|split; [exact X2|]]; rewrite !bind_case, E1; (split; [reflexivity|discriminate])].
  destruct (sample_forwards L fuel fin None dim (mat_of (get_ev dim alp bet)) o k1) as [[y|e|] k2] eqn:E2; [|destruct DUMMY as (x & X1 & X2); exists x; split; [exact X1|split; [exact X2|]]; rewrite !bind_case, E1; rewrite !bind_case, E2; (split; [reflexivity|discriminate])|destruct DUMMY as (x & X1 & X2); exists x; split; [exact X1|split; [exact X2|]]; rewrite !bind_case, E1; rewrite !bind_case, E2; (split; [reflexivity|discriminate])].
  destruct (sample_aug fuel mp max_props lb_x ub_x (vol (repeat init dim)) y t vt o k2) as [[[z h]|e|] k3] eqn:E3; [|destruct DUMMY as (x & X1 & X2); exists x; split; [exact X1|split; [exact X2|]]; rewrite !bind_case, E1; rewrite !bind_case, E2; rewrite !bind_case, E3; (split; [reflexivity|discriminate])|destruct DUMMY as (x & X1 & X2); exists x; split; [exact X1|split; [exact X2|]]; rewrite !bind_case, E1; rewrite !bind_case, E2; rewrite !bind_case, E3; (split; [reflexivity|discriminate])].
  destruct (resume_refines (fun _ => True) ins _ _ o k3 (start_synced init (mat_of (get_ev dim alp bet)) z h (rw_init y opt_prob 0) HA)) as (r & k' & ins' & F1 & F2 & F3 & F4 & F5); [apply Forall_forall; auto|].
  exists ins'. split; [exact F3|]. split; [rewrite repeat_length in F4; exact F4|]. rewrite !bind_case, E1; rewrite !bind_case, E2; rewrite !bind_case, E3. cbn [fst snd]. rewrite F1. cbn [fst snd]. split; [exact F2|]. intros l E. exact (proj2 (F5 l E)).
Qed.
End Full.
