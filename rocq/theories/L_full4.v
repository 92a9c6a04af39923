(** Adaptation of the parameter samplers within the switching chain. *)
From Coq Require Import Reals List Bool Arith Lia Lra FunctionalExtensionality.
From Verif Require Import Base Np Rng L_rng Mat M_mjp M_inf M_bf M_adapt M_path M_skel M_seed M_models M_sw M_chain M_full SpecLin SpecInf SpecSkel SpecSw SpecChain SpecAdapt SpecFull L_sw9 L_sw10 L_adapt L_adapt2 L_full L_full2 L_full3.
Import ListNotations.
Local Open Scope R_scope.

Definition free_lb (lb ub : nat -> ext) (i : nat) : ext := match lb i, ub i with Fin _, Fin _ => NegInf | _, _ => lb i end.
Definition free_ub (lb ub : nat -> ext) (i : nat) : ext := match lb i, ub i with Fin _, Fin _ => PosInf | _, _ => ub i end.
Lemma transform_free : forall lb ub x i, transform_to_reals x (free_lb lb ub i) (free_ub lb ub i) = transform_to_reals x (lb i) (ub i).
Proof. intros lb ub x i. unfold free_lb, free_ub. destruct (lb i), (ub i); reflexivity. Qed.
Lemma adapt_free : forall d lb ub opt decay air, mv_adapt d (free_lb lb ub) (free_ub lb ub) opt decay air = mv_adapt d lb ub opt decay air.
Proof.
  intros d lb ub opt decay air. do 3 (apply functional_extensionality; intro). unfold mv_adapt. replace (to_reals_vec d (free_lb lb ub) (free_ub lb ub) x0) with (to_reals_vec d lb ub x0); [reflexivity|].
  unfold to_reals_vec.
  assert (E : forall i, transform_to_reals (x0 i) (free_lb lb ub i) (free_ub lb ub i) = transform_to_reals (x0 i) (lb i) (ub i)) by (intros i; apply transform_free).
  assert (E1 : (fun i => transform_to_reals (x0 i) (free_lb lb ub i) (free_ub lb ub i)) = (fun i => transform_to_reals (x0 i) (lb i) (ub i))) by (apply functional_extensionality; exact E).
  change (fun i => match transform_to_reals (x0 i) (free_lb lb ub i) (free_ub lb ub i) with Some _ => true | None => false end) with (fun i => match (fun i => transform_to_reals (x0 i) (free_lb lb ub i) (free_ub lb ub i)) i with Some _ => true | None => false end).
  change (fun i => match transform_to_reals (x0 i) (free_lb lb ub i) (free_ub lb ub i) with Some (y, _) => y | None => 0 end) with (fun i => match (fun i => transform_to_reals (x0 i) (free_lb lb ub i) (free_ub lb ub i)) i with Some (y, _) => y | None => 0 end).
  change (fun i => match transform_to_reals (x0 i) (free_lb lb ub i) (free_ub lb ub i) with Some (_, j) => j | None => 0 end) with (fun i => match (fun i => transform_to_reals (x0 i) (free_lb lb ub i) (free_ub lb ub i)) i with Some (_, j) => j | None => 0 end).
  rewrite E1. reflexivity.
Qed.
Lemma one_sided_inside : forall lb ub i x, one_sided (lb i) (ub i) x -> inside (free_lb lb ub i) (free_ub lb ub i) x.
Proof. intros lb ub i x H. unfold free_lb, free_ub, one_sided, inside in *. destruct (lb i), (ub i); auto. Qed.

Section Full.
Context (L : linalg) (dim fuel mp max_props : nat) (lb_x ub_x : ext) (vol : list (list R) -> nat -> R) (disc : list (list R) -> nat -> R -> R) (bounds : list (list R) -> nat -> bounds_fun)
  (grad : list R -> list R -> R -> R -> R -> R -> R -> list R) (log_prior : list (list R) -> R) (loglik : list (list R) -> anchorage -> option nat -> R * R)
  (batch : nat) (precoin : bool) (pr_portkey : R) (max_flips : nat) (t vt : list R) (opt_prob decay : R) (air : nat) (alp bet : omat)
  (d : nat) (lb ub : nat -> ext).
Notation full_posterior := (full_posterior L dim fuel mp max_props lb_x ub_x vol disc bounds grad log_prior loglik batch precoin pr_portkey max_flips t vt opt_prob decay air alp bet d lb ub).
Lemma full_schedule : forall init ins o k l k', in01 opt_prob -> admissible d lb ub init -> full_posterior init ins o k = (Ok l, k') ->
  forall n c sps, nth_error l n = Some (c, sps) -> forall j sp, nth_error sps j = Some sp ->
  length (rw_emp (mv_rw sp)) = (n + 2)%nat /\ Forall in01 (rw_emp (mv_rw sp)) /\
  exists m, (tau air m <= n + 1 < tau air (Datatypes.S m))%nat /\ length (rw_scale (mv_rw sp)) = (m + 1)%nat /\ nth 0 (rw_scale (mv_rw sp)) 0 = - (1) /\
    (forall i, (1 <= i <= m)%nat -> Rabs (nth i (rw_scale (mv_rw sp)) 0 - nth (i - 1) (rw_scale (mv_rw sp)) 0) <= Rpower (INR (i + 1)) (- decay)) /\
    symmetric d (mv_prop_cov sp) /\ (forall x, (exists i, (i < d)%nat /\ x i <> 0) -> 0 < quad d (mv_prop_cov sp) x).
Proof.
  intros init ins o k l k' HO HA H n c sps HN j sp Hj. destruct (full_history L dim fuel mp max_props lb_x ub_x vol disc bounds grad log_prior loglik batch precoin pr_portkey max_flips t vt opt_prob decay air alp bet d lb ub init ins o k l k' HA H) as [I1 I2].
  destruct (I2 n c sps HN) as (_ & J1 & J2 & J3). destruct (J3 j sp Hj) as (_ & h & P1 & P2). destruct (sampled_run _ _ _ _ _ _ _ _ _ _ P2) as (R1 & R2 & R3).
  assert (Hn : (n < length l)%nat) by (apply nth_error_Some; congruence).
  assert (LH : length h = (n + 1)%nat). { rewrite R2, map_length, firstn_length. rewrite <- I1. lia. }
  assert (Z : Forall in01 (map snd h)). { eapply Forall_impl; [|exact R3]. intros p [-> | ->]; unfold in01; lra. }
  pose proof (mv_run_rw _ _ _ _ _ _ _ _ _ R1) as RW. rewrite RW.
  destruct (rw_schedule (S' := vec) opt_prob decay air (fun i => nth i init 0) (- (1)) h) as (E1 & _ & m & E2 & E3 & E4 & _).
  pose proof (rw_steps (S' := vec) opt_prob decay air (fun i => nth i init 0) (- (1)) h HO Z) as E5. cbv zeta in E5. cbv zeta in E1, E3, E4. rewrite E1, E3. rewrite E3 in E5.
  split; [cbn [length]; rewrite map_length; lia|]. split; [constructor; [exact HO|exact Z]|]. exists m. split; [lia|]. split; [reflexivity|]. split; [exact E4|]. split; [intros i Hi; apply E5; lia|].
  destruct (mv_run_cov d (free_lb lb ub) (free_ub lb ub) opt_prob decay air (fun i => nth i init 0) h) as (sp' & S1 & S2 & S3 & _).
  - intros x p Hx i Hi. apply one_sided_inside. assert (HX : In x (map (thi_of j) (firstn (Datatypes.S n) l))) by (rewrite <- P1; exact (in_map fst _ _ Hx)).
    apply in_map_iff in HX. destruct HX as ([c0 s0] & <- & HX).
    assert (HX' : In (c0, s0) l) by (rewrite <- (firstn_skipn (Datatypes.S n) l); apply in_or_app; left; exact HX).
    destruct (In_nth_error _ _ HX') as [n0 HN0]. destruct (I2 n0 c0 s0 HN0) as (K1 & K2 & K3 & _). rewrite Forall_forall in K3.
    assert (Hl : (j < length (c_thi c0))%nat) by (rewrite K1, <- J1; apply nth_error_Some; congruence).
    unfold thi_of. cbn [fst]. apply (K3 (nth j (c_thi c0) [])); [apply nth_In; exact Hl|exact Hi].
  - rewrite adapt_free, R1 in S1. injection S1 as <-. split; [exact S2|exact S3].
Qed.
End Full.
