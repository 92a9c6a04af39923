(** The switching chain with its parameter samplers: histories, invariants; the Ito chain. *)
From Coq Require Import Reals List Bool Arith Lia Lra.
From Verif Require Import Base Np Rng L_rng Mat M_mjp M_inf M_bf M_adapt M_path M_skel M_seed M_models M_sw M_chain M_mcem M_ito M_full SpecLin SpecInf SpecSkel SpecSw SpecChain SpecAdapt SpecFull L_sw9 L_sw10 L_adapt L_adapt2 L_full L_full2.
Import ListNotations.
Local Open Scope R_scope.

Lemma propose_move : forall d lb ub mvn sp o k q f b k', sampler_propose d lb ub mvn sp o k = (Ok (q, f, b), k') ->
  exists p, (forall o k, mv_propose d lb ub mvn sp o k = (Ok (Some (p, f, b)), k)) /\ forall j, (j < d)%nat -> col q j = p j.
Proof.
  intros d lb ub mvn sp o k q f b k' H. unfold sampler_propose in H. rewrite bind_case in H. unfold mv_propose in *. unfold ret at 1 in H.
  destruct (to_reals_vec d lb ub (rw_state (mv_rw sp))) as [[x y]|]; [|discriminate]. injection H as <- <- <- _.
  eexists. split; [intros; reflexivity|]. intros j Hj. unfold col. rewrite row_nth by exact Hj. reflexivity.
Qed.
Lemma sampled_run : forall d lb ub opt decay air ms sp h sp', sampled d lb ub opt decay air ms sp h sp' -> run_opt (mv_adapt d lb ub opt decay air) sp h = Some sp' /\ length h = length ms /\ Forall zero_one (map snd h).
Proof.
  intros d lb ub opt decay air ms sp h sp' H. induction H as [|mvn ms sp x p sp1 h sp2 HM HA _ (IH1 & IH2 & IH3)]; [repeat split; constructor|].
  unfold run_opt in *. cbn [fold_left fst snd]. rewrite HA. split; [exact IH1|]. split; [cbn; lia|]. constructor; [|exact IH3]. cbn. destruct HM as [[-> _]|[-> _]]; [left|right]; reflexivity.
Qed.

Section Full.
Context (L : linalg) (dim fuel mp max_props : nat) (lb_x ub_x : ext) (vol : list (list R) -> nat -> R) (disc : list (list R) -> nat -> R -> R) (bounds : list (list R) -> nat -> bounds_fun)
  (grad : list R -> list R -> R -> R -> R -> R -> R -> list R) (log_prior : list (list R) -> R) (loglik : list (list R) -> anchorage -> option nat -> R * R)
  (batch : nat) (precoin : bool) (pr_portkey : R) (max_flips : nat) (t vt : list R) (opt_prob decay : R) (air : nat) (alp bet : omat)
  (d : nat) (lb ub : nat -> ext).
Notation full_update := (full_update L dim fuel mp max_props lb_x ub_x vol disc bounds grad log_prior loglik batch precoin pr_portkey max_flips t vt opt_prob decay air alp bet d lb ub).
Notation full_resume := (full_resume L dim fuel mp max_props lb_x ub_x vol disc bounds grad log_prior loglik batch precoin pr_portkey max_flips t vt opt_prob decay air alp bet d lb ub).
Notation full_posterior := (full_posterior L dim fuel mp max_props lb_x ub_x vol disc bounds grad log_prior loglik batch precoin pr_portkey max_flips t vt opt_prob decay air alp bet d lb ub).
Notation synced := (synced d lb ub).

Lemma update_history : forall i c sps o k c' sps' k', synced c sps -> full_update i c sps o k = (Ok (c', sps'), k') ->
  synced c' sps' /\ length sps' = length sps /\
  forall j sp', nth_error sps' j = Some sp' -> exists sp p, nth_error sps j = Some sp /\ move d lb ub (fi_mvn i j) sp (thi_of j (c', sps')) p /\
    mv_adapt d lb ub opt_prob decay air sp (thi_of j (c', sps')) p = Some sp'.
Proof.
  intros i c sps o k c' sps' k' HS H.
  destruct (update_refines L dim fuel mp max_props lb_x ub_x vol disc bounds grad log_prior loglik batch precoin pr_portkey max_flips t vt opt_prob decay air alp bet d lb ub i c sps o k HS) as (r & k1 & E1 & _ & E3).
  rewrite H in E1. injection E1 as <- <-. destruct (E3 c' sps' eq_refl) as [S1 S2]. split; [exact S1|]. split; [exact S2|].
  unfold M_full.full_update in H. destruct (bind_ok _ _ _ _ _ _ _ _ H) as (lam & k1 & _ & H1). destruct (bind_ok _ _ _ _ _ _ _ _ H1) as ([[acc thi] z] & k2 & EP & H2). unfold lift in EP. injection EP as EP _.
  destruct (bind_ok _ _ _ _ _ _ _ _ H2) as (sp1 & k3 & EA & H3). unfold lift in EA. injection EA as EA _. destruct (bind_ok _ _ _ _ _ _ _ _ H3) as ([y [[z' h'] sp2]] & k4 & _ & H4). injection H4 as <- <- _.
  destruct (params_rows _ _ _ _ _ _ _ _ _ _ _ _ _ _ _ _ _ _ _ _ EP) as (L1 & L2 & RW). destruct HS as [HL HX].
  assert (Q1 : length sps = length acc) by lia. assert (Q2 : length sps = length thi) by lia. destruct (adapt_all_nth _ _ _ _ _ _ _ _ _ _ Q1 Q2 EA) as [L3 N].
  intros j sp' Hj. destruct (N j sp' Hj) as (sp & a & x & M1 & M2 & M3 & M4). exists sp, (if a then 1 else 0). split; [exact M1|].
  assert (ET : thi_of j (mk_chain thi (mat_of lam) z' h' sp2, sp1) = col x). { unfold thi_of, col. cbn [fst c_thi]. rewrite (nth_error_nth _ _ [] M3). reflexivity. }
  rewrite ET. split; [|exact M4]. assert (Hl : (j < length (c_thi c))%nat) by (rewrite <- L2; apply nth_error_Some; congruence).
  destruct (RW j Hl) as (x' & a' & N1 & N2 & D). rewrite M3 in N1. injection N1 as <-. rewrite M2 in N2. injection N2 as <-. destruct a.
  - right. split; [reflexivity|]. destruct D as (q & f & b & k0 & D1 & ->). unfold proposals in D1. rewrite M1 in D1. destruct (propose_move _ _ _ _ _ _ _ _ _ _ _ D1) as (p & P1 & P2). exists p, f, b. split; [exact P1|exact P2].
  - left. split; [reflexivity|]. symmetry. exact (proj1 (HX j sp x M1 D)).
Qed.
Lemma resume_history : forall ins c sps o k l k', synced c sps -> full_resume ins c sps o k = (Ok l, k') -> length l = length ins /\
  forall n c' sps', nth_error l n = Some (c', sps') -> synced c' sps' /\ length sps' = length sps /\
  forall j sp', nth_error sps' j = Some sp' -> exists sp h, nth_error sps j = Some sp /\ map fst h = map (thi_of j) (firstn (Datatypes.S n) l) /\
    sampled d lb ub opt_prob decay air (map (fun i => fi_mvn i j) (firstn (Datatypes.S n) ins)) sp h sp'.
Proof.
  induction ins as [|i ins IH]; intros c sps o k l k' HS H.
  - injection H as <- _. split; [reflexivity|]. intros [|n]; discriminate.
  - cbn [M_full.full_resume] in H. destruct (bind_ok _ _ _ _ _ _ _ _ H) as ([c1 s1] & k1 & E1 & H1). destruct (bind_ok _ _ _ _ _ _ _ _ H1) as (l1 & k2 & E2 & H2). injection H2 as <- _. cbn [fst snd] in E2.
    destruct (update_history _ _ _ _ _ _ _ _ HS E1) as (S1 & S2 & S3). destruct (IH c1 s1 o k1 l1 k2 S1 E2) as (I1 & I2). split; [cbn; lia|].
    intros [|n] c' sps' HN.
    + injection HN as <- <-. split; [exact S1|]. split; [exact S2|]. intros j sp' Hj. destruct (S3 j sp' Hj) as (sp & p & P1 & P2 & P3). exists sp, [(thi_of j (c1, s1), p)]. split; [exact P1|]. split; [reflexivity|].
      cbn [firstn map]. econstructor; [exact P2|exact P3|constructor].
    + cbn [nth_error] in HN. destruct (I2 n c' sps' HN) as (J1 & J2 & J3). split; [exact J1|]. split; [lia|]. intros j sp' Hj. destruct (J3 j sp' Hj) as (sp & h & P1 & P2 & P3).
      destruct (S3 j sp P1) as (sp0 & p & Q1 & Q2 & Q3). exists sp0, ((thi_of j (c1, s1), p) :: h). split; [exact Q1|]. split; [cbn [map fst]; rewrite P2; reflexivity|].
      change (firstn (Datatypes.S (Datatypes.S n)) (i :: ins)) with (i :: firstn (Datatypes.S n) ins). cbn [map]. econstructor; [exact Q2|exact Q3|exact P3].
Qed.
Lemma full_history : forall init ins o k l k', admissible d lb ub init -> full_posterior init ins o k = (Ok l, k') -> length l = length ins /\
  forall n c sps, nth_error l n = Some (c, sps) -> length (c_thi c) = dim /\ length sps = dim /\ Forall (admissible d lb ub) (c_thi c) /\
  forall j sp, nth_error sps j = Some sp -> rw_state (mv_rw sp) = thi_of j (c, sps) /\
    exists h, map fst h = map (thi_of j) (firstn (Datatypes.S n) l) /\
      sampled d lb ub opt_prob decay air (map (fun i => fi_mvn i j) (firstn (Datatypes.S n) ins)) (mv_init (fun i => nth i init 0) opt_prob) h sp.
Proof.
  intros init ins o k l k' HA H. unfold M_full.full_posterior in H. cbv zeta in H. destruct (bind_ok _ _ _ _ _ _ _ _ H) as (fin & k1 & _ & H1). destruct (bind_ok _ _ _ _ _ _ _ _ H1) as (y & k2 & _ & H2).
  destruct (bind_ok _ _ _ _ _ _ _ _ H2) as (a & k3 & _ & H3). destruct (resume_history _ _ _ _ _ _ _ (start_synced dim opt_prob d lb ub init _ _ _ _ HA) H3) as (I1 & I2). split; [exact I1|].
  intros n c sps HN. destruct (I2 n c sps HN) as ([J0 J1] & J2 & J3). rewrite repeat_length in J2.
  assert (F : Forall (admissible d lb ub) (c_thi c)).
  { apply Forall_forall. intros x Hx. destruct (In_nth_error _ _ Hx) as [j Hj]. assert (Hl : (j < length sps)%nat) by (rewrite <- J0; apply nth_error_Some; congruence).
    destruct (nth_error sps j) as [sp|] eqn:ES; [|apply nth_error_None in ES; lia]. exact (proj2 (J1 j sp x ES Hj)). }
  split; [lia|]. split; [exact J2|]. split; [exact F|]. intros j sp Hj. split.
  - assert (Hl : (j < length (c_thi c))%nat) by (rewrite J0; apply nth_error_Some; congruence). destruct (nth_error (c_thi c) j) as [x|] eqn:EX; [|apply nth_error_None in EX; lia].
    rewrite (proj1 (J1 j sp x Hj EX)). unfold thi_of, col. cbn [fst]. rewrite (nth_error_nth _ _ [] EX). reflexivity.
  - destruct (J3 j sp Hj) as (sp0 & h & P1 & P2 & P3). apply nth_error_In, repeat_spec in P1. subst sp0. exists h. split; [exact P2|exact P3].
Qed.
End Full.

Lemma full_posterior_ok : forall L dim fuel mp maxp vol disc bounds grad log_prior loglik batch precoin pr maxf t vt opt decay air alp bet d lb ub,
  obs_grid t vt (last t 0) -> (4 <= length t)%nat -> (2 <= dim)%nat -> hyper dim (Rlt 0) alp -> hyper dim (Rlt 0) bet -> expm_exact L ->
  (forall Q, generator dim Q -> pos_off dim Q -> solve_ok L dim (stat_matrix Q) stat_rhs) -> (0 < maxp)%nat ->
  (forall thi, length thi = dim -> Forall (admissible d lb ub) thi -> forall y, (y < dim)%nat -> 0 < vol thi y) ->
  forall init ins, admissible d lb ub init ->
  Forall (fun i => forall j, (valid (fi_params i j) /\ generic (fi_params i j)) /\ (valid (fi_hidden i j) /\ generic (fi_hidden i j))) ins ->
  returns_if generic (full_posterior L dim fuel mp maxp NegInf PosInf vol disc bounds grad log_prior loglik batch precoin pr maxf t vt opt decay air alp bet d lb ub init ins)
    (fun l => length l = length ins /\ Forall (chain_ok dim (admissible d lb ub) t vt) (map fst l)).
Proof.
  intros L dim fuel mp maxp vol disc bounds grad log_prior loglik batch precoin pr maxf t vt opt decay air alp bet d lb ub HG HL HD HA HB HE HS HM HV init ins HI HIn o k Vo Go.
  destruct (full_refines L dim fuel mp maxp NegInf PosInf vol disc bounds grad log_prior loglik batch precoin pr maxf t vt opt decay air alp bet d lb ub init ins o k HI) as (ins' & D1 & D2 & D3 & _).
  assert (OK : Forall (inputs_ok (admissible d lb ub)) ins').
  { clear D3. induction D1 as [|i i' ins ins' [S1 S2] _ IH]; [constructor|]. inversion HIn as [|? ? Hi Ht]; subst. inversion D2 as [|? ? [Gi1 Gi2] Gt]; subst. constructor; [|apply IH; assumption].
    split; [|split; intros j; [rewrite S1; apply Hi|rewrite S2; apply Hi]]. intros j o0 k0 _ _. destruct (lt_dec j dim) as [Hj|Hj].
    - destruct (Gi1 j Hj) as (q & f & b & E & A). rewrite E. exact A.
    - rewrite Gi2 by lia. exact I. }
  pose proof (posterior_ok L dim fuel mp maxp vol disc bounds grad log_prior loglik batch precoin pr maxf t vt opt decay air alp bet (admissible d lb ub) HG HL HD HA HB HE HS HM HV init ins' HI OK o k Vo Go) as X.
  rewrite D3 in X. cbn [fst] in X. destruct (fst (full_posterior L dim fuel mp maxp NegInf PosInf vol disc bounds grad log_prior loglik batch precoin pr maxf t vt opt decay air alp bet d lb ub init ins o k)) as [l|e|]; [|exact I|exact I].
  cbn [res_map] in X. destruct X as [X1 X2]. rewrite map_length in X1. split; [|exact X2]. rewrite X1. clear - D1. induction D1; cbn; congruence.
Qed.

(** the Ito chain with its samplers *)
Lemma ito_full_raises : forall fuel mp maxp lb_x ub_x reduce disc bounds grad log_prior loglik batch precoin pr maxf opt decay air lb ub init t vt ins o k z k1,
  valid o -> init <> [] -> ins <> [] -> ito_sample_aug fuel mp maxp lb_x ub_x reduce t vt init o k = (Ok z, k1) ->
  fst (ito_full_posterior fuel mp maxp lb_x ub_x reduce disc bounds grad log_prior loglik batch precoin pr maxf opt decay air lb ub init t vt ins o k) = Raise TypeError.
Proof.
  intros fuel mp maxp lb_x ub_x reduce disc bounds grad log_prior loglik batch precoin pr maxf opt decay air lb ub init t vt ins o k z k1 V HI HN HZ.
  unfold ito_full_posterior. rewrite bind_case, HZ. destruct ins as [|i ins]; [congruence|]. cbn [ito_full_resume]. rewrite bind_case.
  set (sps := map (fun x => rw_init x opt (- (1))) init).
  assert (E : fst (ito_full_update fuel mp maxp lb_x ub_x reduce disc bounds grad log_prior loglik batch precoin pr maxf opt decay air lb ub i init z sps t vt o k1) = Raise TypeError).
  { unfold ito_full_update, ito_params. destruct (Nat.eqb_spec (length init) 0) as [H0|H0]; [destruct init; [congruence|discriminate]|].
    assert (LT : (0 < length init)%nat) by lia. pose proof (proj2 V k1 (DPick (length init)) I LT) as P. cbn [nsupport] in P.
    rewrite bind_case. rewrite bind_case. unfold draw_n. set (j := ora_n o k1 (DPick (length init))) in *. rewrite bind_case. unfold ito_proposals. rewrite bind_case. unfold lift_opt at 1.
    destruct (nth_error sps j) as [sp|] eqn:ES; [|apply nth_error_None in ES; unfold sps in ES; rewrite map_length in ES; lia]. unfold ret at 1.
    pose proof (rw_propose_raises (lb j) (ub j) (if_normal i) sp o (Datatypes.S k1)) as R. destruct (rw_propose (lb j) (ub j) (if_normal i) sp o (Datatypes.S k1)) as [[r|e|] k2]; cbn [fst] in R; try discriminate. injection R as ->. reflexivity. }
  destruct (ito_full_update fuel mp maxp lb_x ub_x reduce disc bounds grad log_prior loglik batch precoin pr maxf opt decay air lb ub i init z sps t vt o k1) as [[r|e|] k2]; cbn [fst] in E; try discriminate. injection E as ->. reflexivity.
Qed.
