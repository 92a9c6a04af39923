(** Runs with chosen draws: the chain together with its adaptive samplers. *)
From Coq Require Import Reals List Bool Arith ZArith Lia Lra Sorting.Sorted.
From Verif Require Import Base Np Rng Mat L_rng M_mjp M_inf M_bf M_adapt M_hit M_path M_skel M_seed M_models M_sw M_chain M_full SpecMjp SpecLin SpecInf SpecAdapt SpecSkel SpecSeed SpecSw SpecChain SpecSupport SpecPath SpecCan SpecIrr SpecFull
  L_adapt L_can L_full L_full2 L_irr L_irr2 L_irr3 L_irr4.
Import ListNotations.
Local Open Scope R_scope.

(** the draw that makes a sampler propose [x] *)
Definition aim (lb ub : nat -> ext) (x : list R) : vec -> mat -> vec := fun _ _ i => match transform_to_reals (nth i x 0) (lb i) (ub i) with Some (y, _) => y | None => 0 end.
Lemma one_sided_back lb ub x : one_sided lb ub x -> exists y j, transform_to_reals x lb ub = Some (y, j) /\ fst (transform_to_const y lb ub) = x.
Proof.
  intros H. unfold transform_to_reals, transform_to_const.
  destruct lb as [|l|], ub as [|u|]; cbn [one_sided] in H; try (exists x, 0; split; reflexivity).
  all: rewrite np_log_pos by lra; eexists _, _; split; [reflexivity|]; cbn [fst]; rewrite exp_ln by lra; ring.
Qed.
Lemma aim_hits d lb ub sp x r : rw_state (mv_rw sp) = col r -> admissible d lb ub r -> admissible d lb ub x ->
  exists f b, forall o k, sampler_propose d lb ub (aim lb ub x) sp o k = (Ok (x, f, b), k).
Proof.
  intros E [_ H] [LX HX]. unfold sampler_propose, mv_propose. rewrite E. destruct (to_reals_some d lb ub (col r) H) as ([sr q] & ->).
  eexists _, _. intros o k. unfold bind, ret. replace (M_full.row d _) with x; [reflexivity|].
  apply nth_ext with (d := 0) (d' := 0); [unfold M_full.row; rewrite map_length, seq_length; auto|]. intros i Hi. rewrite LX in Hi. rewrite row_nth by exact Hi.
  unfold aim. destruct (one_sided_back _ _ _ (HX i Hi)) as (y & j & -> & E2). now rewrite E2.
Qed.
Section Full.
Context (L : linalg) (dim mp maxp : nat) (vol : list (list R) -> nat -> R) (disc : list (list R) -> nat -> R -> R) (bounds : list (list R) -> nat -> bounds_fun)
  (grad : list R -> list R -> R -> R -> R -> R -> R -> list R) (log_prior : list (list R) -> R) (loglik : list (list R) -> anchorage -> option nat -> R * R)
  (batch : nat) (precoin : bool) (pr : R) (maxf : nat) (t vt : list R) (opt decay : R) (air : nat) (alp bet : omat) (d : nat) (lb ub : nat -> ext).
Notation okrow := (admissible d lb ub).
Lemma full_by_joint fuel lb_x ub_x i c sps accs thi' z' sps' o k :
  update_params fuel mp maxp vol disc grad log_prior loglik batch precoin pr maxf (proposals d lb ub (fi_mvn i) sps) (fi_params i) (c_thi c) (c_z c) (c_h c) = Ok (accs, thi', z') ->
  adapt_all d lb ub opt decay air sps accs thi' = Ok sps' ->
  full_update L dim fuel mp maxp lb_x ub_x vol disc bounds grad log_prior loglik batch precoin pr maxf t vt opt decay air alp bet d lb ub i c sps o k =
  (do c' <- update_joint L dim fuel mp maxp lb_x ub_x vol disc bounds grad log_prior loglik batch precoin pr maxf t vt opt decay air alp bet (feed d lb ub i sps) c; ret (c', sps')) o k.
Proof.
  intros E1 E2. unfold full_update, update_joint, feed. cbn [in_propose in_params in_hidden]. rewrite E1. unfold bind, lift, ret.
  destruct (mcmc_update_generator dim (c_h c) alp bet o k) as [[lam| |] k1]; auto. rewrite E2.
  match goal with |- context [update_hidden ?a1 ?a2 ?a3 ?a4 ?a5 ?a6 ?a7 ?a8 ?a9 ?b1 ?b2 ?b3 ?b4 ?b5 ?b6 ?b7 ?b8 ?b9 ?c1 ?c2 ?c3 ?c4 ?c5 ?c6 ?c7 o k1] =>
    destruct (update_hidden a1 a2 a3 a4 a5 a6 a7 a8 a9 b1 b2 b3 b4 b5 b6 b7 b8 b9 c1 c2 c3 c4 c5 c6 c7 o k1) as [[[r0 [[z2 h2] sp2]]| |] k2]; auto end.
Qed.
Hypothesis HG : obs_grid t vt (last t 0).
Hypothesis H4 : (4 <= length t)%nat.
Hypothesis HD : (2 <= dim)%nat.
Hypothesis HA : hyper dim (Rlt 0) alp.
Hypothesis HB : hyper dim (Rlt 0) bet.
Hypothesis HSo : forall Q, generator dim Q -> pos_off dim Q -> solve_ok L dim (stat_matrix Q) stat_rhs.
Hypothesis (Hmp : (0 < mp)%nat) (Hm : (0 < maxp)%nat) (Hb : (0 < batch)%nat) (Hf : (0 < maxf)%nat).
Hypothesis HV : forall thi, length thi = dim -> Forall okrow thi -> forall y, (y < dim)%nat -> 0 < vol thi y.
Hypothesis HSp : forall thi, length thi = dim -> Forall okrow thi -> forall y, (y < dim)%nat -> spread NegInf PosInf (bounds thi y).
Hypothesis HR : forall r, okrow r -> exists r', okrow r' /\ alive grad r r'.
Notation winv := (winv dim t vt okrow).
Lemma runs_full_resume stops : forall F c sps, winv c -> synced d lb ub c sps -> tour dim okrow (alive grad) (last t 0) (c_thi c) stops ->
  exists ins l n0 cs, Forall (fun i => forall j, (valid (fi_params i j) /\ generic (fi_params i j)) /\ (valid (fi_hidden i j) /\ generic (fi_hidden i j))) ins /\
    runs F (fun fuel => full_resume L dim fuel mp maxp NegInf PosInf vol disc bounds grad log_prior loglik batch precoin pr maxf t vt opt decay air alp bet d lb ub ins c sps) l n0 cs /\
    Forall2 (fun s cs => at_stop dim s (fst cs)) stops cs.
Proof using All.
  induction stops as [|s stops IH]; intros F c sps W SY HTo.
  - exists [], [], 0%nat, []. split; [constructor|]. split; [apply runs_det; reflexivity|constructor].
  - destruct HTo as (SO & HM & HTo). pose proof W as (K & _ & _ & _ & _ & _ & E6 & E7). pose proof SO as ((T1 & T2) & _).
    destruct (moves_exist dim grad okrow HD HR (c_thi c) (s_thi s) E6 E7 T1 T2 HM) as (q & dd & Q1 & Q2 & Q3).
    set (mv := fun j => aim lb ub (q j)).
    destruct (runs_joint L dim mp maxp vol disc bounds grad log_prior loglik batch precoin pr maxf t vt opt decay air alp bet okrow HG H4 HD HA HB HSo Hmp Hm Hb Hf HV HSp F c s (proposals d lb ub mv sps) q dd W SO Q2)
      as (params & hidden & l1 & n1 & c' & V1 & V2 & R1 & AS & W' & accs & UP).
    { intros j Hj. split; [apply Q3; auto|]. destruct SY as [SL SY]. rewrite E6 in SL.
      destruct (nth_error sps j) as [sp|] eqn:ES; [|apply nth_error_None in ES; lia]. destruct (nth_error (c_thi c) j) as [x|] eqn:EX; [|apply nth_error_None in EX; lia].
      destruct (SY _ _ _ ES EX) as [S1 S2]. destruct (aim_hits d lb ub sp (q j) x S1 S2 (Q1 j)) as (f & b & HP). exists f, b.
      apply (can_det _ _ (q j, f, b)); auto. exists 0%nat. intros n _ o k. unfold proposals. rewrite ES. apply HP. }
    set (i := mk_full mv params hidden). change (proposals d lb ub mv sps) with (proposals d lb ub (fi_mvn i) sps) in UP. change params with (fi_params i) in UP.
    destruct (step_synced n1 mp maxp vol disc grad log_prior loglik batch precoin pr maxf opt decay air d lb ub c sps i accs (s_thi s) (c_z c) sps SY (UP n1 (le_n _))) as (_ & (sps' & EA) & _).
    destruct (step_synced n1 mp maxp vol disc grad log_prior loglik batch precoin pr maxf opt decay air d lb ub c sps i accs (s_thi s) (c_z c) sps' SY (UP n1 (le_n _))) as (_ & _ & SY').
    specialize (SY' EA (c_lam c') (c_z c') (c_h c') (c_sp c')). rewrite <- (proj1 AS) in SY'.
    assert (SY2 : synced d lb ub c' sps') by (destruct c'; exact SY').
    destruct (IH (F ++ map n_u l1) c' sps' W' SY2) as (ins & l2 & n2 & cs & I1 & R2 & F2). { rewrite (proj1 AS). exact HTo. }
    exists (i :: ins), (l1 ++ l2 ++ []), (Nat.max n1 (Nat.max n2 0)), ((c', sps') :: cs).
    split; [constructor; [intros j; split; [apply V1|apply V2]|exact I1]|]. split; [|constructor; auto].
    cbn [full_resume].
    assert (R1' : runs F (fun fuel => full_update L dim fuel mp maxp NegInf PosInf vol disc bounds grad log_prior loglik batch precoin pr maxf t vt opt decay air alp bet d lb ub i c sps) l1 n1 (c', sps')).
    { eapply runs_ext; [intros n Hn o k; symmetry; exact (full_by_joint n NegInf PosInf i c sps accs (s_thi s) (c_z c) sps' o k (UP n Hn) EA)|].
      rewrite <- (app_nil_r l1). rewrite <- (Nat.max_0_r n1). apply (runs_bind F _ (fun _ c' => ret (c', sps')) l1 n1 c' [] 0%nat _ R1). apply runs_det. reflexivity. }
    apply (runs_bind F _ (fun fuel s => do l <- full_resume L dim fuel mp maxp NegInf PosInf vol disc bounds grad log_prior loglik batch precoin pr maxf t vt opt decay air alp bet d lb ub ins (fst s) (snd s); ret (s :: l)) l1 n1 (c', sps') _ _ _ R1').
    apply (runs_bind _ _ (fun _ l => ret ((c', sps') :: l)) l2 n2 cs _ _ _ R2). apply runs_det. reflexivity.
Qed.
Lemma full_tour init stops : okrow init -> tour dim okrow (alive grad) (last t 0) (repeat init dim) stops ->
  exists ins, Forall (fun i => forall j, (valid (fi_params i j) /\ generic (fi_params i j)) /\ (valid (fi_hidden i j) /\ generic (fi_hidden i j))) ins /\
    feasible (fun fuel => full_posterior L dim fuel mp maxp NegInf PosInf vol disc bounds grad log_prior loglik batch precoin pr maxf t vt opt decay air alp bet d lb ub init ins) (fun l => Forall2 (at_stop dim) stops (map fst l)).
Proof using All.
  intros HI HTo.
  destruct (can_runs _ _ [] (can_start_chain L dim mp maxp vol disc bounds grad log_prior loglik batch precoin pr maxf t vt opt decay air alp bet okrow HG H4 HD HA HB HSo Hmp Hm Hb Hf HV HSp HR init HI)) as (l1 & n1 & c & R1 & W & ET).
  assert (SY : synced d lb ub c (repeat (mv_init (col init) opt) dim)). { pose proof (start_synced dim opt d lb ub init (c_lam c) (c_z c) (c_h c) (c_sp c) HI) as S0. rewrite <- ET in S0. destruct c; exact S0. }
  destruct (runs_full_resume stops ([] ++ map n_u l1) c _ W SY) as (ins & l2 & n2 & cs & I1 & R2 & F2); [rewrite ET; exact HTo|].
  exists ins. split; auto. eapply runs_feasible with (a := cs); [|clear - F2; induction F2; constructor; auto].
  eapply runs_ext; [|apply (runs_bind [] _ (fun fuel c => full_resume L dim fuel mp maxp NegInf PosInf vol disc bounds grad log_prior loglik batch precoin pr maxf t vt opt decay air alp bet d lb ub ins c (repeat (mv_init (col init) opt) dim)) l1 n1 c l2 n2 cs R1 R2)].
  intros n _ o k. unfold full_posterior. unfold bind, lift_opt, lift. rewrite (grid_last_opt t vt HG).
  destruct (sample_forwards L n (last t 0) None dim (mat_of (get_ev dim alp bet)) o k) as [[y| |] k1]; auto.
  destruct (sample_aug n mp maxp NegInf PosInf (vol (repeat init dim)) y t vt o k1) as [[a| |] k2]; auto.
Qed.
End Full.
