(** Runs with chosen draws: the chain of the switching sampler. *)
From Coq Require Import Reals List Bool Arith ZArith Lia Lra Sorting.Sorted.
From Verif Require Import Base Np Rng Mat L_rng M_mjp M_inf M_bf M_adapt M_hit M_path M_skel M_seed M_models M_sw M_chain SpecMjp SpecLin SpecInf SpecSkel SpecSeed SpecSw SpecChain SpecSupport SpecPath SpecCan SpecIrr
  L_seed L_can L_can2 L_can3 L_can5 L_can6 L_list L_path L_path2 L_part L_prop L_occ L_inf L_sw L_sw2 L_sw3 L_sw4 L_sw8 L_sw9 L_sw10 L_irr L_irr2 L_irr3.
Import ListNotations.
Local Open Scope R_scope.

Lemma can_generator dim K alp bet t vt Q : good dim t vt K -> 0 < last t 0 -> hyper dim (Rlt 0) alp -> hyper dim (Rlt 0) bet -> generator dim Q -> pos_off dim Q ->
  can (fun _ => mcmc_update_generator dim (anch_of K) alp bet) (fun lam => forall i j, (i < dim)%nat -> (j < dim)%nat -> lam i j = Some (Q i j)).
Proof.
  intros HK HT HA HB HG HP. unfold mcmc_update_generator. rewrite (prune_of K (good_nonempty _ _ _ _ HK)).
  eapply can_bind0; [exact (can_lift _ _ (eq (path_of K)) eq_refl eq_refl)|]. intros ? <-.
  pose proof (path_timed _ _ _ _ HK HT) as TM. destruct (L_inf.update_ok dim (path_of K) alp bet) as (alp1 & bet1 & E1 & U1 & U2 & U3); auto.
  { unfold path_of. cbn [M_mjp.sk_x]. apply Forall_forall. intros s Hs. apply in_map_iff in Hs as ([u s'] & <- & Hin). cbn [snd].
    assert (In (u, s') (map fst K)). { destruct (devirt_kept _ _ Hin) as [[r E]|[a [Ha _]]]; [rewrite E; left; auto|apply (adj_in _ _ _ Ha)]. }
    apply in_map_iff in H as (e & E & He). pose proof (g_dim _ _ _ _ HK) as D. rewrite Forall_forall in D. specialize (D e He). unfold st in D. rewrite E in D. exact D. }
  rewrite E1. eapply can_bind0; [exact (can_lift _ _ (eq (alp1, bet1)) eq_refl eq_refl)|]. intros ? <-. cbn [fst snd].
  destruct HA as [A1 A2], HB as [B1 B2]. apply can_param; auto.
  - split; [auto|]. intros i j Hi Hj N. destruct (A2 i j Hi Hj N) as (a & Ea & Ha). rewrite U2, Ea by auto. cbn [option_map]. eexists; split; [reflexivity|]. pose proof (pos_INR (n_jumps (M_mjp.sk_x (path_of K)) i j)). lra.
  - split; [intros i Hi; rewrite U3, (B1 i Hi); auto|]. intros i j Hi Hj N. destruct (B2 i j Hi Hj N) as (a & Ea & Ha). rewrite U3, Ea by auto. cbn [option_map]. eexists; split; [reflexivity|]. pose proof (hold_of_nonneg (path_of K) i TM). lra.
Qed.
Section Chain.
Context (L : linalg) (dim mp maxp : nat) (vol : list (list R) -> nat -> R) (disc : list (list R) -> nat -> R -> R) (bounds : list (list R) -> nat -> bounds_fun)
  (grad : list R -> list R -> R -> R -> R -> R -> R -> list R) (log_prior : list (list R) -> R) (loglik : list (list R) -> anchorage -> option nat -> R * R)
  (batch : nat) (precoin : bool) (pr : R) (maxf : nat) (t vt : list R) (opt decay : R) (air : nat) (alp bet : omat) (okrow : list R -> Prop).
Hypothesis HG : obs_grid t vt (last t 0).
Hypothesis H4 : (4 <= length t)%nat.
Hypothesis HD : (2 <= dim)%nat.
Hypothesis HA : hyper dim (Rlt 0) alp.
Hypothesis HB : hyper dim (Rlt 0) bet.
Hypothesis HSo : forall Q, generator dim Q -> pos_off dim Q -> solve_ok L dim (stat_matrix Q) stat_rhs.
Hypothesis (Hmp : (0 < mp)%nat) (Hm : (0 < maxp)%nat) (Hb : (0 < batch)%nat) (Hf : (0 < maxf)%nat).
Hypothesis HV : forall thi, length thi = dim -> Forall okrow thi -> forall y, (y < dim)%nat -> 0 < vol thi y.
Hypothesis HSp : forall thi, length thi = dim -> Forall okrow thi -> forall y, (y < dim)%nat -> spread NegInf PosInf (bounds thi y).
Definition winv (c : M_chain.chain) : Prop := exists K, c_h c = anch_of K /\ good dim t vt K /\ length K = S (length (c_z c)) /\ Forall wide (c_z c) /\ rw_state (c_sp c) = path_of K /\
  length (c_thi c) = dim /\ Forall okrow (c_thi c).
Notation joint i c := (fun fuel => update_joint L dim fuel mp maxp NegInf PosInf vol disc bounds grad log_prior loglik batch precoin pr maxf t vt opt decay air alp bet i c).
Lemma map_rows (thi th : list (list R)) (q : nat -> list R) (d : nat -> bool) : length thi = dim -> length th = dim -> (forall j, (j < dim)%nat -> row th j = if d j then q j else row thi j) ->
  map (fun j => if d j then q j else row thi j) (seq 0 (length thi)) = th.
Proof using.
  intros E1 E2 H. rewrite E1. apply nth_ext with (d := []) (d' := []); [rewrite map_length, seq_length; auto|]. intros j Hj. rewrite map_length, seq_length in Hj.
  rewrite nth_indep with (d' := (fun j => if d j then q j else row thi j) 0%nat) by (rewrite map_length, seq_length; auto). rewrite (map_nth (fun j => if d j then q j else row thi j)), seq_nth by auto.
  cbn [Nat.add]. rewrite <- H by auto. reflexivity.
Qed.
Lemma runs_joint F c s propose (q : nat -> list R) (d : nat -> bool) : winv c -> stop_ok dim okrow (last t 0) s ->
  (forall j, (j < dim)%nat -> row (s_thi s) j = if d j then q j else row (c_thi c) j) ->
  (forall j, (j < dim)%nat -> alive grad (row (c_thi c) j) (q j) /\ exists lf lk, can (fun _ => propose j) (eq (q j, lf, lk))) ->
  exists params hidden l n0 c', (forall j, valid (params j) /\ generic (params j)) /\ (forall j, valid (hidden j) /\ generic (hidden j)) /\
    runs F (joint (mk_inputs propose params hidden) c) l n0 c' /\ at_stop dim s c' /\ winv c' /\
    exists accs, forall fuel, (n0 <= fuel)%nat ->
      update_params fuel mp maxp vol disc grad log_prior loglik batch precoin pr maxf propose params (c_thi c) (c_z c) (c_h c) = Ok (accs, s_thi s, c_z c).
Proof using All.
  intros (K & E1 & HK & E3 & E4 & E5 & E6 & E7) ((T1 & T2) & (G1 & G2) & (P1 & P2 & P3)) HR HQ.
  pose proof (sorted_last_pos _ _ _ HG) as HT.
  assert (NZ : c_z c <> []). { intros E. rewrite E in E3. destruct (g_first _ _ _ _ HK) as (e & K1 & -> & N & _). destruct K1; [congruence|discriminate]. }
  destruct (can_runs _ _ F (can_generator dim K alp bet t vt (s_gen s) HK HT HA HB G1 G2)) as (l1 & n1 & lam & R1 & HL).
  destruct (generator_mat_of dim lam (s_gen s) HL G1 G2) as [Q1 Q2].
  destruct (can_update_params mp maxp vol disc grad log_prior loglik batch precoin pr maxf Hb Hf propose (c_thi c) (c_z c) (anch_of K) q d (sized_anch K _ E3) NZ (good_sorted _ _ _ _ HK)) as (params & accs & n2 & V2 & R2).
  { eapply Forall_impl; [|exact E4]. intros x Hx. apply Hx. }
  { rewrite E6. cbn [anch_of a_y]. pose proof (g_dim _ _ _ _ HK) as D. rewrite Forall_forall in D |- *. intros x Hx. apply in_map_iff in Hx as (e & <- & He). auto. }
  { rewrite E6. exact HQ. }
  rewrite (map_rows _ (s_thi s)) in R2 by auto.
  destruct (runs_update_hidden dim mp maxp (vol (s_thi s)) (disc (s_thi s)) (bounds (s_thi s)) (loglik (s_thi s)) batch precoin pr maxf t vt opt decay air Hmp Hm Hb Hf (HV _ T1 T2) (HSp _ T1 T2)
    L (mat_of lam) (c_sp c) (c_z c) K (s_path s) (F ++ map n_u l1) HG H4 HD Q1 Q2 (HSo _ Q1 Q2) HK E3 E5 P1 P2 P3) as (hidden & l3 & n3 & z' & K' & sp' & V3 & R3 & GK' & LK' & WZ & PK & ES).
  exists params, hidden, (l1 ++ l3), (Nat.max n1 (Nat.max n2 n3)), (mk_chain (s_thi s) (mat_of lam) z' (anch_of K') sp').
  split; [exact V2|]. split; [exact V3|]. split.
  - unfold update_joint. rewrite E1. cbn [in_propose in_params in_hidden].
    apply (runs_bind F (fun _ => mcmc_update_generator dim (anch_of K) alp bet) (fun fuel lam => do p <- lift (update_params fuel mp maxp vol disc grad log_prior loglik batch precoin pr maxf propose params (c_thi c) (c_z c) (anch_of K));
      let '(_, thi, z) := p in
      do r <- update_hidden L fuel mp maxp NegInf PosInf (vol thi) (disc thi) (bounds thi) (loglik thi) batch precoin pr maxf t vt opt decay air dim (mat_of lam) hidden (c_sp c) z (anch_of K);
      let '(_, (z', h', sp')) := r in ret (mk_chain thi (mat_of lam) z' h' sp')) l1 n1 lam); [exact R1|].
    apply (runs_ext _ (fun fuel => do r <- update_hidden L fuel mp maxp NegInf PosInf (vol (s_thi s)) (disc (s_thi s)) (bounds (s_thi s)) (loglik (s_thi s)) batch precoin pr maxf t vt opt decay air dim (mat_of lam) hidden (c_sp c) (c_z c) (anch_of K);
      let '(_, (z', h', sp')) := r in ret (mk_chain (s_thi s) (mat_of lam) z' h' sp'))).
    + intros n Hn o k. unfold bind at 3, lift. rewrite R2 by lia. reflexivity.
    + apply (runs_more _ _ _ (Nat.max n3 0)); [lia|]. rewrite <- (app_nil_r l3). apply (runs_bind _ _ (fun _ r => let '(_, (z', h', sp')) := r in ret (mk_chain (s_thi s) (mat_of lam) z' h' sp')) l3 n3 _ [] 0%nat _ R3). apply runs_det. reflexivity.
  - split.
    + split; [reflexivity|]. cbn [c_lam c_sp c_h]. split; [intros i j Hi Hj; unfold mat_of; rewrite HL by auto; reflexivity|]. split; [|exact ES]. rewrite (prune_of K' (good_nonempty _ _ _ _ GK')), PK. reflexivity.
    + split; [exists K'; cbn [c_h c_z c_sp c_thi]; split; [reflexivity|]; split; [exact GK'|]; split; [exact LK'|]; split; [exact WZ|]; split; [congruence|]; auto|].
      exists accs. intros fuel Hfu. rewrite E1. apply R2. lia.
Qed.
Hypothesis HR : forall r, okrow r -> exists r', okrow r' /\ alive grad r r'.
(** the proposals and decisions that lead to the rows [th] *)
Lemma moves_exist (thi th : list (list R)) : length thi = dim -> Forall okrow thi -> length th = dim -> Forall okrow th ->
  (forall j, (j < dim)%nat -> row th j = row thi j \/ alive grad (row thi j) (row th j)) ->
  exists (q : nat -> list R) (d : nat -> bool), (forall j, okrow (q j)) /\ (forall j, (j < dim)%nat -> row th j = if d j then q j else row thi j) /\ (forall j, (j < dim)%nat -> alive grad (row thi j) (q j)).
Proof using HD HR. clear H4 Hmp Hm Hb Hf.
  intros E1 E2 E3 E4 HM. assert (OK : forall (l : list (list R)) j, length l = dim -> Forall okrow l -> (j < dim)%nat -> okrow (row l j)).
  { intros l j EL FL Hj. rewrite Forall_forall in FL. apply FL. apply nth_In. lia. }
  destruct (fin_choice (fun j (p : list R * bool) => row th j = (if snd p then fst p else row thi j) /\ alive grad (row thi j) (fst p)) (fun p : list R * bool => okrow (fst p)) (row thi 0, true) dim) as (f & F1 & F2).
  - apply OK; auto. lia.
  - intros j Hj. destruct (HM j Hj) as [E|A].
    + destruct (HR (row thi j) (OK _ _ E1 E2 Hj)) as (r' & A1 & A2). exists (r', false). auto.
    + exists (row th j, true). cbn [fst snd]. auto.
  - exists (fun j => fst (f j)), (fun j => snd (f j)). split; [exact F1|]. split; intros j Hj; apply (F2 j Hj).
Qed.
Lemma runs_resume stops : forall F c, winv c -> tour dim okrow (alive grad) (last t 0) (c_thi c) stops ->
  exists ins l n0 cs, Forall (inputs_ok okrow) ins /\
    runs F (fun fuel => resume_sampling L dim fuel mp maxp NegInf PosInf vol disc bounds grad log_prior loglik batch precoin pr maxf t vt opt decay air alp bet ins c) l n0 cs /\ Forall2 (at_stop dim) stops cs.
Proof using All.
  induction stops as [|s stops IH]; intros F c W HTo.
  - exists [], [], 0%nat, []. split; [constructor|]. split; [apply runs_det; reflexivity|constructor].
  - destruct HTo as (SO & HM & HTo). pose proof W as (K & _ & _ & _ & _ & _ & E6 & E7). pose proof SO as ((T1 & T2) & _).
    destruct (moves_exist (c_thi c) (s_thi s) E6 E7 T1 T2 HM) as (q & d & Q1 & Q2 & Q3).
    destruct (runs_joint F c s (fun j => ret (q j, 0, 0)) q d W SO Q2) as (params & hidden & l1 & n1 & c' & V1 & V2 & R1 & AS & W' & _).
    { intros j Hj. split; [apply Q3; auto|]. exists 0, 0. apply can_ret. reflexivity. }
    destruct (IH (F ++ map n_u l1) c' W') as (ins & l2 & n2 & cs & I1 & R2 & F2). { rewrite (proj1 AS). exact HTo. }
    exists (mk_inputs (fun j => ret (q j, 0, 0)) params hidden :: ins), (l1 ++ l2 ++ []), (Nat.max n1 (Nat.max n2 0)), (c' :: cs).
    split; [constructor; auto; split; [intros j; apply returns_ret; exact (Q1 j)|]; split; assumption|]. split; [|constructor; auto].
    cbn [resume_sampling].
    apply (runs_bind F _ (fun fuel c' => do l <- resume_sampling L dim fuel mp maxp NegInf PosInf vol disc bounds grad log_prior loglik batch precoin pr maxf t vt opt decay air alp bet ins c'; ret (c' :: l)) l1 n1 c' _ _ _ R1).
    apply (runs_bind _ _ (fun _ l => ret (c' :: l)) l2 n2 cs _ _ _ R2). apply runs_det. reflexivity.
Qed.
Lemma grid_last_opt : last_opt t = Some (last t 0).
Proof using HG. destruct (grid_shape _ _ _ HG) as (m & -> & _). change (0 :: m ++ [last t 0]) with ((0 :: m) ++ [last t 0]). rewrite last_opt_app. now rewrite last_last. Qed.
(** a start *)
Lemma can_start_chain init : okrow init ->
  can (fun fuel => do fin <- lift_opt IndexError (last_opt t);
    do y <- sample_forwards L fuel fin None dim (mat_of (get_ev dim alp bet));
    do a <- sample_aug fuel mp maxp NegInf PosInf (vol (repeat init dim)) y t vt;
    ret (mk_chain (repeat init dim) (mat_of (get_ev dim alp bet)) (fst a) (snd a) (rw_init y opt 0)))
   (fun c => winv c /\ c_thi c = repeat init dim).
Proof using All.
  intros HI. pose proof (sorted_last_pos _ _ _ HG) as HT. rewrite grid_last_opt.
  destruct (get_ev_ok dim alp bet HA HB) as (Gm & GE & GG & GP & _). 
  destruct (generator_mat_of dim _ Gm GE GG GP) as [Q1 Q2].
  eapply can_bind0; [exact (can_lift_opt _ _ (last t 0) (eq (last t 0)) eq_refl eq_refl)|]. intros ? <-.
  eapply can_bind; [apply (can_forwards_stat dim _ (last t 0) HD Q1 L 0%nat [] HT Q2 (HSo _ Q1 Q2) ltac:(lia) Logic.I)|]. intros ? <-.
  assert (TL : length (repeat init dim) = dim) by apply repeat_length. assert (TR : Forall okrow (repeat init dim)) by (apply Forall_forall; intros x Hx; apply repeat_spec in Hx; subst; auto).
  eapply can_bind; [apply (can_sw_aug dim mp maxp (vol (repeat init dim)) t vt Hmp Hm (HV _ TL TR))|].
  - exact HG.
  - split; [constructor; cbn; auto|].
    + repeat constructor.
    + intros u [<-|[]]. exact HT.
    + intros i a b Ha Hb0. destruct i; discriminate.
  - repeat constructor. lia.
  - intros [z h] (K & F1 & F2 & F3 & F4 & F5). cbn [fst snd] in *. apply can_ret. split; [|reflexivity]. exists K. cbn [c_h c_z c_sp c_thi]. unfold rw_init. cbn [rw_state]. auto 12.
Qed.
Lemma tour_feasible init stops : okrow init -> tour dim okrow (alive grad) (last t 0) (repeat init dim) stops ->
  exists ins, Forall (inputs_ok okrow) ins /\
    feasible (fun fuel => sample_posterior L dim fuel mp maxp NegInf PosInf vol disc bounds grad log_prior loglik batch precoin pr maxf t vt opt decay air alp bet init ins) (Forall2 (at_stop dim) stops).
Proof using All.
  intros HI HTo. destruct (can_runs _ _ [] (can_start_chain init HI)) as (l1 & n1 & c & R1 & W & ET).
  destruct (runs_resume stops ([] ++ map n_u l1) c W) as (ins & l2 & n2 & cs & I1 & R2 & F2); [rewrite ET; exact HTo|].
  exists ins. split; auto. eapply runs_feasible; [|exact F2].
  eapply runs_ext; [|apply (runs_bind [] _ (fun fuel c => resume_sampling L dim fuel mp maxp NegInf PosInf vol disc bounds grad log_prior loglik batch precoin pr maxf t vt opt decay air alp bet ins c) l1 n1 c l2 n2 cs R1 R2)].
  intros n _ o k. unfold sample_posterior. unfold bind, lift_opt, lift. rewrite grid_last_opt.
  destruct (sample_forwards L n (last t 0) None dim (mat_of (get_ev dim alp bet)) o k) as [[y| |] k1]; auto.
  destruct (sample_aug n mp maxp NegInf PosInf (vol (repeat init dim)) y t vt o k1) as [[a| |] k2]; auto.
Qed.
End Chain.
