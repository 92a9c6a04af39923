(** Where the switching sampler can go: the three Ornstein-Uhlenbeck models. *)
From Coq Require Import Reals List Bool Arith ZArith Lia Lra Sorting.Sorted.
From Verif Require Import Base Np Rng Mat L_rng M_mjp M_inf M_bf M_adapt M_hit M_path M_skel M_seed M_models M_sw M_chain M_full SpecMjp SpecLin SpecInf SpecAdapt SpecSkel SpecSeed SpecSw SpecChain SpecSupport SpecPath SpecModels SpecCan SpecIrr SpecFull
  L_models3 L_can4 L_lindemo L_swdemo L_full3 L_full5 L_irr4 L_irr5.
Import ListNotations.
Local Open Scope R_scope.

Lemma sw_spread disc inf thi y lb ub : (forall p q, 0 <= p < q -> disc thi y p < disc thi y q) -> spread lb ub (as_bounds (sw_bounds_disc disc inf thi y)).
Proof.
  intros M a b HXY _ _. unfold as_bounds, sw_bounds_disc. cbv zeta. eexists _, _, _. split; [reflexivity|].
  destruct (Rltb a 0 && Rltb 0 b) eqn:E.
  - apply andb_prop in E as [E1 E2]. apply Rltb_true in E1, E2. apply M. split; [lra|]. rewrite (Rabs_right b), (Rabs_left a) by lra. apply (Rlt_le_trans _ b); [lra|apply Rmax_r].
  - apply M. split; [unfold Rmin; destruct (Rle_dec _ _); apply Rabs_pos|]. apply abs_order; auto.
    destruct (Rle_lt_dec 0 a); auto. destruct (Rle_lt_dec b 0); auto. rewrite (proj2 (Rltb_true a 0)), (proj2 (Rltb_true 0 b)) in E by lra. discriminate.
Qed.
(** a row of positive parameters *)
Lemma pos_row dim thi y : length thi = dim -> Forall pos2 thi -> (y < dim)%nat -> exists b s, M_models.row thi y = [b; s] /\ 0 < b /\ 0 < s.
Proof. intros E H Hy. rewrite Forall_forall in H. destruct (H (M_models.row thi y)) as (b & s & -> & P & Q); [apply nth_In; lia|]. eauto. Qed.
Lemma sq_mono c p q k : 0 < c -> 0 <= p < q -> (c * p * (c * p) + k) / 2 < (c * q * (c * q) + k) / 2.
Proof. intros HC HP. assert (c * p < c * q) by (apply Rmult_lt_compat_l; lra). assert (0 <= c * p) by (apply Rmult_le_pos; lra). nra. Qed.
Section Models.
Context (dim : nat) (thi : list (list R)) (E : length thi = dim) (H : Forall pos2 thi) (y : nat) (Hy : (y < dim)%nat).
Lemma ou1_vol_pos : 0 < ou1_vol thi y.
Proof. destruct (pos_row dim thi y E H Hy) as (b & s & R & P & Q). unfold ou1_vol, par2. rewrite R. unfold par. cbn. apply Rdiv_lt_0_compat; lra. Qed.
Lemma ou2_vol_pos : 0 < ou2_vol thi y.
Proof. destruct (pos_row dim thi y E H Hy) as (b & s & R & P & Q). unfold ou2_vol, par2. rewrite R. unfold par. cbn. apply Rdiv_lt_0_compat; lra. Qed.
Lemma ou3_vol_pos : 0 < ou3_vol thi y.
Proof. destruct (pos_row dim thi y E H Hy) as (b & s & R & P & Q). unfold ou3_vol, par2. rewrite R. unfold par. cbn. lra. Qed.
Lemma ou1_wide lb ub : spread lb ub (as_bounds (ou1_bounds_disc thi y)).
Proof.
  destruct (pos_row dim thi y E H Hy) as (b & s & R & P & Q). apply sw_spread. intros p q HPQ. unfold ou1_disc, sw_disc, ou1_drift, ou1_dx, ou1_vol, par2. rewrite R. unfold par. cbn.
  replace (- b * p / (1 / s)) with (- (b * s * p)) by (field; lra). replace (- b * q / (1 / s)) with (- (b * s * q)) by (field; lra).
  rewrite !Rmult_opp_opp. apply sq_mono; auto. apply Rmult_lt_0_compat; lra.
Qed.
Lemma ou2_wide lb ub : spread lb ub (as_bounds (ou2_bounds_disc thi y)).
Proof.
  destruct (pos_row dim thi y E H Hy) as (b & s & R & P & Q). apply sw_spread. intros p q HPQ. unfold ou2_disc, sw_disc, ou2_drift, ou2_dx, ou2_vol, par2. rewrite R. unfold par. cbn.
  replace (- b * p / (b / s)) with (- (s * p)) by (field; lra). replace (- b * q / (b / s)) with (- (s * q)) by (field; lra).
  rewrite !Rmult_opp_opp. apply sq_mono; auto.
Qed.
Lemma ou3_wide lb ub : spread lb ub (as_bounds (ou3_bounds_disc thi y)).
Proof.
  destruct (pos_row dim thi y E H Hy) as (b & s & R & P & Q). apply sw_spread. intros p q HPQ. unfold ou3_disc, sw_disc, ou3_drift, ou3_dx, ou3_vol, par2, prod_row. rewrite R. unfold par, np_prod. cbn.
  assert (0 < b * s) by (apply Rmult_lt_0_compat; lra).
  replace (- (b * (s * 1)) * p / b) with (- (s * p)) by (field; lra). replace (- (b * (s * 1)) * q / b) with (- (s * q)) by (field; lra).
  rewrite !Rmult_opp_opp. apply sq_mono; auto.
Qed.
End Models.
Lemma ou1_alive r r' : pos2 r -> pos2 r' -> nth 0 r 0 <> nth 0 r' 0 -> alive ou1_bounds_grad r r'.
Proof. intros (b & s & -> & P & Q) (b' & s' & -> & P' & Q') N dt v0 v1 l u HT _. apply ou1_positive; auto. Qed.
Lemma ou2_alive r r' : pos2 r -> pos2 r' -> nth 0 r 0 <> nth 0 r' 0 -> alive ou2_bounds_grad r r'.
Proof. intros (b & s & -> & P & Q) (b' & s' & -> & P' & Q') N dt v0 v1 l u HT _. apply ou2_positive; auto. Qed.
Lemma ou3_alive r r' : pos2 r -> pos2 r' -> r <> r' -> alive ou3_bounds_grad r r'.
Proof.
  intros (b & s & -> & P & Q) (b' & s' & -> & P' & Q') N dt v0 v1 l u HT _. apply ou3_positive; auto.
  destruct (Req_dec b b'); auto. destruct (Req_dec s s'); auto. congruence.
Qed.
Lemma pos2_step r : pos2 r -> exists r', pos2 r' /\ nth 0 r 0 <> nth 0 r' 0 /\ r <> r'.
Proof.
  intros (b & s & -> & P & Q). exists [b + 1; s]. split; [exists (b + 1), s; split; [reflexivity|lra]|]. split; [cbn; lra|]. intros E. injection E as E. lra.
Qed.
Lemma admissible_pos2 r : admissible 2 pos_lb pos_ub r <-> pos2 r.
Proof.
  split.
  - intros [E H]. destruct r as [|b [|s [|]]]; try discriminate. exists b, s. split; [reflexivity|]. pose proof (H 0%nat ltac:(lia)) as H0. pose proof (H 1%nat ltac:(lia)) as H1. cbn in *. lra.
  - intros (b & s & -> & P & Q). split; [reflexivity|]. intros [|[|i]] Hi; cbn; lra || lia.
Qed.

Lemma tour_step dim (ok : list R -> Prop) (step step' : list R -> list R -> Prop) fin stops : (forall r r', ok r -> ok r' -> step r r' -> step' r r') -> forall thi, length thi = dim -> Forall ok thi ->
  tour dim ok step fin thi stops -> tour dim ok step' fin thi stops.
Proof.
  intros HS. induction stops as [|s stops IH]; intros thi E H HT; [exact Logic.I|]. destruct HT as (SO & HM & HT). split; [exact SO|]. pose proof SO as ((T1 & T2) & _). split.
  - intros j Hj. destruct (HM j Hj) as [Q|Q]; [left; exact Q|right]. rewrite Forall_forall in H, T2. apply HS; auto; [apply H|apply T2]; apply nth_In; lia.
  - apply IH; auto.
Qed.
Lemma tour_ok dim (ok ok' : list R -> Prop) step fin stops : (forall r, ok r -> ok' r) -> forall thi, tour dim ok step fin thi stops -> tour dim ok' step fin thi stops.
Proof.
  intros HS. induction stops as [|s stops IH]; intros thi HT; [exact Logic.I|]. destruct HT as (((T1 & T2) & SO) & HM & HT). split; [split; [split; [exact T1|]|exact SO]|].
  - eapply Forall_impl; [|exact T2]. exact HS.
  - split; [exact HM|]. apply IH; auto.
Qed.
Lemma tour_any dim (ok : list R -> Prop) fin stops : Forall (stop_ok dim ok fin) stops -> forall thi, tour dim ok (fun r r' => r <> r') fin thi stops.
Proof.
  induction 1 as [|s stops SO _ IH]; intros thi; [exact Logic.I|]. split; [exact SO|]. split; [|apply IH]. intros j _. destruct (list_eq_dec Req_EM_T (M_models.row (s_thi s) j) (M_models.row thi j)); auto.
Qed.
Lemma repeat_ok (ok : list R -> Prop) r n : ok r -> Forall ok (repeat r n).
Proof. intros H. apply Forall_forall. intros x Hx. apply repeat_spec in Hx. now subst. Qed.
(** every list of stops can be visited at every second iteration *)
Lemma tour_twice dim step fin stops : (forall r r', pos2 r -> pos2 r' -> exists m, pos2 m /\ step r m /\ step m r') -> Forall (stop_ok dim pos2 fin) stops ->
  forall thi, length thi = dim -> Forall pos2 thi -> exists stops2, tour dim pos2 step fin thi stops2 /\ length stops2 = (2 * length stops)%nat /\
    forall n s, nth_error stops n = Some s -> nth_error stops2 (2 * n + 1) = Some s.
Proof.
  intros HS. induction 1 as [|s stops SO _ IH]; intros thi E H.
  - exists []. split; [exact Logic.I|]. split; [reflexivity|]. intros [|n] s; discriminate.
  - pose proof SO as ((T1 & T2) & SR). destruct (IH (s_thi s) T1 T2) as (l2 & L1 & L2 & L3).
    destruct (L_irr2.fin_choice (fun j m => step (M_models.row thi j) m /\ step m (M_models.row (s_thi s) j)) pos2 [1; 1] dim) as (f & F1 & F2).
    { exists 1, 1. split; [reflexivity|lra]. }
    { intros j Hj. rewrite Forall_forall in H, T2. destruct (HS (M_models.row thi j) (M_models.row (s_thi s) j)) as (m & M1 & M2 & M3); [apply H, nth_In; lia|apply T2, nth_In; lia|]. exists m. auto. }
    set (mid := mk_stop (map f (seq 0 dim)) (s_gen s) (s_path s)).
    assert (MR : forall j, (j < dim)%nat -> M_models.row (s_thi mid) j = f j).
    { intros j Hj. unfold M_models.row. cbn [mid s_thi]. rewrite nth_indep with (d' := f 0%nat) by (rewrite map_length, seq_length; auto). rewrite (map_nth f), seq_nth by auto. reflexivity. }
    exists (mid :: s :: l2). split; [|split].
    + split; [|split]; [|intros j Hj; right; rewrite MR by auto; apply (F2 j Hj)|split; [exact SO|split; [|exact L1]]; intros j Hj; right; rewrite MR by auto; apply (F2 j Hj)].
      split; [|exact SR]. split; [cbn [mid s_thi]; rewrite map_length, seq_length; reflexivity|]. cbn [mid s_thi]. apply Forall_forall. intros x Hx. apply in_map_iff in Hx as (j & <- & _). apply F1.
    + cbn [length]. lia.
    + intros [|n] s' Hn; [injection Hn as <-; reflexivity|]. cbn [nth_error] in Hn. specialize (L3 n s' Hn). replace (2 * S n + 1)%nat with (S (S (2 * n + 1))) by lia. exact L3.
Qed.
Lemma first_between r r' : pos2 r -> pos2 r' -> exists m, pos2 m /\ nth 0 r 0 <> nth 0 m 0 /\ nth 0 m 0 <> nth 0 r' 0.
Proof.
  intros (b & s & -> & P & Q) (b' & s' & -> & P' & Q'). exists [Rmax b b' + 1; 1]. pose proof (Rmax_l b b'). pose proof (Rmax_r b b'). cbn [nth].
  split; [eexists _, _; split; [reflexivity|lra]|lra].
Qed.
Definition model_ok (vol : list (list R) -> nat -> R) (bounds : list (list R) -> nat -> bounds_fun) (grad : list R -> list R -> R -> R -> R -> R -> R -> list R) (step : list R -> list R -> Prop) : Prop :=
  (forall dim thi, length thi = dim -> Forall pos2 thi -> forall y, (y < dim)%nat -> 0 < vol thi y /\ spread NegInf PosInf (bounds thi y)) /\
  (forall r r', pos2 r -> pos2 r' -> step r r' -> alive grad r r') /\ (forall r, pos2 r -> exists r', pos2 r' /\ step r r').
Lemma ou1_ok : model_ok ou1_vol (fun thi y => as_bounds (ou1_bounds_disc thi y)) ou1_bounds_grad (fun r r' => nth 0 r 0 <> nth 0 r' 0).
Proof. split; [|split]; [intros; split; [eapply ou1_vol_pos|eapply ou1_wide]; eauto|exact ou1_alive|]. intros r H. destruct (pos2_step r H) as (r' & H1 & H2 & _). eauto. Qed.
Lemma ou2_ok : model_ok ou2_vol (fun thi y => as_bounds (ou2_bounds_disc thi y)) ou2_bounds_grad (fun r r' => nth 0 r 0 <> nth 0 r' 0).
Proof. split; [|split]; [intros; split; [eapply ou2_vol_pos|eapply ou2_wide]; eauto|exact ou2_alive|]. intros r H. destruct (pos2_step r H) as (r' & H1 & H2 & _). eauto. Qed.
Lemma ou3_ok : model_ok ou3_vol (fun thi y => as_bounds (ou3_bounds_disc thi y)) ou3_bounds_grad (fun r r' => r <> r').
Proof. split; [|split]; [intros; split; [eapply ou3_vol_pos|eapply ou3_wide]; eauto|exact ou3_alive|]. intros r H. destruct (pos2_step r H) as (r' & H1 & _ & H2). eauto. Qed.
Section Model.
Context (L : linalg) (dim mp maxp : nat) (vol : list (list R) -> nat -> R) (disc : list (list R) -> nat -> R -> R) (bounds : list (list R) -> nat -> bounds_fun)
  (grad : list R -> list R -> R -> R -> R -> R -> R -> list R) (log_prior : list (list R) -> R) (loglik : list (list R) -> anchorage -> option nat -> R * R)
  (batch : nat) (precoin : bool) (pr : R) (maxf : nat) (t vt : list R) (opt decay : R) (air : nat) (alp bet : omat) (step : list R -> list R -> Prop).
Hypothesis HMo : model_ok vol bounds grad step.
Hypothesis HG : obs_grid t vt (last t 0).
Hypothesis H4 : (4 <= length t)%nat.
Hypothesis HD : (2 <= dim)%nat.
Hypothesis HA : hyper dim (Rlt 0) alp.
Hypothesis HB : hyper dim (Rlt 0) bet.
Hypothesis HSo : forall Q, generator dim Q -> pos_off dim Q -> solve_ok L dim (stat_matrix Q) stat_rhs.
Hypothesis (Hmp : (0 < mp)%nat) (Hm : (0 < maxp)%nat) (Hb : (0 < batch)%nat) (Hf : (0 < maxf)%nat).
Lemma model_tour init stops : pos2 init -> tour dim pos2 step (last t 0) (repeat init dim) stops ->
  exists ins, Forall (fun i => forall j, (valid (fi_params i j) /\ generic (fi_params i j)) /\ (valid (fi_hidden i j) /\ generic (fi_hidden i j))) ins /\
    feasible (fun fuel => full_posterior L dim fuel mp maxp NegInf PosInf vol disc bounds grad log_prior loglik batch precoin pr maxf t vt opt decay air alp bet 2 (fun _ => Fin 0) (fun _ => PosInf) init ins) (fun l => Forall2 (at_stop dim) stops (map fst l)).
Proof using All.
  intros HI HT. destruct HMo as (M1 & M2 & M3).
  assert (FP : forall l, Forall (admissible 2 pos_lb pos_ub) l -> Forall pos2 l) by (intros l; apply Forall_impl; intros; now apply admissible_pos2).
  apply (full_tour L dim mp maxp vol disc bounds grad log_prior loglik batch precoin pr maxf t vt opt decay air alp bet 2 pos_lb pos_ub); auto.
  - intros thi E H y Hy. apply (M1 dim); auto.
  - intros thi E H y Hy. apply (M1 dim); auto.
  - intros r H. apply admissible_pos2 in H. destruct (M3 r H) as (r' & H1 & H2). exists r'. split; [now apply admissible_pos2|auto].
  - now apply admissible_pos2.
  - apply (tour_ok dim pos2); [intros; now apply admissible_pos2|]. apply (tour_step dim pos2 step); auto; [apply repeat_length|apply repeat_ok; auto].
Qed.
Lemma model_twice init stops : (forall r r', pos2 r -> pos2 r' -> exists m, pos2 m /\ step r m /\ step m r') -> pos2 init -> Forall (stop_ok dim pos2 (last t 0)) stops ->
  exists ins, length ins = (2 * length stops)%nat /\ Forall (fun i => forall j, (valid (fi_params i j) /\ generic (fi_params i j)) /\ (valid (fi_hidden i j) /\ generic (fi_hidden i j))) ins /\
    feasible (fun fuel => full_posterior L dim fuel mp maxp NegInf PosInf vol disc bounds grad log_prior loglik batch precoin pr maxf t vt opt decay air alp bet 2 (fun _ => Fin 0) (fun _ => PosInf) init ins)
      (fun l => forall n s, nth_error stops n = Some s -> exists c sps, nth_error l (2 * n + 1) = Some (c, sps) /\ at_stop dim s c).
Proof using All.
  intros HS HI HO. destruct (tour_twice dim step (last t 0) stops HS HO (repeat init dim) (repeat_length _ _) (repeat_ok _ _ _ HI)) as (l2 & T1 & T2 & T3).
  destruct (model_tour init l2 HI T1) as (ins & I1 & o & n0 & a & V & G & P & R). exists ins. split; [|split; [exact I1|]].
  - pose proof (L_full3.full_history L dim n0 mp maxp NegInf PosInf vol disc bounds grad log_prior loglik batch precoin pr maxf t vt opt decay air alp bet 2 pos_lb pos_ub init ins o 0%nat a) as FH.
    specialize (R n0 (le_n _)).
    match type of R with fst ?e = _ => destruct e as [r k'] eqn:ER end. cbn in R. subst r. destruct (FH k') as [E _]; [now apply admissible_pos2|exact ER|].
    assert (LP : length l2 = length (map fst a)) by (clear - P; induction P; cbn; auto). rewrite map_length in LP. lia.
  - exists o, n0, a. split; [exact V|]. split; [exact G|]. split; [|exact R]. intros n s Hn. specialize (T3 n s Hn). clear - P T3.
    set (m := (2 * n + 1)%nat) in *. clearbody m. revert a P m T3. induction l2 as [|x l2 IH]; intros [|[c sps] a] P m T3; try (destruct m; discriminate); inversion P; subst.
    destruct m as [|m]; [injection T3 as <-; exists c, sps; auto|]. cbn [nth_error] in *. eapply IH; eauto.
Qed.
End Model.

(** a case: two regimes, three stops with different regime paths *)
Definition demo_stop (a b : R) (y : jump_path) : stop := mk_stop [[a; 2]; [b; 3]] gen2 y.
Definition flat_y : jump_path := M_mjp.mk_skel [0] [1]%nat 3.
Lemma flat_wf : wf_skel flat_y.
Proof.
  split; [split; cbn; auto|].
  - repeat constructor; lra.
  - intros u [<-|[]]; lra.
  - intros [|[|i]] a b; cbn; intros H1 H2; discriminate.
Qed.
Lemma demo_stop_ok a b y : 0 < a -> 0 < b -> y = sw_y \/ y = flat_y -> stop_ok 2 pos2 3 (demo_stop a b y).
Proof.
  intros A B X. split; [|split].
  - split; [reflexivity|]. repeat constructor; eexists _, _; (split; [reflexivity|lra]).
  - split; [exact gen2_generator|exact gen2_pos].
  - destruct X as [-> | ->]; [split; [exact sw_y_wf|split; [reflexivity|exact sw_y_dim]]|split; [exact flat_wf|split; [reflexivity|repeat constructor]]].
Qed.
Definition demo_tour : list stop := [demo_stop 2 1 sw_y; demo_stop 2 5 flat_y; demo_stop 1 5 sw_y].
Lemma demo_tour_ok : Forall (stop_ok 2 pos2 3) demo_tour.
Proof. apply Forall_cons; [apply demo_stop_ok; auto; lra|]. apply Forall_cons; [apply demo_stop_ok; auto; lra|]. apply Forall_cons; [apply demo_stop_ok; auto; lra|constructor]. Qed.
Lemma demo_tour_first : tour 2 pos2 (fun r r' => nth 0 r 0 <> nth 0 r' 0) 3 (repeat [3; 1] 2) demo_tour.
Proof.
  cbn [demo_tour tour repeat]. split; [apply demo_stop_ok; auto; lra|]. split; [intros [|[|j]] Hj; [right; cbn; lra|right; cbn; lra|lia]|].
  split; [apply demo_stop_ok; auto; lra|]. split; [intros [|[|j]] Hj; [left; reflexivity|right; cbn; lra|lia]|].
  split; [apply demo_stop_ok; auto; lra|]. split; [intros [|[|j]] Hj; [right; cbn; lra|left; reflexivity|lia]|exact Logic.I].
Qed.
(** the three models without hypotheses that are met by the demonstration data *)
Lemma demo_alive : tour 2 pos2 (alive ou1_bounds_grad) 3 (repeat [3; 1] 2) demo_tour.
Proof.
  apply (tour_step 2 pos2 (fun r r' => nth 0 r 0 <> nth 0 r' 0)); [exact ou1_alive|reflexivity| |exact demo_tour_first].
  apply repeat_ok. eexists _, _; (split; [reflexivity|lra]).
Qed.
Lemma pos2_31 : pos2 [3; 1]. Proof. eexists _, _; split; [reflexivity|lra]. Qed.
Section Ou12.
Context (L : linalg) (dim mp maxp : nat) (disc : list (list R) -> nat -> R -> R) (log_prior : list (list R) -> R) (loglik : list (list R) -> anchorage -> option nat -> R * R)
  (batch : nat) (precoin : bool) (pr : R) (maxf : nat) (t vt : list R) (opt decay : R) (air : nat) (alp bet : omat)
  (vol : list (list R) -> nat -> R) (bounds : list (list R) -> nat -> bounds_fun) (grad : list R -> list R -> R -> R -> R -> R -> R -> list R).
Hypothesis HM : (vol = ou1_vol /\ bounds = (fun thi y => as_bounds (ou1_bounds_disc thi y)) /\ grad = ou1_bounds_grad) \/
  (vol = ou2_vol /\ bounds = (fun thi y => as_bounds (ou2_bounds_disc thi y)) /\ grad = ou2_bounds_grad).
Lemma ou12_ok : model_ok vol bounds grad (fun r r' => nth 0 r 0 <> nth 0 r' 0).
Proof using HM. destruct HM as [(-> & -> & ->)|(-> & -> & ->)]; [exact ou1_ok|exact ou2_ok]. Qed.
Definition ou12_tour := model_tour L dim mp maxp vol disc bounds grad log_prior loglik batch precoin pr maxf t vt opt decay air alp bet _ ou12_ok.
Definition ou12_twice := fun H1 H2 H3 H4 H5 H6 H7 H8 H9 H10 init stops => model_twice L dim mp maxp vol disc bounds grad log_prior loglik batch precoin pr maxf t vt opt decay air alp bet _ ou12_ok H1 H2 H3 H4 H5 H6 H7 H8 H9 H10 init stops first_between.
End Ou12.
