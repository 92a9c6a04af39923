(** Feasibility for the Ornstein-Uhlenbeck process; skeletons beyond a one-sided bound. *)
From Coq Require Import Reals List Bool Arith Lia Lra Sorted.
From Verif Require Import Base Np Rng Mat M_mjp M_bf M_hit M_path M_skel M_seed M_models M_sw M_mcem M_ito SpecHit SpecSkel SpecSeed SpecModels SpecEm SpecIto SpecCan
  L_rng L_hit L_hit8 L_sde3 L_skel4 L_skel5 L_seed L_seed2 L_seed3 L_skel7 L_step L_step3 L_ito L_itodemo L_can L_can2 L_can3.
Import ListNotations.
Local Open Scope R_scope.

Lemma feasible_returns {A} (G : oracle -> Prop) (m : nat -> M A) P Q : feasible m P -> (forall o, valid o -> generic o -> G o) -> (forall fuel, returns_if G (m fuel) Q) -> feasible m (fun a => P a /\ Q a).
Proof.
  intros (o & n0 & a & V & GE & PA & H) HG HR. exists o, n0, a. repeat (split; auto). pose proof (H n0 (le_n _)) as E.
  specialize (HR n0 o 0%nat V (HG o V GE)). unfold outcome in HR. rewrite E in HR. exact HR.
Qed.
Lemma feasible_weaken {A} (m : nat -> M A) (P Q : A -> Prop) : feasible m P -> (forall a, P a -> Q a) -> feasible m Q.
Proof. intros (o & n0 & a & V & G & PA & H) HQ. exists o, n0, a. auto. Qed.
Lemma raw_reaches mp n t a b l : (0 < mp)%nat -> 0 < t -> l < Rmin a b -> 1 / 2 < reach t a b (Fin l) -> (0 < n)%nat ->
  feasible (fun fuel => sample_raw_skeleton fuel mp n t a b (Fin l) PosInf) (fun s => well_formed s /\ k_loose s < l).
Proof.
  intros Hm Ht L R0 Hn. eapply feasible_weaken.
  - apply (feasible_returns uniform_pos _ (fun s => k_loose s < k_tight s) (fun s => (k_loose s < k_tight s -> k_loose s < l) /\ well_formed s)).
    + apply can_feasible. eapply can_weaken; [apply (can_raw mp n t a b (Fin l) PosInf Hm Hn Ht L Logic.I true 0 1); lra|].
      intros s (le & ue & mt & mx & p & E & M1 & M2 & _ & _ & ->). cbn [k_loose k_tight].
      destruct (edges_inside t a b (Fin l) PosInf Ht L Logic.I 1) as (le' & ue' & E' & B1 & B2 & _ & _ & S1). rewrite E in E'. injection E' as <- <-. destruct (S1 ltac:(lia)) as (S2 & S3).
      pose proof (Rmin_l a b). pose proof (Rmax_l a b). lra.
    + intros o _ [H _]. exact H.
    + intros fuel o k V U. pose proof (raw_one_sided fuel mp n t a b l Ht L R0 Hn o k V U) as H1. pose proof (raw_within fuel mp n t a b (Fin l) PosInf Ht L Logic.I Hn o k V U) as H2.
      unfold outcome in *. destruct (fst (sample_raw_skeleton _ _ _ _ _ _ _ _ o k)); auto. split; auto. apply H2.
  - intros s (H1 & H2 & H3). auto.
Qed.
(** ** Ornstein-Uhlenbeck *)
Lemma abs_order x y : x < y -> (0 <= x \/ y <= 0) -> Rmin (Rabs x) (Rabs y) < Rmax (Rabs x) (Rabs y).
Proof. intros H [H0|H0]; [rewrite !Rabs_right by lra; rewrite Rmin_left, Rmax_right by lra; lra|rewrite !Rabs_left1 by lra; rewrite Rmin_right, Rmax_left by lra; lra]. Qed.
Lemma ou_spread thi lb ub : 0 < par thi 0 -> spread lb ub (as_bounds (ou_bounds_disc thi)).
Proof.
  intros HB x y HXY _ _. unfold as_bounds, ou_bounds_disc.
  cbv zeta. eexists _, _, _. split; [reflexivity|].
  assert (M : forall p q, 0 <= p < q -> ou_disc thi p < ou_disc thi q).
  { intros p q HP. unfold ou_disc, ito_disc, ou_drift, ou_dx. cbn [pow].
    assert (par thi 0 * p < par thi 0 * q) by (apply Rmult_lt_compat_l; lra). assert (0 <= par thi 0 * p) by (apply Rmult_le_pos; lra). nra. }
  destruct (Rltb x 0 && Rltb 0 y) eqn:E.
  - apply andb_prop in E as [E1 E2]. apply Rltb_true in E1, E2. apply M. split; [lra|]. rewrite (Rabs_right y), (Rabs_left x) by lra. apply (Rlt_le_trans _ y); [lra|apply Rmax_r].
  - apply M. split; [unfold Rmin; destruct (Rle_dec _ _); apply Rabs_pos|]. apply abs_order; auto.
    destruct (Rle_lt_dec 0 x); auto. destruct (Rle_lt_dec y 0); auto. rewrite (proj2 (Rltb_true x 0)), (proj2 (Rltb_true 0 y)) in E by lra. discriminate.
Qed.
Lemma ou_alive t vt b s b' s' : series t vt -> 0 < b -> 0 < s -> 0 < b' -> 0 < s' -> (b <> b' \/ s <> s') ->
  not_both_zero vt -> coins_alive ou_bounds_grad t vt [b; s] [b'; s'].
Proof.
  intros HS B1 B2 B3 B4 NE NZ i a a1 v0 v1 l u T1 T2 V1 V2 LU. pose proof (series_pos _ _ _ _ _ HS T1 T2) as HD. specialize (NZ i v0 v1 V1 V2).
  unfold ou_bounds_grad, par. cbn [nth].
  set (az := Rmax (Rabs l) (Rabs u)). set (av := Rmax (Rabs v0) (Rabs v1)). set (ub := Rmax b b'). set (ls := Rmin s s').
  assert (0 < ls) by (unfold ls, Rmin; destruct (Rle_dec _ _); lra). assert (0 < ub) by (unfold ub, Rmax; destruct (Rle_dec _ _); lra).
  assert (0 <= az) by (apply (Rle_trans _ (Rabs l)); [apply Rabs_pos|apply Rmax_l]).
  assert (0 < av). { destruct NZ as [N|N]; apply Rabs_pos_lt in N; unfold av; [apply (Rlt_le_trans _ _ _ N), Rmax_l|apply (Rlt_le_trans _ _ _ N), Rmax_r]. }
  assert (0 < sqrt (a1 - a)) by (apply sqrt_lt_R0; lra).
  set (g0 := _ + 1 / 2). set (g1 := ub ^ 2 * _).
  assert (G0 : 0 < g0). { unfold g0. apply Rplus_le_lt_0_compat; [|lra]. apply Rmult_le_pos; [lra|]. apply Rplus_le_le_0_compat; [apply Rplus_le_le_0_compat|].
    - apply Rmult_le_pos; [lra|]. apply pow2_ge_0.
    - apply pow2_ge_0.
    - apply Rmult_le_pos; [|left; apply Rinv_0_lt_compat; lra]. repeat apply Rmult_le_pos; lra. }
  assert (G1 : 0 < g1). { unfold g1. apply Rmult_lt_0_compat; [apply pow_lt; lra|]. apply Rplus_le_lt_0_compat.
    - apply Rmult_le_pos; [|left; apply Rinv_0_lt_compat, pow_lt; lra]. repeat apply Rmult_le_pos; lra.
    - apply Rdiv_lt_0_compat; apply pow_lt; lra. }
  unfold ito_intensity, updating. cbn [combine map filter fst snd].
  destruct (Reqb b b') eqn:E1; destruct (Reqb s s') eqn:E2; cbn [negb map fst snd M_models.rsum fold_right].
  - apply Reqb_true in E1, E2. destruct NE; contradiction.
  - assert (s <> s') by (intros E; rewrite <- Reqb_true in E; congruence). rewrite (Rabs_right g1) by lra. pose proof (Rabs_pos_lt (s - s') ltac:(lra)). apply Rmult_lt_0_compat; lra.
  - assert (b <> b') by (intros E; rewrite <- Reqb_true in E; congruence). rewrite (Rabs_right g0) by lra. pose proof (Rabs_pos_lt (b - b') ltac:(lra)). apply Rmult_lt_0_compat; lra.
  - assert (b <> b') by (intros E; rewrite <- Reqb_true in E; congruence). rewrite (Rabs_right g0), (Rabs_right g1) by lra. pose proof (Rabs_pos_lt (b - b') ltac:(lra)). pose proof (Rabs_pos (s - s')). apply Rmult_lt_0_compat; lra.
Qed.
(** every proposed value is positive and changes its coordinate *)
Lemma ou_along t vt : series t vt -> not_both_zero vt ->
  forall moves thi, pos2 thi -> along (fun a b => a <> b /\ pos2 b) thi moves ->
  along (fun a b => coins_alive ou_bounds_grad t vt a b /\ spread NegInf PosInf (as_bounds (ou_bounds_disc b))) thi moves.
Proof.
  intros HS NZ. induction moves as [|[[s q] d] moves IH]; intros thi HP HA; cbn [along] in *; auto. destruct HA as (H1 & (H2 & H3) & H4).
  split; auto. split.
  - destruct HP as (b & sg & -> & P1 & P2). pose proof H3 as (b' & sg' & E & P3 & P4). rewrite E in *. split.
    + apply ou_alive; auto. destruct (Req_dec b b'); auto. destruct (Req_dec sg sg'); auto. congruence.
    + apply ou_spread. exact P3.
  - apply IH; auto. destruct d; auto.
Qed.
Lemma ou_chain mp maxp disc log_prior loglik batch precoin pr maxf t vt moves ins init : series t vt -> (0 < mp)%nat -> (0 < maxp)%nat -> (0 < batch)%nat -> (0 < maxf)%nat ->
  not_both_zero vt ->
  length ins = length moves -> Forall live ins -> pos2 init -> along (fun a b => a <> b /\ pos2 b) init moves ->
  feasible (fun fuel => ito_sample_posterior fuel mp maxp NegInf PosInf ou_reduce disc (fun thi => as_bounds (ou_bounds_disc thi)) ou_bounds_grad log_prior loglik batch precoin pr maxf init t vt ins)
    (fun l => map fst l = follow init moves).
Proof.
  intros HS H1 H2 H3 H4 NZ HL HI HP HA. apply can_feasible. apply can_posterior; auto.
  - apply ou_spread. destruct HP as (b & s & -> & P & _). exact P.
  - apply ou_along; auto.
Qed.
Lemma live_exists : exists i, live i.
Proof.
  destruct quiet_exists as (o & V & G & Q). exists (mk_ito (gaussian (fun _ => 0) (fun _ => 1) (fun _ _ => 0) (fun _ _ => 0)) (fun _ => o)). split; [|intros; apply Q].
  exists (fun _ => 0), (fun _ => 1), (fun _ _ => 0), (fun _ _ => 0). split; auto.
Qed.
Lemma inside_min lb ub a b : inside lb ub a -> inside lb ub b -> elt lb (Fin (Rmin a b)) /\ elt (Fin (Rmax a b)) ub.
Proof. intros [A1 A2] [B1 B2]. split; [unfold Rmin|unfold Rmax]; destruct (Rle_dec a b); auto. Qed.
Lemma skeleton_feasible mp n k T a lb ub endpoint disc bd x : (0 < mp)%nat -> (0 < n)%nat -> 0 < T -> (forall o i, endpoint o i = (Ok x, i)) ->
  inside lb ub a -> inside lb ub x -> spread_skel lb ub bd ->
  feasible (fun fuel => sample_skeleton fuel mp n (S k) T a lb ub endpoint disc bd) (fun s => well_formed s /\ horizon s = T /\ nth 0 (k_x s) 0 = a /\ last (k_x s) 0 = x).
Proof.
  intros H1 H2 H3 HE HA HX HS. apply can_feasible. eapply can_weaken; [apply (can_sample_skeleton mp n k T a lb ub endpoint disc bd (eq x)); auto|].
  - apply (can_det _ _ x); auto. exists 0%nat. auto.
  - intros b <-. apply inside_min; auto.
  - intros s (W & E1 & E2 & E3). auto.
Qed.
Lemma bridge_feasible norm denorm T c x0 x1 : operators norm denorm T c x0 x1 -> 0 < T -> 0 < c ->
  forall mp n k lb ub disc bounds, (0 < mp)%nat -> (0 < n)%nat -> inside lb ub x0 -> inside lb ub x1 -> spread lb ub bounds ->
  feasible (fun fuel => sample_seed_bridge fuel mp n (S k) lb ub norm denorm disc bounds) (fun s => standard s /\ ends 1 0 0 s).
Proof.
  intros OP HT HC mp n k lb ub disc bounds H1 H2 I0 I1 HS. destruct (inside_min lb ub x0 x1 I0 I1). apply can_feasible. eapply can_bridge; eauto.
Qed.
Lemma chain_feasible mp maxp reduce disc bounds grad log_prior loglik batch precoin pr maxf t vt : series t vt ->
  (0 < mp)%nat -> (0 < maxp)%nat -> (0 < batch)%nat -> (0 < maxf)%nat ->
  forall moves ins init, length ins = length moves -> Forall live ins -> spread NegInf PosInf (bounds init) ->
  along (fun a b => coins_alive grad t vt a b /\ spread NegInf PosInf (bounds b)) init moves ->
  feasible (fun fuel => ito_sample_posterior fuel mp maxp NegInf PosInf reduce disc bounds grad log_prior loglik batch precoin pr maxf init t vt ins)
    (fun l => map fst l = follow init moves).
Proof. intros. apply can_feasible. apply can_posterior; auto. Qed.
Lemma chain_demo : series ito_t ito_v /\ not_both_zero ito_v /\ (exists i, Forall live [i; i; i]) /\ pos2 [1; 2] /\
  along (fun a b => a <> b /\ pos2 b) [1; 2] [(0%nat, 3, true); (1%nat, 1, false); (1%nat, 5, true)] /\
  follow [1; 2] [(0%nat, 3, true); (1%nat, 1, false); (1%nat, 5, true)] = [[3; 2]; [3; 2]; [3; 5]].
Proof.
  split; [exact ito_series|]. split.
  { intros [|[|[|i]]] v0 v1 E E'; cbn in E, E'; try discriminate; injection E as <-; left; lra. }
  split. { destruct live_exists as (i & Hi). exists i. repeat constructor; apply Hi. }
  split; [exists 1, 2; repeat split; lra|]. split; [|reflexivity]. cbn [along list_set length].
  assert (N : forall a b c d : R, a <> c \/ b <> d -> [a; b] <> [c; d]) by (intros a b c d [H|H] E; congruence).
  split; [lia|]. split; [split; [apply N; left; lra|exists 3, 2; repeat split; lra]|].
  split; [lia|]. split; [split; [apply N; right; lra|exists 3, 1; repeat split; lra]|].
  split; [lia|]. split; [split; [apply N; right; lra|exists 3, 5; repeat split; lra]|exact Logic.I].
Qed.
Lemma raw_feasible mp n t a b lb ub : (0 < mp)%nat -> (0 < n)%nat -> 0 < t -> elt lb (Fin (Rmin a b)) -> elt (Fin (Rmax a b)) ub ->
  feasible (fun fuel => sample_raw_skeleton fuel mp n t a b lb ub)
    (fun s => well_formed s /\ ends t a b s /\ k_tight s < k_loose s /\ elt lb (Fin (k_tight s)) /\ elt (Fin (k_loose s)) ub).
Proof. intros. apply can_feasible. apply can_raw_plain; assumption. Qed.
