(** Lemmas: coins on seeds. *)
From Coq Require Import Reals List Bool Arith ZArith Lia Lra Psatz Sorted Permutation.
From Verif Require Import Base Np Rng L_list L_rng L_sim L_ars L_prop M_mjp L_ppp M_hit SpecHit M_path SpecPath L_sde2 L_sde3 M_skel SpecSkel L_skel2 L_skel3 L_skel4 L_skel5 L_skel6 L_skel7 M_seed SpecSeed L_seed L_seed2.
Import ListNotations.
Local Open Scope R_scope.

Lemma seed_loop_logged fuel mp n norm denorm disc bounds t le m : forall p s o k,
  seed_loop fuel mp n m norm denorm disc bounds t le p s o k =
  (do r <- logged (seed_step fuel mp n norm denorm t le) (fun _ v => disc (fst v) - snd v) bounds m p s; ret (fst r)) o k.
Proof.
  induction m as [|m IH]; intros p s o k; cbn [seed_loop logged]; auto.
  unfold bind, ret, seed_step in *. destruct (ppp_next bounds p o k) as [[[[batch p']|]|e|] k1]; auto.
  unfold bind, ret. destruct (interpolate_seed fuel mp n norm denorm s _ o k1) as [[[s1 vs]|e|] k2]; auto. cbn [fst snd].
  destruct (map_m _ _ o k2) as [[low|e|] k3]; auto. cbn [fst snd].
  set (rows := col1_sort batch).
  assert (E : existsb (fun c => Rltb (snd c) (disc (fst (fst c)) - snd (fst c))) (combine (combine vs low) (map (fun r => nth 0 r 0) rows)) =
     existsb (fun c => Rltb (fst (fst c)) (disc (fst (snd c)) - snd (snd c))) (combine (map (fun r => (nth 0 r 0, nth 1 r 0)) rows) (combine vs low))).
  { generalize (combine vs low), rows. clear. intros l rows. revert l. induction rows as [|r rows IH]; intros [|v l]; cbn; auto. now rewrite IH. }
  rewrite E. destruct (existsb _ (combine (map _ rows) _)); auto.
  rewrite IH. destruct (logged _ _ _ m p' s1 o k3) as [[[[acc s2] log]|e|] k4]; auto.
Qed.
Lemma seed_coin_logged fuel mp n norm denorm s disc bd m o k : seed_poisson_coin fuel mp n norm denorm s disc bd m o k = (do r <- logged_seed_coin fuel mp n norm denorm s disc bd m; ret (fst r)) o k.
Proof.
  unfold seed_poisson_coin, logged_seed_coin, bind, ret. destruct (bound_disc_path _ _ _ _ _ o k) as [[[[t le] ue]|e|] k1]; auto.
  destruct (all_some _) as [g|]; auto. destruct (lift (arr_max g) o k1) as [[i|e|] k2]; auto.
  destruct (lift_opt ValueError _ o k2) as [[fin|e|] k3]; auto. destruct (ppp_start 1 _ m o k3) as [[p|e|] k4]; auto.
  rewrite seed_loop_logged. unfold bind, ret. destruct (logged _ _ _ _ p s o k4) as [[[[acc s2] log]|e|] k5]; auto.
Qed.
Section Ops.
Context (norm denorm : normop) (T scale x0 x1 : R) (OP : operators norm denorm T scale x0 x1) (HT : 0 < T) (HC : 0 < scale).
Lemma disc_path_one bounds seed inf le ue o k : bounds (low_z seed * scale + Rmin x0 x1) (high_z seed * scale + Rmax x0 x1) = (inf, le, ue) ->
  bound_disc_path norm denorm bounds seed (inl 1%nat) o k = (Ok ([0; T], [le], [ue]), k).
Proof.
  intros B. rewrite (disc_path_run norm denorm T scale x0 x1 OP). unfold grid_s, linspace01. cbn [seq map].
  replace (INR 0 / INR 1) with 0 by (simpl; lra). replace (INR 1 / INR 1) with 1 by (simpl; lra).
  unfold pair_min, pair_max. cbn [tl removelast combine map fst snd].
  replace (Rmin (path_at scale x0 x1 1 (low_z seed)) (path_at scale x0 x1 0 (low_z seed))) with (low_z seed * scale + Rmin x0 x1).
  2:{ unfold path_at, Rmin. repeat destruct (Rle_dec _ _); lra. }
  replace (Rmax (path_at scale x0 x1 1 (high_z seed)) (path_at scale x0 x1 0 (high_z seed))) with (high_z seed * scale + Rmax x0 x1).
  2:{ unfold path_at, Rmax. repeat destruct (Rle_dec _ _); lra. }
  rewrite B. cbn [fst snd]. now replace (0 * T) with 0 by ring; replace (1 * T) with T by ring.
Qed.
Lemma path_inside s u x : well_formed s -> horizon s = 1 -> seed_at T scale x0 x1 s u x ->
  0 <= u / T <= 1 /\ low_z s * scale + Rmin x0 x1 <= x <= high_z s * scale + Rmax x0 x1.
Proof.
  intros W H1 (z & A & ->). destruct (value_bounds s _ z W A) as [B C]. rewrite H1 in B. split; auto. fold (low_z s) (high_z s) in C.
  unfold path_at. assert (low_z s * scale <= z * scale <= high_z s * scale) by nra. unfold Rmin, Rmax. destruct (Rle_dec x0 x1); nra.
Qed.
Lemma level_one le u : 0 < u < T -> level_at [0; T] [le] u = Some le.
Proof.
  intros H. unfold level_at, searchsorted_right. cbn [filter]. simpl nleb.
  rewrite (proj2 (Rleb_true 0 u)) by lra. rewrite (proj2 (Rleb_false T u)) by lra. reflexivity.
Qed.
Lemma levels_one le new o k : Forall (fun u => 0 < u < T) new -> map_m (fun u => lift_opt IndexError (level_at [0; T] [le] u)) new o k = (Ok (map (fun _ => le) new), k).
Proof.
  revert k. induction new as [|u new IH]; intros k F; [reflexivity|]. inversion F; subst. cbn [map_m map]. rewrite level_one by auto. unfold lift_opt.
  erewrite run_bind by reflexivity. erewrite run_bind by (apply IH; auto). reflexivity.
Qed.
Lemma seed_step_returns fuel mp n le s new : standard s -> StronglySorted Rlt new -> Forall (fun u => 0 < u < T) new ->
  returns_if generic (seed_step fuel mp n norm denorm [0; T] [le] s new) (fun q => standard (fst q) /\ extends s (fst q) /\
     Forall2 (fun u v => seed_at T scale x0 x1 (fst q) u (fst v) /\ snd v = le) new (snd q)).
Proof.
  intros ST SN F o k V G. unfold seed_step. unfold bind at 1.
  assert (H := seed_request norm denorm T scale x0 x1 OP HT fuel mp n s new ST SN o k V I).
  destruct (interpolate_seed fuel mp n norm denorm s new o k) as [[[s1 vs]|e|] k1]; auto. cbn [fst snd] in *.
  erewrite run_bind by (apply levels_one; auto). cbn [fst ret snd]. destruct H as (A & B & C & _). split; auto. split; auto.
  clear -C. induction C; cbn; constructor; auto.
Qed.
Lemma seed_coin_inf fuel mp n s disc bounds m inf le ue o k : bounds (low_z s * scale + Rmin x0 x1) (high_z s * scale + Rmax x0 x1) = (inf, le, ue) -> is_fin ue = false ->
  seed_poisson_coin fuel mp n norm denorm s disc bounds m o k = (Ok (false, - T * le, s), k).
Proof.
  intros B F. unfold seed_poisson_coin. rewrite (run_bind _ _ _ _ _ _ (disc_path_one _ _ _ _ _ o k B)). cbv beta iota. unfold neg_dot. cbn [np_diff combine map fold_right fst snd].
  destruct ue; try discriminate; cbn [gaps all_some]; unfold ret; do 3 f_equal; f_equal; simpl nsub; ring.
Qed.
Lemma seed_coin_flat fuel mp n s disc bounds m inf le ue o k : bounds (low_z s * scale + Rmin x0 x1) (high_z s * scale + Rmax x0 x1) = (inf, le, Fin ue) -> ue <= le ->
  seed_poisson_coin fuel mp n norm denorm s disc bounds m o k = (Raise AssertionError, k).
Proof.
  intros B F. unfold seed_poisson_coin. rewrite (run_bind _ _ _ _ _ _ (disc_path_one _ _ _ _ _ o k B)). cbv beta iota. cbn [gaps all_some].
  erewrite run_bind by reflexivity. rewrite (op_denorm_none _ _ _ _ _ _ OP). cbn [map fst hd_error]. erewrite run_bind by reflexivity.
  assert (SR := start_run (ue - le) (1 * T) m o k). cbn [np_max_from]. unfold bind at 1. destruct (ppp_start 1 [ue - le; 1 * T] m o k) as [[p|e|] k1]; try contradiction; [lra|].
  destruct SR as (-> & -> & _). reflexivity.
Qed.
Lemma seed_coin_statement fuel mp n s disc bounds m o k acc st s' inf le ue : standard s -> valid o -> generic o ->
  bounds (low_z s * scale + Rmin x0 x1) (high_z s * scale + Rmax x0 x1) = (inf, le, Fin ue) ->
  fst (seed_poisson_coin fuel mp n norm denorm s disc bounds m o k) = Ok (acc, st, s') ->
  exists log, fst (logged_seed_coin fuel mp n norm denorm s disc bounds m o k) = Ok (acc, st, s', log) /\ st = - T * le /\ standard s' /\ extends s s' /\
    Forall (fun c => let '(h, u, v) := c in 0 <= h /\ 0 < u < T /\ seed_at T scale x0 x1 s' u (fst v) /\ snd v = le) log /\
    (acc = false <-> Exists (fun c => let '(h, u, v) := c in h < disc (fst v) - le) log) /\
    (acc = true -> length log = ora_n o k (DPoisson ((ue - le) * T))) /\
    (encloses bounds disc -> Forall (fun c => let '(h, u, v) := c in 0 <= disc (fst v) - le <= ue - le) log).
Proof.
  intros ST V G B H. rewrite seed_coin_logged in H. unfold bind, ret in H.
  destruct (logged_seed_coin fuel mp n norm denorm s disc bounds m o k) as [[[[[acc0 st0] s0] log]|e|] k1] eqn:E; try discriminate. cbn in H. injection H as -> -> ->. exists log. split; auto.
  unfold logged_seed_coin in E. rewrite (run_bind _ _ _ _ _ _ (disc_path_one _ _ _ _ _ o k B)) in E. cbv beta iota in E. cbn [gaps all_some] in E.
  erewrite run_bind in E by reflexivity. rewrite (op_denorm_none _ _ _ _ _ _ OP) in E. cbn [map fst hd_error np_max_from] in E. erewrite run_bind in E by reflexivity.
  replace (1 * T) with T in E by ring. assert (SR := start_run (ue - le) T m o k). unfold bind at 1 in E.
  destruct (ppp_start 1 _ m o k) as [[p|e|] k2]; try discriminate. destruct SR as (_ & B0 & BT & EN & SZ & TOT & UB).
  assert (L := logged_returns (seed_step fuel mp n norm denorm [0; T] [le]) (fun _ v => disc (fst v) - snd v) (ue - le) T (fun q => standard q /\ extends s q) extends
     (fun q u v => seed_at T scale x0 x1 q u (fst v) /\ snd v = le) extends_refl extends_trans).
  specialize (L (fun a b u v X Y => conj (seed_at_extends T scale x0 x1 a b u _ X (proj1 Y)) (proj2 Y))).
  assert (STP : forall q new, standard q /\ extends s q -> StronglySorted Rlt new -> Forall (fun u => 0 < u < T) new ->
     returns_if generic (seed_step fuel mp n norm denorm [0; T] [le] q new) (fun z => (standard (fst z) /\ extends s (fst z)) /\ extends q (fst z) /\ Forall2 (fun u v => seed_at T scale x0 x1 (fst z) u (fst v) /\ snd v = le) new (snd z))).
  { intros q new [Q1 Q2] SN F. eapply returns_weaken; [apply seed_step_returns; auto|]. intros z (Z1 & Z2 & Z3). split; auto. split; auto. eapply extends_trans; eauto. }
  specialize (L STP (S (length (pp_sizes p))) p s B0 BT (conj ST (extends_refl s)) SZ ltac:(lra) o k2 V G). unfold bind, ret in E.
  destruct (logged _ _ _ _ p s o k2) as [[[[acc1 s1] log1]|e|] k3]; try discriminate. cbn [fst snd] in *. injection E as E1 E2 E3 E4 E5. subst acc1 s1 log1.
  destruct L as ((W' & X) & _ & F & D & N1 & N2).
  split. { rewrite <- E2. unfold neg_dot. cbn [np_diff combine map fold_right fst snd]. simpl nsub. ring. }
  split; auto. split; auto. split; auto. split; [|split].
  - rewrite D. split; intros H; apply Exists_exists in H as ([[h u] v] & H1 & H2); apply Exists_exists; exists (h, u, v); split; auto;
      rewrite Forall_forall in F; specialize (F _ H1); cbn in F; destruct F as (_ & _ & _ & F); rewrite F in *; auto.
  - intros A. rewrite (N1 A), TOT; auto.
  - intros EN0. eapply Forall_impl; [|exact F]. intros [[h u] v] (_ & _ & A & _). destruct (path_inside s' u (fst v)) as [_ PI]; auto; try apply W'.
    destruct X as (X1 & X2 & _). unfold low_z, high_z in PI. rewrite X1, X2 in PI. fold (low_z s) (high_z s) in PI.
    specialize (EN0 (low_z s * scale + Rmin x0 x1) (high_z s * scale + Rmax x0 x1)). rewrite B in EN0. destruct (EN0 ltac:(lra) (fst v) PI) as [Q1 Q2]. cbn in Q2. lra.
Qed.
Lemma seed_coin_returns fuel mp n s disc bounds m : standard s ->
  returns_if generic (seed_poisson_coin fuel mp n norm denorm s disc bounds m) (fun r => standard (snd r) /\ extends s (snd r)).
Proof.
  intros ST o k V G. destruct (bounds (low_z s * scale + Rmin x0 x1) (high_z s * scale + Rmax x0 x1)) as [[inf le] ue] eqn:B.
  destruct (is_fin ue) eqn:F.
  - destruct ue as [|ue|]; try discriminate. destruct (fst _) as [[[acc st] s']|e|] eqn:E; auto.
    destruct (seed_coin_statement _ _ _ _ _ _ _ _ _ _ _ _ _ _ _ ST V G B E) as (log & _ & _ & A & X & _). auto.
  - erewrite seed_coin_inf by eauto. cbn. split; auto. apply extends_refl.
Qed.
Lemma bridge_returns fuel mp n lb ub disc bounds m : elt lb (Fin (Rmin x0 x1)) -> elt (Fin (Rmax x0 x1)) ub -> (0 < n)%nat ->
  returns_if generic (sample_seed_bridge fuel mp n m lb ub norm denorm disc bounds) (fun s => standard s /\ ends 1 0 0 s /\
    (k_tight s < k_loose s -> forall u x, seed_at T scale x0 x1 s u x -> inside lb ub x)).
Proof.
  intros L U Hn. unfold sample_seed_bridge. eapply returns_bind with (Q := fun _ => True); [intros o k _ _; destruct (fst _); exact I|]. intros _ _.
  induction m as [|m IH]; cbn [bridge_props]; [intros o k _ _; exact I|].
  eapply returns_bind with (Q := fun s => standard s /\ ends 1 0 0 s /\ (k_tight s < k_loose s -> forall u z, 0 <= u <= 1 -> low_z s <= z <= high_z s -> inside lb ub (path_at scale x0 x1 u z))).
  { intros o k V [G1 G2]. assert (H := raw_seed_returns norm denorm T scale x0 x1 OP HT fuel mp n lb ub HC L U Hn o k V G1). destruct (fst _); auto.
    destruct H as (W & E & A & _). split; [split; auto; apply E|]. auto. }
  intros s (W & E & IN). eapply returns_bind; [apply seed_coin_returns; auto|]. intros [[acc w] s'] (W' & X). cbn [snd] in *.
  destruct acc; [|exact IH]. eapply returns_bind; [apply total_returns, total_draw_r|]. intros u _. destruct (_ || _); [|exact IH].
  apply returns_ret. split; auto. destruct X as (X0 & X4 & X5 & X1 & X2 & X3 & _). destruct E as (E1 & E2 & E3). split; [repeat split; congruence|].
  intros TL v x (z & A & ->). destruct W' as [W' H1]. destruct (value_bounds s' _ z W' A) as [B C]. rewrite H1 in B. apply IN; auto; [congruence|]. unfold low_z, high_z in *. rewrite X0, X4 in C. auto.
Qed.
Lemma seed_estimate_statement fuel mp n s disc bounds o k r st s' inf le ue : standard s -> valid o -> generic o ->
  bounds (low_z s * scale + Rmin x0 x1) (high_z s * scale + Rmax x0 x1) = (inf, le, Fin ue) ->
  fst (seed_est_coin fuel mp n norm denorm s disc bounds o k) = Ok (r, st, s') ->
  exists us vs, let N := ora_n o k (DPoisson ((ue - le) * T)) in
    Permutation us (map (fun j => ora_r o j (DUniform 0 T)) (seq (S k) N)) /\ Forall2 (seed_at T scale x0 x1 s') us vs /\
    le < ue /\ standard s' /\ extends s s' /\ st = - T * le /\
    r = Some (fold_right Rplus 0 (map (fun v => ln (ue - disc v)) vs) - INR N * ln (ue - le)).
Proof.
  intros ST V G B H. unfold seed_est_coin in H. rewrite (run_bind _ _ _ _ _ _ (disc_path_one _ _ _ _ _ o k B)) in H. cbv beta iota in H. cbn [gaps all_some] in H.
  erewrite run_bind in H by reflexivity. rewrite (op_denorm_none _ _ _ _ _ _ OP) in H. cbn [map fst hd_error np_max_from] in H. erewrite run_bind in H by reflexivity.
  replace (1 * T) with T in H by ring. assert (PR := points_run (ue - le) T o k HT V G). unfold bind at 1 in H.
  assert (SE : neg_dot (np_diff [0; T]) [le] = - T * le). { unfold neg_dot. cbn [np_diff combine map fold_right fst snd]. simpl nsub. ring. }
  rewrite SE in H.
  destruct (sample_ppp (ue - le) [T] o k) as [[pts|e|] k1]; try discriminate. cbv zeta in PR. destruct PR as (C & SN & FU & PM).
  set (us := map (fun r => nth 0 r 0) pts) in *. set (N := ora_n o k (DPoisson ((ue - le) * T))) in *.
  assert (LU : length us = N) by (rewrite (Permutation_length PM), map_length; apply seq_length).
  destruct us as [|u0 us0] eqn:EU.
  - injection H as <- <- <-. exists [], []. split; auto. split; [constructor|]. split; [lra|]. split; auto. split; [apply extends_refl|]. split; auto. cbn [map fold_right]. rewrite <- LU. cbn [length INR]. f_equal. lra.
  - rewrite <- EU in *. assert (IR := seed_request norm denorm T scale x0 x1 OP HT fuel mp n s us ST SN o k1 V I). unfold bind in H.
    destruct (interpolate_seed fuel mp n norm denorm s us o k1) as [[[s1 vs]|e|] k2]; try discriminate. cbn [fst snd] in *. injection H as <- <- <-.
    destruct IR as (W1 & X1 & F1 & _). exists us, vs. split; auto. split; auto. split; [lra|]. split; auto. split; auto. split; auto.
    assert (LV : length vs = N) by (rewrite <- LU; symmetry; now apply Forall2_length in F1). now rewrite LV.
Qed.
End Ops.
