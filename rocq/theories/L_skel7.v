(** Lemmas: requests for stored times; bounds of raw skeletons; the sampler and the estimator of skeleton.py. *)
From Coq Require Import Reals List Bool Arith Lia Lra Psatz Sorted Permutation.
From Verif Require Import Base Np Rng L_list L_rng L_sim L_bridge L_ars L_prop M_mjp L_ppp M_hit SpecHit L_hit7 L_hit8 M_path SpecPath L_sde L_sde2 L_sde3 M_skel SpecSkel L_skel L_skel2 L_skel3 L_skel4 L_skel5 L_skel6.
Import ListNotations.
Local Open Scope R_scope.

(** ** asking for stored times only *)
Lemma arr_min_ok l : l <> [] -> exists m, arr_min l = Ok m /\ In m l /\ forall v, In v l -> m <= v.
Proof. intros NE. destruct (arr_min l) as [m|e|] eqn:E; try (destruct l; easy). exists m. split; auto. now apply arr_min_spec. Qed.
Lemma arr_max_ok l : l <> [] -> exists m, arr_max l = Ok m /\ In m l /\ forall v, In v l -> v <= m.
Proof. intros NE. destruct (arr_max l) as [m|e|] eqn:E; try (destruct l; easy). exists m. split; auto. now apply arr_max_spec. Qed.
Lemma stored_low fuel mp n s new o k : well_formed s -> new <> [] -> (forall u, In u new -> In u (k_t s)) -> k_tight s < k_loose s ->
  fill_wiener_outer fuel mp n (k_t s) (k_x s) new (k_tight s) (Some (k_loose s)) (Some (k_hit s)) (k_hit_i s) o k =
  (Ok (k_t s, k_x s, filter (fun i => np_isin (nth i (k_t s) 0) new) (seq 0 (length (k_t s))), None), k).
Proof.
  intros [LN ST Z0 TWO SD VA HT] NE SUB TL. unfold fill_wiener_outer.
  assert (NT : k_t s <> []) by (destruct (k_t s); [cbn in TWO; lia|easy]). assert (NX : k_x s <> []) by (destruct (k_x s), (k_t s); easy).
  destruct (arr_min_ok _ NT) as (t0 & E0 & I0 & M0). destruct (arr_max_ok _ NT) as (t1 & E1 & I1 & M1).
  destruct (arr_min_ok _ NE) as (s0 & F0 & J0 & N0). destruct (arr_max_ok _ NE) as (s1 & F1 & J1 & N1).
  rewrite E0, E1, F0, F1. erewrite run_bind by reflexivity. erewrite run_bind by reflexivity. erewrite run_bind by reflexivity. erewrite run_bind by reflexivity.
  rewrite run_assert. 2:{ rewrite !andb_true_iff, !Rleb_true. assert (0 <= t0). { apply sorted_min in E0; auto. rewrite E0. destruct (k_t s); [easy|]. cbn in Z0 |- *. lra. }
    repeat split; auto. }
  destruct (arr_min_ok _ NX) as (x0 & G0 & K0 & L0). destruct (arr_max_ok _ NX) as (x1 & G1 & K1 & L1).
  assert (V0 := proj1 (VA x0 K0) TL). assert (V1 := proj1 (VA x1 K1) TL).
  erewrite run_bind.
  2:{ unfold check_bounds. rewrite G0, G1. erewrite run_bind by reflexivity. rewrite run_assert by (apply Rleb_true; lra). erewrite run_bind by reflexivity.
      rewrite run_assert by (apply Rltb_true; lra). unfold assert_. replace (Rltb _ _ && Rltb _ _) with true; [reflexivity|].
      symmetry. rewrite andb_true_iff, !Rltb_true. destruct SD; lra. }
  replace (filter (fun s2 => negb (np_isin s2 (k_t s))) new) with (@nil R).
  2:{ symmetry. apply filter_none. intros u Hu. rewrite (proj2 (isin_spec _ _)); auto. }
  cbn [fill_wiener_inner]. reflexivity.
Qed.
Lemma stored_request fuel mp n s new o k : well_formed s -> StronglySorted Rlt new -> new <> [] -> (forall u, In u new -> In u (k_t s)) ->
  exists vs, interpolate_skeleton fuel mp n s new o k = (Ok (mk_skel (k_t s) (k_x s) (k_tight s) (k_loose s) (k_hit s) None, vs), k) /\ Forall2 (at_time s) new vs.
Proof.
  intros W SN NE SUB. assert (W0 := W). destruct W0 as [LN ST Z0 TWO SD VA HT].
  assert (RET := interpolate_returns fuel mp n s new W SN).
  assert (E : exists vs, forall o k, interpolate_skeleton fuel mp n s new o k = (Ok (mk_skel (k_t s) (k_x s) (k_tight s) (k_loose s) (k_hit s) None, vs), k)).
  { unfold interpolate_skeleton. destruct new as [|u0 new0] eqn:EN; [easy|]. rewrite <- EN in *.
    destruct (Rltb_dec (k_tight s) (k_loose s)) as [[TL ->]|[TL ->]].
    - eexists. intros o' k'. erewrite run_bind by (apply stored_low; auto). reflexivity.
    - assert (LT : k_loose s < k_tight s) by (destruct SD; lra).
      assert (W' := flip_wf s W). assert (W1 := W'). destruct W1 as [LN' ST' Z0' TWO' SD' VA' HT'].
      assert (NT : k_t s <> []) by (destruct (k_t s); [cbn in TWO; lia|easy]).
      assert (R0 : in_range (horizon s) new). { assert (RT := range0 s LN ST Z0 TWO). unfold in_range in *. rewrite Forall_forall in *. auto. }
      assert (HP := horizon_pos s LN ST Z0 TWO).
      set (n' := map (fun u => horizon s - u) (rev new)).
      assert (RN : n' <> []). { unfold n'. intros E. apply map_eq_nil in E. apply (f_equal (@rev R)) in E. rewrite rev_involutive in E. auto. }
      assert (SB : forall u, In u n' -> In u (k_t (flip_of s))).
      { intros u Hu. unfold n' in Hu. apply in_map_iff in Hu as (v & <- & Hv). apply in_rev in Hv. cbn [flip_of k_t]. apply in_map_iff. exists v. split; auto. apply in_rev. rewrite rev_involutive. auto. }
      set (f := flip_of s) in *.
      eexists. intros o' k'. rewrite flip_eq by auto; fold f; (erewrite run_bind by reflexivity); rewrite (last_opt_last _ 0) by auto;
        fold (horizon s); (erewrite run_bind by reflexivity); rewrite reverse_ok by (auto; lra); (erewrite run_bind by reflexivity); cbn [fst]; fold n';
        (erewrite run_bind by (apply stored_low; auto; cbn [f flip_of k_tight k_loose]; lra)). cbv beta iota.
      + assert (Q : flip_skeleton (mk_skel (k_t f) (k_x f) (k_tight f) (k_loose f) (k_hit f) None) = Ok (mk_skel (k_t s) (k_x s) (k_tight s) (k_loose s) (k_hit s) None)).
        { assert (Q1 : flip_skeleton f = Ok s) by (unfold f at 1; rewrite flip_eq by auto; now rewrite flip_flip).
          unfold flip_skeleton in *. cbn [k_t k_x k_tight k_loose k_hit k_hit_i].
          destruct (nth_error (k_x f) 0) as [x0|]; [|discriminate]. destruct (last_opt (k_x f)) as [x1|]; [|discriminate]. destruct (last_opt (k_t f)) as [T|]; [|discriminate].
          destruct (reverse (k_t f) (k_x f) T) as [r|?|]; try discriminate. cbn [rbind] in *. destruct (reflect (Some (fst r)) (snd r) _) as [q|?|]; try discriminate. cbn [rbind] in *.
          destruct (reflect None [k_tight f] _) as [a|?|]; try discriminate. cbn [rbind] in *. destruct (reflect None [k_loose f] _) as [b|?|]; try discriminate. cbn [rbind] in *.
          destruct (reflect None [k_hit f] _) as [c|?|]; try discriminate. cbn [rbind] in *. injection Q1 as <-. reflexivity. }
        rewrite Q. erewrite run_bind by reflexivity. reflexivity. }
  destruct E as (vs & E). exists vs. split; auto.
  specialize (RET (oracle_of plain_script) 0%nat (oracle_of_valid _ plain_script_ok) I). rewrite E in RET. cbn [fst] in RET. destruct RET as (_ & _ & _ & F & _). exact F.
Qed.

(** ** bounds of raw skeletons *)
Lemma raw_bounds fuel mp n t a b lb ub : 0 < t -> elt lb (Fin (Rmin a b)) -> elt (Fin (Rmax a b)) ub -> (0 < n)%nat ->
  holds_if uniform_pos (sample_raw_skeleton fuel mp n t a b lb ub) (outcome (fun s => well_formed s /\ ends t a b s /\
     exists l le ue, (1 <= l)%nat /\ compute_edges l t a b lb ub = Ok (Fin le, Fin ue) /\ elt lb (Fin le) /\ elt (Fin ue) ub /\
       ((le < k_tight s < Rmin a b /\ k_loose s = ue) \/ (le < a + b - k_tight s < Rmin a b /\ k_loose s = a + b - ue))) (fun e => e = BudgetConstraintError)).
Proof.
  intros Ht L U Hn o k V G. assert (H := raw_skeleton_ok fuel mp n t a b lb ub Ht L U Hn o k V G).
  destruct (fst (sample_raw_skeleton fuel mp n t a b lb ub o k)) as [s|e|]; auto. cbn in *.
  destruct H as (W & E & s0 & W0 & (l & le & ue & le' & ue' & LC & C1 & C2 & B1 & B2 & T1 & T2 & _ & LO & _) & X & E0).
  split; auto. split; auto. exists l, le, ue. split; [apply LC|]. split; auto. split; auto. split; auto.
  destruct E0 as (_ & EA & EB). destruct X as [X|X]; rewrite X; [left; lra|right]. cbn [flip_of k_tight k_loose]. unfold mirror_sum. rewrite EA, EB. split; lra.
Qed.
Lemma raw_within fuel mp n t a b lb ub : 0 < t -> elt lb (Fin (Rmin a b)) -> elt (Fin (Rmax a b)) ub -> (0 < n)%nat ->
  returns_if uniform_pos (sample_raw_skeleton fuel mp n t a b lb ub) (fun s => well_formed s /\ ends t a b s /\
    (k_tight s < k_loose s -> elt lb (Fin (k_tight s)) /\ elt (Fin (k_loose s)) ub) /\
    (forall l u, lb = Fin l -> ub = Fin u -> l + u = a + b -> l < k_tight s < u /\ l < k_loose s < u)).
Proof.
  intros Ht L U Hn o k V G. assert (H := raw_bounds fuel mp n t a b lb ub Ht L U Hn o k V G).
  destruct (fst (sample_raw_skeleton fuel mp n t a b lb ub o k)) as [s|e|]; auto. cbn in *.
  destruct H as (W & E & l & le & ue & HL & CE & B1 & B2 & D). split; auto. split; auto.
  destruct (edges_inside t a b lb ub Ht L U l) as (le2 & ue2 & CE2 & _ & _ & _ & _ & I). rewrite CE in CE2. injection CE2 as <- <-. destruct (I HL) as [I1 I2].
  assert (M0 := Rmin_l a b). assert (M1 := Rmin_r a b). assert (M2 := Rmax_l a b). assert (M3 := Rmax_r a b).
  assert (MM : Rmin a b + Rmax a b = a + b) by (unfold Rmin, Rmax; destruct (Rle_dec a b); lra).
  split.
  - intros TL. destruct D as [[D1 ->]|[D1 D2]]; [|exfalso; lra]. split; auto. destruct lb; cbn in *; auto. lra.
  - intros l0 u0 -> -> S0. cbn in *. destruct D as [[D1 ->]|[D1 ->]]; lra.
Qed.
(** one lower bound only: the flipped skeletons *)
Lemma raw_one_sided fuel mp n t a b l : 0 < t -> l < Rmin a b -> 1 / 2 < reach t a b (Fin l) -> (0 < n)%nat ->
  returns_if uniform_pos (sample_raw_skeleton fuel mp n t a b (Fin l) PosInf) (fun s => k_loose s < k_tight s -> k_loose s < l).
Proof.
  intros Ht L HE Hn o k V G. assert (H := raw_bounds fuel mp n t a b (Fin l) PosInf Ht L I Hn o k V G).
  destruct (fst (sample_raw_skeleton fuel mp n t a b (Fin l) PosInf o k)) as [s|e|]; auto. cbn in H.
  destruct H as (W & E & j & le & ue & HJ & CE & _ & _ & D). intros FL.
  assert (M0 := Rmin_l a b). assert (M1 := Rmin_r a b). assert (M2 := Rmax_l a b). assert (M3 := Rmax_r a b).
  destruct (edges_inside t a b (Fin l) PosInf Ht L I 1%nat) as (le1 & ue1 & CE1 & _ & _ & _ & _ & J). destruct (J (le_n 1)) as [J1 J2].
  assert (UE : ue1 <= ue).
  { destruct (Nat.eq_dec j 1) as [->|NE]; [rewrite CE in CE1; injection CE1 as -> ->; lra|].
    destruct (edges_nested t a b (Fin l) PosInf Ht L I 1 j le1 ue1 le ue); auto; [lia|lra]. }
  destruct (edges_quantile t a b (Fin l) PosInf Ht L I 1 le1 ue1 (le_n 1) CE1) as [_ Q].
  unfold reach_given, reach in Q. replace (1 / (INR 1 ^ 2 + 1)) with (1 / 2) in Q by (simpl; lra).
  assert (Y : a + b - l < ue1).
  { apply Rnot_le_lt. intros LE. assert (Q1 : exp (- (2 * (a - ue1) * (b - ue1) / t)) = 1 / 2) by lra.
    cbn [reach] in HE. rewrite <- Q1 in HE. apply exp_lt_inv in HE.
    assert (K : (a - ue1) * (b - ue1) <= (a - l) * (b - l)).
    { replace ((a - l) * (b - l)) with ((a - (a + b - l)) * (b - (a + b - l))) by ring. nra. }
    assert (K2 : 2 * (a - ue1) * (b - ue1) / t <= 2 * (a - l) * (b - l) / t). { apply Rmult_le_compat_r; [apply Rlt_le, Rinv_0_lt_compat; lra|]. nra. }
    lra. }
  destruct D as [[D1 D2]|[D1 D2]]; lra.
Qed.

(** ** sample_skeleton *)
Lemma coin_returns fuel mp n s disc bd m : well_formed s -> returns_if generic (flip_poisson_coin fuel mp n s disc bd m) (fun r => well_formed (snd r) /\ extends s (snd r)).
Proof.
  intros W o k V G. destruct (bd (Rmin (k_loose s) (k_tight s)) (Rmax (k_loose s) (k_tight s))) as [[cent le] ue] eqn:BD.
  destruct (fst (flip_poisson_coin fuel mp n s disc bd m o k)) as [[acc s']|e|] eqn:E; auto.
  destruct (coin_statement fuel mp n s disc bd m o k acc s' cent le ue W V G BD E) as (log & _ & A & B & _). auto.
Qed.
Lemma sampler_returns fuel mp n m T a lb ub endpoint disc bd (P : R -> Prop) : 0 < T -> (0 < n)%nat ->
  (forall b, P b -> elt lb (Fin (Rmin a b)) /\ elt (Fin (Rmax a b)) ub) -> returns_if generic endpoint P ->
  returns_if generic (sample_skeleton fuel mp n m T a lb ub endpoint disc bd) (fun s => well_formed s /\ exists b, P b /\ ends T a b s).
Proof.
  intros HT Hn HB HP. induction m as [|m IH]; cbn [sample_skeleton]; [intros o k _ _; exact I|].
  eapply returns_bind; [exact HP|]. intros b Pb. destruct (HB b Pb) as [B1 B2].
  eapply returns_bind with (Q := fun s => well_formed s /\ ends T a b s).
  { intros o k V [G1 G2]. assert (H := raw_within fuel mp n T a b lb ub HT B1 B2 Hn o k V G1). destruct (fst _); auto. tauto. }
  intros s (W & E). eapply returns_bind; [apply coin_returns; auto|]. intros [acc s'] (W' & X). cbn [fst snd] in *. destruct acc; [|exact IH].
  apply returns_ret. split; auto. exists b. split; auto. destruct X as (_ & _ & _ & X1 & X2 & X3 & _). destruct E as (E1 & E2 & E3). repeat split; congruence.
Qed.

(** ** est_poisson_coin *)
Lemma hd_nth0 l : map (hd 0) l = map (fun r => nth 0 r 0) l.
Proof. apply map_ext. now intros []. Qed.
Lemma points_run c T o k : 0 < T -> valid o -> generic o ->
  match sample_ppp c [T] o k with
  | (Ok pts, _) => 0 < c /\ let us := map (fun r => nth 0 r 0) pts in
      StronglySorted Rlt us /\ Forall (fun u => 0 < u < T) us /\ Permutation us (map (fun j => ora_r o j (DUniform 0 T)) (seq (S k) (ora_n o k (DPoisson (c * T)))))
  | (Raise e, _) => e = AssertionError /\ c <= 0
  | (NoFuel, _) => False
  end.
Proof.
  intros HT V G. unfold sample_ppp, bind, assert_, lift_opt, draw_n, ret, raise. cbn [hd_error tl map np_min_from].
  destruct (Rltb_dec 0 c) as [[L ->]|[L ->]]; [|auto]. rewrite (proj2 (Rltb_true 0 T) HT).
  unfold np_prod. cbn [fold_right]. rewrite Rmult_1_r. set (N := ora_n o k (DPoisson (c * T))).
  assert (RG := draw_uniforms_generic 0 T N HT o (S k) V G).
  rewrite draw_rows_one. unfold bind, ret. rewrite draw_rs_repeat in *. cbn [fst] in RG. set (us := map _ (seq (S k) N)) in *. destruct RG as (_ & FU & ND).
  split; auto. assert (PM : Permutation (map (fun r => nth 0 r 0) (row_sort (map (fun u => [u]) us))) us).
  { eapply perm_trans; [apply Permutation_map, row_sort_perm|]. rewrite map_map. cbn. now rewrite map_id. }
  cbv zeta. split; [|split; auto].
  - apply NoDup_sorted_lt; [eapply Permutation_NoDup; [apply Permutation_sym, PM|auto]|]. rewrite <- hd_nth0. apply row_sort_sorted.
  - eapply Permutation_Forall; [apply Permutation_sym, PM|auto].
Qed.
Lemma estimate_statement fuel mp n s disc bd o k r s' cent le ue : well_formed s -> valid o -> generic o ->
  bd (Rmin (k_loose s) (k_tight s)) (Rmax (k_loose s) (k_tight s)) = (cent, le, ue) ->
  fst (est_poisson_coin fuel mp n s disc bd o k) = Ok (r, s') ->
  exists us vs, let N := ora_n o k (DPoisson ((ue - le) * horizon s)) in
    Permutation us (map (fun j => ora_r o j (DUniform 0 (horizon s))) (seq (S k) N)) /\ Forall2 (at_time s') us vs /\
    le < ue /\ well_formed s' /\ extends s s' /\
    r = fold_right Rplus 0 (map (fun v => ln (ue - disc v)) vs) - INR N * ln (ue - le) + (cent - le) * horizon s.
Proof.
  intros W V G BD H. unfold est_poisson_coin in H. rewrite BD in H. assert (W0 := W). destruct W0 as [LN ST Z0 TWO SD VA HTT].
  rewrite (last_opt_last (k_t s) 0) in H by (destruct (k_t s); [cbn in TWO; lia|easy]). fold (horizon s) in H. unfold bind at 1, lift_opt, ret at 1 in H.
  assert (HP := horizon_pos s LN ST Z0 TWO). assert (PR := points_run (ue - le) (horizon s) o k HP V G).
  unfold bind at 1 in H. destruct (sample_ppp (ue - le) [horizon s] o k) as [[pts|e|] k1]; try discriminate. cbv zeta in PR. destruct PR as (C & SN & FU & PM).
  set (us := map (fun r => nth 0 r 0) pts) in *. set (N := ora_n o k (DPoisson ((ue - le) * horizon s))) in *.
  assert (LU : length us = N) by (rewrite (Permutation_length PM), map_length; apply seq_length).
  destruct us as [|u0 us0] eqn:EU.
  - injection H as <- <-. exists [], []. split; auto. split; [constructor|]. split; [lra|]. split; auto. split; [apply extends_refl|]. cbn [map fold_right]. rewrite <- LU. cbn [length INR]. lra.
  - rewrite <- EU in *. assert (IR := interpolate_returns fuel mp n s us W SN o k1 V I). unfold bind in H.
    destruct (interpolate_skeleton fuel mp n s us o k1) as [[[s1 vs]|e|] k2]; try discriminate. cbn [fst snd] in *. injection H as <- <-.
    destruct IR as (W1 & X1 & _ & F1 & _). cbn [fst snd] in *. exists us, vs. split; auto. split; auto. split; [lra|]. split; auto. split; auto. rewrite <- LU. lra.
Qed.

(** ** corollaries *)
Lemma flags_kept fuel mp n s new h : well_formed s -> StronglySorted Rlt new -> k_hit_i s = Some h -> (exists u, In u new /\ ~ In u (k_t s)) ->
  returns (interpolate_skeleton fuel mp n s new) (fun r => exists h', k_hit_i (fst r) = Some h' /\ flags_refine (k_t s) h (k_t (fst r)) h').
Proof.
  intros W SN EH (u & H1 & H2) o k V. assert (H := interpolate_returns fuel mp n s new W SN o k V I). destruct (fst _) as [r|e|]; auto.
  destruct H as (_ & _ & _ & _ & _ & HA). unfold hits_after in HA. rewrite EH in HA. destruct HA as [[HA _]|[_ HA]]; auto. exfalso; auto.
Qed.
Lemma value_unique s u v w : well_formed s -> at_time s u v -> at_time s u w -> v = w.
Proof. intros W. apply stores_fun, W. Qed.
Lemma value_bounds s u v : well_formed s -> at_time s u v -> 0 <= u <= horizon s /\ Rmin (k_loose s) (k_tight s) <= v <= Rmax (k_loose s) (k_tight s).
Proof.
  intros W A. split; [|eapply value_range; eauto]. assert (W0 := W). destruct W0 as [LN ST Z0 TWO SD VA HT]. apply in_combine_l in A.
  assert (R0 := range0 s LN ST Z0 TWO). unfold in_range in R0. rewrite Forall_forall in R0. auto.
Qed.
Lemma call_outside fuel mp n s ts : well_formed s -> (exists u, In u ts /\ horizon s < u) -> forall o k, fst (skel_call fuel mp n s ts o k) = Raise ValueError.
Proof.
  intros [LN ST Z0 TWO SD VA HT] (u & Hu & H) o k. unfold skel_call. rewrite (last_opt_last (k_t s) 0) by (destruct (k_t s); [cbn in TWO; lia|easy]). fold (horizon s).
  unfold bind, lift_opt, ret. assert (E : existsb (fun u => Rltb (horizon s) u) ts = true) by (apply existsb_exists; exists u; split; auto; now apply Rltb_true).
  now rewrite E.
Qed.
Lemma reach_demo : elt (Fin 0) (Fin (Rmin 1 1)) /\ 1 / 2 < reach 8 1 1 (Fin 0).
Proof.
  split; cbn; [rewrite Rmin_left; lra|]. assert (H := exp_ineq1 (- (2 * (1 - 0) * (1 - 0) / 8)) ltac:(lra)). lra.
Qed.
