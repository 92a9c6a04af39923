(** The law of whole bridge paths for a given number of steps. *)
From Coquelicot Require Import Hierarchy RInt RInt_analysis Series.
From Coq Require Import Reals List Bool Arith Lia Lra Sorted Permutation.
From Verif Require Import Base Np Rng L_rng M_mjp SpecMjp SpecLin SpecLaw SpecFdd SpecJumps L_list L_path L_law L_law2 L_law4 L_law5 L_bridge L_unif L_bridge2 L_bridge3 L_fdd1 L_fdd2 L_fdd3 L_fdd4 L_fdd5 L_lindemo L_mat L_prog1 L_prog2 Mat.
Import ListNotations.
Local Open Scope R_scope.

Section Law.
  Variables (L : linalg) (dim : nat) (gen : mat) (T : R) (x0 : nat) (xs : list nat) (bs : list R).
  Hypothesis Hgen : generator dim gen.
  Hypothesis Hrb : 0 < rate_bound dim gen.
  Hypothesis HT : 0 < T.
  Hypothesis HL : expm_exact L.
  Hypothesis Hx0 : (x0 < dim)%nat.
  Hypothesis Hxs : Forall (fun y => (y < dim)%nat) xs.
  Hypothesis Hmv : moves_on x0 xs.
  Hypothesis Hlen : length bs = length xs.
  Hypothesis Hbs : climbs T 0 bs.
  Notation K := (length xs).
  Notation D := (S (S (S (length xs)))).
  Notation U := (up dim gen x0 xs).
  Notation f := (at_ x0 xs (length xs)).
  Notation P := (dtrans dim gen).
  Notation Q := (mpow dim (dtrans dim gen)).
  Notation rb := (rate_bound dim gen).
  Notation lam := (rate_bound dim gen * T).
  Notation C := (get_trans L dim T gen).
  Notation tp := (tups (length xs) 1 bs).
  Notation GU := (up_generator dim gen x0 xs Hgen Hrb Hx0 Hxs Hmv).
  Notation RU := (up_pos dim gen x0 xs Hrb Hx0 Hxs).

  Lemma f_range : (f < dim)%nat.
  Proof. apply at_range; try assumption. lia. Qed.
  Lemma tp_order : forall o, In o tp -> in_order 0 o T.
  Proof. intros o H. apply in_order_fst. destruct (tups_in _ _ _ _ H) as [-> _]. exact Hbs. Qed.
  Lemma tp_low : forall o cs, In o tp -> low xs (seq_obs o cs).
  Proof.
    intros o cs H. destruct (tups_in _ _ _ _ H) as [_ F]. unfold seq_obs, low. rewrite Forall_forall in *. intros [c y] Hp. cbn. apply in_combine_r in Hp.
    apply in_map_iff in Hp as (p & <- & Hp). apply F. exact Hp.
  Qed.
  Lemma tp_range : forall o, In o tp -> in_range D o.
  Proof. intros o H. destruct (tups_in _ _ _ _ H) as [_ F]. unfold in_range. eapply Forall_impl; [|exact F]. intros p Hp. cbn in *. lia. Qed.

  Definition sumgiven (n : nat) : R := lsum (fun o => given D U T 0 K o n) tp.

  Lemma events : forall mid us, length us = S (length mid) -> Forall (fun u => 0 <= u < T) us ->
    ind (goes (x0 :: xs) bs (mk_skel (map fst (devirt (combine (0 :: np_sort us) (x0 :: mid ++ [f])))) (map snd (devirt (combine (0 :: np_sort us) (x0 :: mid ++ [f])))) T))
    = lsum (fun o => ind (ev x0 xs 0 (mid ++ [f]) (seq_obs o (cells (map fst o) us)))) tp.
  Proof.
    intros mid us HLn HU. cbn [combine devirt map fst snd]. set (J := combine (np_sort us) (mid ++ [f])).
    assert (LN : length (np_sort us) = length (mid ++ [f])) by (rewrite (Permutation_length (np_sort_perm us)), app_length; cbn; lia).
    assert (EJ1 : map fst J = np_sort us) by (unfold J; rewrite map_combine_fst by lia; reflexivity).
    assert (EJ2 : map snd J = mid ++ [f]) by (unfold J; rewrite map_combine_snd by lia; reflexivity).
    rewrite goes_good. rewrite good_chk by (assumption || lia || (rewrite EJ1; apply np_sort_sorted)).
    rewrite chk_tups. apply lsum_ext. intros o Ho. f_equal. unfold ev. rewrite EJ2. f_equal.
    assert (Hlo : Forall (fun u => -1 < u) us) by (eapply Forall_impl; [|exact HU]; intros; cbn in *; lra).
    destruct (upto_none us (-1) Hlo) as [U1 U2].
    pose proof (hits_cells o (-1) us (0%nat :: lift x0 xs 0 (mid ++ [f]))) as HC. rewrite U1, U2 in HC. cbn [skipn] in HC. unfold seq_obs. rewrite HC.
    - apply forallb_ext'. intros p. f_equal. unfold J. rewrite liftj_combine.
      rewrite seen_nth; [|rewrite lift_length; lia|apply np_sort_sorted]. rewrite (upto_perm _ _ _ (np_sort_perm us)). reflexivity.
    - cbn [length]. rewrite lift_length, app_length. cbn. lia.
    - exists T. apply (in_order_weaken o 0); [lra|apply tp_order; exact Ho].
  Qed.

  Lemma rest_paths : forall n, (1 <= n)%nat -> 0 < Q n x0 f ->
    chance (bridge_rest dim gen T n x0 f) (goes (x0 :: xs) bs) (sumgiven n / Q n x0 f).
  Proof.
    intros n Hn HQ. unfold bridge_rest. destruct n as [|m]; [lia|]. cbn [Nat.sub]. rewrite Nat.sub_0_r.
    assert (SL : forall o, low xs o -> average (bridge_states dim P (powers dim gen (S m)) f m x0) (fun mid => ind (ev x0 xs 0 (mid ++ [f]) o)) (weight D U K (S m) 0 o / Q (S m) x0 f)).
    { intros o Ho. apply (lifted_law dim gen x0 xs Hgen Hrb Hx0 Hxs Hmv m (S m) 0 o (le_n _) (Nat.le_0_l _) HQ Ho). }
    apply (average_bind _ _ _ _ _ (fun mid => lsum (fun o => INR (fact (S m)) * cellsum T 0 (map fst o) (fun cs => ind (ev x0 xs 0 (mid ++ [f]) (seq_obs o cs))) (S m)) tp)
      (fun mid => length mid = m /\ Forall (fun j => (j < dim)%nat) mid)).
    - refine (average_eq _ _ _ _ _ _ (average_lsum _ _ _ tp _ (fun o => / Q (S m) x0 f * given D U T 0 K o (S m)) _ _ (SL [] (Forall_nil _)) _)).
      + rewrite lsum_scal. unfold sumgiven. field. lra.
      + intros o Ho. refine (average_eq _ _ _ _ _ _ (average_scal _ _ _ _ (INR (fact (S m))) (cellsum_average T _ _ (map fst o) 0 (fun mid cs => ind (ev x0 xs 0 (mid ++ [f]) (seq_obs o cs))) (fun cs => / Q (S m) x0 f * weight D U K (S m) 0 (seq_obs o cs)) (S m) _))).
        * rewrite cellsum_scal. unfold given. field. lra.
        * intros cs _ _. refine (average_eq _ _ _ _ _ _ (SL (seq_obs o cs) (tp_low o cs Ho))). field. lra.
    - apply returns_any. apply (bridge_states_returns dim gen).
    - intros mid [H1 H2].
      apply (average_bind _ _ _ _ _ (fun us => lsum (fun o => ind (ev x0 xs 0 (mid ++ [f]) (seq_obs o (cells (map fst o) us)))) tp) (fun us => length us = S m /\ Forall (fun u => 0 <= u < T) us)).
      + refine (average_lsum _ _ _ tp (fun o us => ind (ev x0 xs 0 (mid ++ [f]) (seq_obs o (cells (map fst o) us)))) (fun o => INR (fact (S m)) * cellsum T 0 (map fst o) (fun cs => ind (ev x0 xs 0 (mid ++ [f]) (seq_obs o cs))) (S m)) _ _ (cells_law T HT (S m) bs (fun _ => 0) Hbs) _).
        intros o Ho. apply (cells_law T HT (S m) (map fst o) (fun cs => ind (ev x0 xs 0 (mid ++ [f]) (seq_obs o cs)))). apply in_order_climbs. apply tp_order. exact Ho.
      + apply returns_any. apply total_returns. apply draw_uniforms. exact HT.
      + intros us [U1 U2].
        destruct (virtual_path dim T HT x0 f us mid Hx0 f_range H2 ltac:(lia) U2) as (M1 & M2 & _). rewrite M1, M2.
        rewrite <- (events mid us ltac:(lia) U2).
        apply (mean_done (value (fun a => ind (goes (x0 :: xs) bs a))) _ (Ok (mk_skel (map fst (devirt (combine (0 :: np_sort us) (x0 :: mid ++ [f])))) (map snd (devirt (combine (0 :: np_sort us) (x0 :: mid ++ [f])))) T))).
        intros o k _. reflexivity.
  Qed.

  Lemma sumgiven_zero : forall n, mpow D (dtrans D U) n 0%nat K = 0 -> sumgiven n = 0.
  Proof.
    intros n Z. unfold sumgiven. rewrite (lsum_ext _ _ (fun _ => 0 * 0)); [rewrite lsum_scal; ring|]. intros o Ho. rewrite Rmult_0_l.
    apply (given_zero D U T GU RU); try lia; [apply tp_range; exact Ho|exact Z].
  Qed.

  Lemma const_paths : forall n, (n = 0 \/ n = 1 /\ x0 = f)%nat -> 0 < Q n x0 f ->
    ind (goes (x0 :: xs) bs (mk_skel [0] [x0] T)) = sumgiven n / Q n x0 f.
  Proof.
    intros n Hn HQ.
    destruct (Nat.eq_dec K 0) as [K0|K0].
    - assert (Ex : xs = []) by (destruct xs; [reflexivity|discriminate K0]). assert (Eb : bs = []) by (destruct bs; [reflexivity|rewrite K0 in Hlen; discriminate Hlen]).
      assert (EG : goes (x0 :: xs) bs (mk_skel [0] [x0] T) = true).
      { rewrite Ex, Eb. unfold goes. cbn [sk_x sk_t tl]. destruct (list_eq_dec Nat.eq_dec [x0] [x0]); [reflexivity|congruence]. }
      rewrite EG. cbn [ind]. assert (ES : sumgiven n = given D U T 0 K [] n).
      { unfold sumgiven. rewrite Eb. unfold lsum. cbn [tups map fold_right]. ring. }
      rewrite ES. unfold given. cbn [map cellsum seq_obs combine weight].
      assert (EQ : mpow D (dtrans D U) n 0%nat K = Q n x0 f).
      { assert (Ef : f = x0) by (rewrite Ex; reflexivity). rewrite Ef. transitivity (mpow D (dtrans D U) n 0%nat 0%nat); [f_equal; exact K0|]. destruct Hn as [-> |[-> _]]; [cbn [mpow]; rewrite !mident_same; reflexivity|].
        rewrite <- !mpow_comm by (assumption || lia). cbn [mpow]. rewrite !mident_r by (assumption || lia). unfold dtrans.
        rewrite (up_rate dim gen x0 xs Hrb Hx0 Hxs), up_diag by lia. rewrite !mident_same. reflexivity. }
      rewrite EQ. replace ((T - 0) / T) with 1 by (field; lra). rewrite pow1. field. split; [apply INR_fact_neq_0|apply Rgt_not_eq; exact HQ].
    - assert (EG : goes (x0 :: xs) bs (mk_skel [0] [x0] T) = false).
      { unfold goes. cbn [sk_x]. destruct (list_eq_dec Nat.eq_dec [x0] (x0 :: xs)) as [E|E]; [|reflexivity]. injection E as E. rewrite <- E in K0. exfalso. apply K0. reflexivity. }
      rewrite EG. cbn [ind]. rewrite sumgiven_zero; [unfold Rdiv; ring|].
      destruct Hn as [-> |[-> Ef]]; [cbn [mpow]; apply mident_diff; lia|].
      assert (K1 : K <> 1%nat).
      { intros E1. assert (A : at_ x0 xs 1 <> at_ x0 xs 0) by (eapply at_moves; try eassumption; lia). rewrite E1 in Ef. apply A. symmetry. exact Ef. }
      rewrite <- mpow_comm by lia. cbn [mpow]. rewrite mident_r by lia. unfold dtrans. rewrite mident_diff by lia. unfold up, dl.
      rewrite (proj2 (Nat.leb_le 0 K)), (proj2 (Nat.eqb_neq K 0)), (proj2 (Nat.eqb_neq K 1)), (proj2 (Nat.eqb_neq K (S K))) by lia. unfold Rdiv. ring.
  Qed.

  Definition sumterm (n : nat) : R := lsum (fun o => term D U T 0 K o n) tp.
  Lemma sum_rel : forall n, sumgiven n = INR (fact n) / lam ^ n * sumterm n.
  Proof.
    intros n. unfold sumgiven, sumterm. rewrite <- lsum_scal. apply lsum_ext. intros o _. unfold given, term. rewrite (up_rate dim gen x0 xs Hrb Hx0 Hxs). field.
    apply pow_nonzero. assert (0 < lam) by (apply Rmult_lt_0_compat; assumption). lra.
  Qed.
  Lemma bridge_paths : forall fuel, 0 < C x0 f ->
    chance (sample_bridge L fuel T x0 f dim gen) (goes (x0 :: xs) bs) (rsum fuel sumterm / mass L dim gen T x0 f).
  Proof.
    intros fuel HC. pose proof (mass_pos L dim gen T x0 f HC) as MP. pose proof f_range as Hf.
    assert (LP : 0 < lam) by (apply Rmult_lt_0_compat; assumption).
    set (H := fun n => if Nat.eqb n 0 then ind (goes (x0 :: xs) bs (mk_skel [0] [x0] T)) else sumgiven n / Q n x0 f).
    assert (E : forall n, uterm dim P lam x0 f n / mass L dim gen T x0 f * H n = sumterm n / mass L dim gen T x0 f).
    { intros n. unfold uterm. assert (LN : lam ^ n <> 0) by (apply pow_nonzero; lra). destruct (Req_dec (Q n x0 f) 0) as [Z|NZ].
      - rewrite Z. assert (G0 : sumgiven n = 0).
        { apply sumgiven_zero. pose proof (pow_le dim gen x0 xs Hgen Hrb Hx0 Hxs Hmv n 0 ltac:(lia)) as B.
          change (at_ x0 xs 0) with x0 in B. rewrite Z in B. pose proof (mpow_bounds D (dtrans D U) (dtrans_stochastic D U GU RU) n 0%nat K ltac:(lia) ltac:(lia)). lra. }
        rewrite sum_rel in G0. assert (S0 : sumterm n = 0).
        { apply Rmult_integral in G0 as [G0|G0]; [|exact G0]. exfalso. revert G0. unfold Rdiv. apply Rmult_integral_contrapositive. split; [apply INR_fact_neq_0|apply Rinv_neq_0_compat; exact LN]. }
        rewrite S0. unfold Rdiv. ring.
      - assert (HQ : 0 < Q n x0 f) by (destruct (mpow_bounds dim P (dtrans_stochastic dim gen Hgen Hrb) n x0 f Hx0 Hf) as [B0 _]; lra).
        assert (EH : H n = sumgiven n / Q n x0 f).
        { unfold H. destruct (Nat.eqb_spec n 0) as [-> |N]; [|reflexivity]. apply const_paths; [left; reflexivity|exact HQ]. }
        rewrite EH, sum_rel. field. repeat split; try apply INR_fact_neq_0; try exact LN; lra. }
    unfold sample_bridge.
    apply (average_bind _ _ _ _ _ (fun r : nat * list mat => H (fst r)) (fun r => snd r = powers dim gen (fst r) /\ (fst r = 0%nat \/ Q (fst r) x0 f <> 0))).
    - refine (average_eq _ _ _ _ _ _ (number_law L dim gen T Hgen Hrb HT HL x0 f Hx0 Hf HC H fuel)).
      rewrite <- rsum_div. apply rsum_ext. intros n _. apply E.
    - intros o k V. rewrite (sample_n_trans_unfold L dim gen T) by assumption. cbn [fst].
      match goal with |- match ?r with _ => _ end => destruct r as [[n l]|e|] eqn:EL end; try exact Logic.I.
      destruct (n_trans_loop_spec dim gen _ _ _ _ _ _ _ _ _ EL) as (H1 & H2 & H3 & H4). cbn [fst snd]. split; [exact H2|].
      destruct n as [|n]; [left; reflexivity|right; apply H4; lia].
    - intros [n l] [Hl Hn]. cbn [fst snd] in *. subst l. unfold H.
      destruct (Nat.eqb_spec n 0) as [-> |N0].
      + cbn [orb]. apply (average_ret _ (mk_skel [0] [x0] T) (fun s => ind (goes (x0 :: xs) bs s))).
      + destruct Hn as [Hn|Hn]; [contradiction|].
        assert (HQ : 0 < Q n x0 f) by (destruct (mpow_bounds dim P (dtrans_stochastic dim gen Hgen Hrb) n x0 f Hx0 Hf) as [B0 _]; lra).
        cbn [orb]. destruct (Nat.eqb_spec n 1) as [E1|N1]; cbn [andb].
        * destruct (Nat.eqb_spec x0 f) as [E2|N2]; cbn [andb].
          -- rewrite <- (const_paths n (or_intror (conj E1 E2)) HQ).
             apply (average_ret _ (mk_skel [0] [x0] T) (fun s => ind (goes (x0 :: xs) bs s))).
          -- apply rest_paths; [lia|exact HQ].
        * apply rest_paths; [lia|exact HQ].
  Qed.

  Notation PU := (fun t => get_trans L (S (S (S (length xs)))) t (up dim gen x0 xs)).
  Definition summarkov : R := lsum (fun o => markov PU 0 0 (o ++ [(T, K)])) tp.
  Lemma sum_series : forall l, (forall o, In o l -> In o tp) ->
    Un_cv (fun fuel => rsum fuel (fun n => lsum (fun o => term D U T 0 K o n) l)) (lsum (fun o => exp (lam) * markov PU 0 0 (o ++ [(T, K)])) l).
  Proof.
    induction l as [|o l IH]; intros H.
    - unfold lsum. cbn [map fold_right]. intros eps He. exists 0%nat. intros m _. rewrite rsum_0 by reflexivity. unfold R_dist. rewrite Rminus_diag_eq by reflexivity. rewrite Rabs_R0. exact He.
    - rewrite lsum_cons.
      apply (Un_cv_ext (fun fuel => rsum fuel (term D U T 0 K o) + rsum fuel (fun n => lsum (fun o => term D U T 0 K o n) l))).
      { intros fuel. rewrite <- rsum_plus. apply rsum_ext. intros n _. rewrite lsum_cons. reflexivity. }
      apply CV_plus; [|apply IH; intros p Hp; apply H; right; exact Hp].
      assert (Ho : In o tp) by (apply H; left; reflexivity).
      destruct (term_series L D U T GU RU HT HL K ltac:(lia) o 0 0%nat ltac:(lia) (tp_range o Ho) (tp_order o Ho)) as [HS _].
      apply is_series_Reals in HS. rewrite (up_rate dim gen x0 xs Hrb Hx0 Hxs), Rminus_0_r in HS.
      intros eps He. destruct (HS eps He) as [N HN]. exists (S N). intros n Hn. destruct n as [|n]; [lia|]. rewrite <- sum_rsum.
      unfold term. rewrite (up_rate dim gen x0 xs Hrb Hx0 Hxs). apply HN. lia.
  Qed.
  Lemma bridge_paths_limit : 0 < C x0 f -> Un_cv (fun fuel => rsum fuel sumterm / mass L dim gen T x0 f) (summarkov / C x0 f).
  Proof.
    intros HC. pose proof (sum_series tp (fun o Ho => Ho)) as HS. rewrite lsum_scal in HS. fold summarkov in HS.
    replace (summarkov / C x0 f) with (exp lam * summarkov * / mass L dim gen T x0 f).
    - apply (CV_mult _ (fun _ => / mass L dim gen T x0 f)); [exact HS|]. apply cv_const.
    - unfold mass. field. split; [lra|apply Rgt_not_eq, exp_pos].
  Qed.
End Law.
