(** The finite-dimensional laws of bridges and of backward simulation. *)
From Coquelicot Require Import Hierarchy RInt RInt_analysis Series.
From Coq Require Import Reals List Bool Arith Lia Lra Sorted Permutation.
From Verif Require Import Base Np Rng L_rng M_mjp SpecMjp SpecLin SpecLaw SpecFdd L_list L_path L_law L_law2 L_law4 L_law5 L_bridge L_unif L_bridge2 L_bridge3 L_fdd1 L_fdd2 L_fdd3 L_fdd4 L_lindemo L_mat Mat.
Import ListNotations.
Local Open Scope R_scope.

Section Law.
  Variables (L : linalg) (dim : nat) (gen : mat) (T : R).
  Hypothesis Hgen : generator dim gen.
  Hypothesis Hrb : 0 < rate_bound dim gen.
  Hypothesis HT : 0 < T.
  Hypothesis HL : expm_exact L.
  Notation P := (dtrans dim gen).
  Notation Q := (mpow dim (dtrans dim gen)).
  Notation rb := (rate_bound dim gen).
  Notation lam := (rate_bound dim gen * T).
  Notation C := (get_trans L dim T gen).
  Notation Pt := (fun t => get_trans L dim t gen).

  Definition term (i f : nat) (obs : list (R * nat)) (n : nat) : R :=
    lam ^ n * cellsum T 0 (map fst obs) (fun cs => weight dim gen f n i (seq_obs obs cs)) n.

  Lemma given_zero : forall i f obs n, (i < dim)%nat -> (f < dim)%nat -> in_range dim obs -> Q n i f = 0 -> given dim gen T i f obs n = 0.
  Proof.
    intros i f obs n Hi Hf HR Z. unfold given.
    rewrite (cellsum_ext T _ _ _ (fun _ => 0 * 1) n).
    - rewrite cellsum_scal. ring.
    - intros cs _ _. destruct (weight_bounds dim gen f Hgen Hrb Hf (seq_obs obs cs) n i Hi (range_obs dim obs cs HR)) as [B1 B2]. rewrite Z in B2. lra.
  Qed.

  Lemma bridge_law : forall fuel i f obs, (i < dim)%nat -> (f < dim)%nat -> 0 < C i f -> in_order 0 obs T -> in_range dim obs ->
    chance (sample_bridge L fuel T i f dim gen) (visits obs) (rsum fuel (term i f obs) / mass L dim gen T i f).
  Proof.
    intros fuel i f obs Hi Hf HC HO HR. pose proof (mass_pos L dim gen T i f HC) as MP.
    set (H := fun n => if Nat.eqb n 0 then ind (visits obs (mk_skel [0] [i] T)) else given dim gen T i f obs n / Q n i f).
    assert (E : forall n, uterm dim P lam i f n / mass L dim gen T i f * H n = term i f obs n / mass L dim gen T i f).
    { intros n. unfold uterm, term. destruct (Req_dec (Q n i f) 0) as [Z|NZ].
      - rewrite Z. pose proof (given_zero i f obs n Hi Hf HR Z) as G0. unfold given in G0.
        assert (Z2 : cellsum T 0 (map fst obs) (fun cs => weight dim gen f n i (seq_obs obs cs)) n = 0).
        { apply (Rmult_eq_reg_l (INR (fact n))); [rewrite G0; ring|apply INR_fact_neq_0]. }
        rewrite Z2. unfold Rdiv. ring.
      - assert (HQ : 0 < Q n i f) by (destruct (mpow_bounds dim P (dtrans_stochastic dim gen Hgen Hrb) n i f Hi Hf) as [B0 _]; lra).
        assert (EH : H n = given dim gen T i f obs n / Q n i f).
        { unfold H. destruct (Nat.eqb_spec n 0) as [-> |N]; [|reflexivity]. apply const_law; try assumption. left; reflexivity. }
        rewrite EH. unfold given. field. repeat split; try apply INR_fact_neq_0; lra. }
    unfold sample_bridge.
    apply (average_bind _ _ _ _ _ (fun r : nat * list mat => H (fst r)) (fun r => snd r = powers dim gen (fst r) /\ (fst r = 0%nat \/ Q (fst r) i f <> 0))).
    - refine (average_eq _ _ _ _ _ _ (number_law L dim gen T Hgen Hrb HT HL i f Hi Hf HC H fuel)).
      rewrite <- rsum_div. apply rsum_ext. intros n _. apply E.
    - intros o k V. rewrite (sample_n_trans_unfold L dim gen T) by assumption. cbn [fst].
      match goal with |- match ?r with _ => _ end => destruct r as [[n l]|e|] eqn:EL end; try exact Logic.I.
      destruct (n_trans_loop_spec dim gen _ _ _ _ _ _ _ _ _ EL) as (H1 & H2 & H3 & H4). cbn [fst snd]. split; [exact H2|].
      destruct n as [|n]; [left; reflexivity|right; apply H4; lia].
    - intros [n l] [Hl Hn]. cbn [fst snd] in *. subst l. unfold H.
      destruct (Nat.eqb_spec n 0) as [-> |N0].
      + cbn [orb]. apply (average_ret _ (mk_skel [0] [i] T) (fun s => ind (visits obs s))).
      + destruct Hn as [Hn|Hn]; [contradiction|].
        assert (HQ : 0 < Q n i f) by (destruct (mpow_bounds dim P (dtrans_stochastic dim gen Hgen Hrb) n i f Hi Hf) as [B0 _]; lra).
        cbn [orb]. destruct (Nat.eqb_spec n 1) as [E1|N1]; cbn [andb].
        * destruct (Nat.eqb_spec i f) as [E2|N2]; cbn [andb].
          -- rewrite <- (const_law dim gen T Hgen Hrb HT n i f obs (or_intror (conj E1 E2)) Hi Hf HQ HO HR).
             apply (average_ret _ (mk_skel [0] [i] T) (fun s => ind (visits obs s))).
          -- apply (rest_law dim gen T Hgen Hrb HT); try assumption. lia.
        * apply (rest_law dim gen T Hgen Hrb HT); try assumption. lia.
  Qed.

  (** summing over the number of transitions *)
  Lemma unif_at : forall t x y, (x < dim)%nat -> (y < dim)%nat -> is_series (fun n => (rb * t) ^ n / INR (fact n) * Q n x y) (Pt t x y * exp (rb * t)).
  Proof. intros t x y Hx Hy. exact (trans_series L dim gen t Hgen Hrb HL x y Hx Hy). Qed.

  Lemma term_series : forall f, (f < dim)%nat -> forall obs lo x, (x < dim)%nat -> in_range dim obs -> in_order lo obs T ->
    is_series (fun n => lam ^ n * cellsum T lo (map fst obs) (fun cs => weight dim gen f n x (seq_obs obs cs)) n)
      (exp (rb * (T - lo)) * markov Pt lo x (obs ++ [(T, f)])) /\
    forall n, 0 <= lam ^ n * cellsum T lo (map fst obs) (fun cs => weight dim gen f n x (seq_obs obs cs)) n.
  Proof.
    intros f Hf. induction obs as [|[u y] r IH]; intros lo x Hx HR HO.
    - cbn [map cellsum seq_obs combine weight app markov]. cbn [in_order] in HO.
      assert (EE : forall n, lam ^ n * (((T - lo) / T) ^ n / INR (fact n) * Q n x f) = (rb * (T - lo)) ^ n / INR (fact n) * Q n x f).
      { intros n. replace (rb * (T - lo)) with (lam * ((T - lo) / T)) by (field; lra). rewrite (Rpow_mult_distr lam ((T - lo) / T) n). unfold Rdiv. ring. }
      split.
      + apply (is_series_ext (fun n => (rb * (T - lo)) ^ n / INR (fact n) * Q n x f)); [intros n; symmetry; apply EE|].
        assert (EV : exp (rb * (T - lo)) * (Pt (T - lo) x f * 1) = Pt (T - lo) x f * exp (rb * (T - lo))) by ring.
        rewrite EV. apply unif_at; assumption.
      + intros n. rewrite EE. apply Rmult_le_pos; [|apply (mpow_bounds dim P (dtrans_stochastic dim gen Hgen Hrb)); assumption].
        apply Rmult_le_pos; [apply pow_le; apply Rmult_le_pos; lra|]. left. apply Rinv_0_lt_compat, INR_fact_lt_0.
    - cbn [in_order] in HO. destruct HO as [H1 H2]. inversion HR as [|? ? Hy HR']; subst. cbn [snd] in Hy.
      destruct (IH u y Hy HR' H2) as [I1 I2].
      set (a := fun m => (rb * (u - lo)) ^ m / INR (fact m) * Q m x y).
      set (b := fun n => lam ^ n * cellsum T u (map fst r) (fun cs => weight dim gen f n y (seq_obs r cs)) n) in *.
      assert (EE : forall n, lam ^ n * cellsum T lo (map fst ((u, y) :: r)) (fun cs => weight dim gen f n x (seq_obs ((u, y) :: r) cs)) n = sum_f_R0 (fun k => a k * b (n - k)%nat) n).
      { intros n. cbn [map fst cellsum]. rewrite sum_rsum, <- rsum_scal_l. apply rsum_ext. intros m Hm. unfold a, b.
        rewrite (cellsum_ext T (map fst r) u _ (fun cs => Q m x y * weight dim gen f (n - m) y (seq_obs r cs)) (n - m)).
        2:{ intros cs _ _. unfold seq_obs. cbn [map snd combine weight]. assert (E : Nat.leb m n = true) by (apply Nat.leb_le; lia). rewrite E. reflexivity. }
        rewrite cellsum_scal.
        replace (rb * (u - lo)) with (lam * ((u - lo) / T)) by (field; lra). rewrite (Rpow_mult_distr lam ((u - lo) / T) m).
        replace (lam ^ n) with (lam ^ m * lam ^ (n - m)) by (rewrite <- pow_add; f_equal; lia). unfold Rdiv. ring. }
      assert (A0 : forall n, 0 <= a n).
      { intros n. unfold a. apply Rmult_le_pos; [|apply (mpow_bounds dim P (dtrans_stochastic dim gen Hgen Hrb)); assumption].
        apply Rmult_le_pos; [apply pow_le; apply Rmult_le_pos; lra|]. left. apply Rinv_0_lt_compat, INR_fact_lt_0. }
      split.
      + apply (is_series_ext (fun n => sum_f_R0 (fun k => a k * b (n - k)%nat) n)); [intros n; symmetry; apply EE|].
        assert (EV : exp (rb * (T - lo)) * markov Pt lo x (((u, y) :: r) ++ [(T, f)]) = (Pt (u - lo) x y * exp (rb * (u - lo))) * (exp (rb * (T - u)) * markov Pt u y (r ++ [(T, f)]))).
        { cbn [app markov]. replace (rb * (T - lo)) with (rb * (u - lo) + rb * (T - u)) by ring. rewrite exp_plus. ring. }
        rewrite EV. apply is_series_mult_pos; [apply unif_at; assumption|exact I1|exact A0|exact I2].
      + intros n. rewrite EE, sum_rsum. apply rsum_nonneg. intros k _. apply Rmult_le_pos; [apply A0|apply I2].
  Qed.

  Lemma bridge_limit : forall i f obs, (i < dim)%nat -> (f < dim)%nat -> 0 < C i f -> in_order 0 obs T -> in_range dim obs ->
    Un_cv (fun fuel => rsum fuel (term i f obs) / mass L dim gen T i f) (markov Pt 0 i (obs ++ [(T, f)]) / C i f).
  Proof.
    intros i f obs Hi Hf HC HO HR. destruct (term_series f Hf obs 0 i Hi HR HO) as [HS _].
    pose proof (mass_pos L dim gen T i f HC) as MP.
    apply is_series_Reals in HS.
    assert (HU : Un_cv (fun n => sum_f_R0 (term i f obs) n / mass L dim gen T i f) (markov Pt 0 i (obs ++ [(T, f)]) / C i f)).
    { replace (markov Pt 0 i (obs ++ [(T, f)]) / C i f) with (exp (rb * (T - 0)) * markov Pt 0 i (obs ++ [(T, f)]) * / mass L dim gen T i f).
      - apply (CV_mult _ (fun _ => / mass L dim gen T i f)); [exact HS|]. intros eps He. exists 0%nat. intros n _. unfold R_dist. rewrite Rminus_diag_eq by reflexivity. rewrite Rabs_R0. exact He.
      - unfold mass. rewrite Rminus_0_r. field. split; [lra|apply Rgt_not_eq, exp_pos]. }
    intros eps He. destruct (HU eps He) as [N HN]. exists (S N). intros n Hn. destruct n as [|n]; [lia|]. rewrite <- sum_rsum. apply HN. lia.
  Qed.

  Lemma bridge_fdd : forall i f obs, (i < dim)%nat -> (f < dim)%nat -> 0 < C i f -> in_order 0 obs T -> in_range dim obs ->
    exists p, (forall fuel, chance (sample_bridge L fuel T i f dim gen) (visits obs) (p fuel)) /\ Un_cv p (markov Pt 0 i (obs ++ [(T, f)]) / C i f).
  Proof.
    intros i f obs Hi Hf HC HO HR. exists (fun fuel => rsum fuel (term i f obs) / mass L dim gen T i f).
    split; [intros fuel; apply bridge_law; assumption|apply bridge_limit; assumption].
  Qed.

  Lemma cv_rsum : forall n (g : nat -> nat -> R) (l : nat -> R), (forall k, (k < n)%nat -> Un_cv (g k) (l k)) -> Un_cv (fun m => rsum n (fun k => g k m)) (rsum n l).
  Proof.
    induction n as [|n IH]; intros g l H; cbn [rsum].
    - intros eps He. exists 0%nat. intros m _. unfold R_dist. rewrite Rminus_diag_eq by reflexivity. rewrite Rabs_R0. exact He.
    - apply (CV_plus (fun m => rsum n (fun k => g k m)) (g n)); [apply IH; intros; apply H; lia|apply H; lia].
  Qed.
  Lemma cv_const : forall c, Un_cv (fun _ => c) c.
  Proof. intros c eps He. exists 0%nat. intros m _. unfold R_dist. rewrite Rminus_diag_eq by reflexivity. rewrite Rabs_R0. exact He. Qed.

  (** backwards: the initial state is weighted by the transition probability to the end *)
  Lemma backwards_fdd : forall f obs, (exists a, (a < dim)%nat /\ gen a a < 0) -> (f < dim)%nat -> in_order 0 obs T -> in_range dim obs ->
    exists p, (forall fuel, chance (sample_backwards L fuel T f dim gen) (visits obs) (p fuel)) /\
      Un_cv p (rsum dim (fun i => markov Pt 0 i (obs ++ [(T, f)])) / rsum dim (fun j => C j f)).
  Proof.
    intros f obs Hneg Hf HO HR.
    pose proof (backwards_choice L dim gen T Hgen Hneg HT HL f Hf) as BC. cbv zeta in BC. destruct BC as [BC1 BC2].
    set (S0 := rsum dim (fun j => C j f)) in *. set (bt := map (fun i => C i f / S0) (seq 0 dim)) in *.
    assert (Lb : length bt = dim) by (unfold bt; rewrite map_length, seq_length; reflexivity).
    assert (Nb : forall i, (i < dim)%nat -> nth i bt 0 = C i f / S0).
    { intros i Hi. unfold bt. rewrite (nth_indep _ 0 (C 0%nat f / S0)) by (rewrite map_length, seq_length; exact Hi).
      rewrite (map_nth (fun i => C i f / S0)), seq_nth by exact Hi. reflexivity. }
    exists (fun fuel => rsum dim (fun i => nth i bt 0 * (rsum fuel (term i f obs) / mass L dim gen T i f))). split.
    - intros fuel. unfold sample_backwards. fold S0 bt.
      pose proof (average_choice _ bt (fun i => sample_bridge L fuel T i f dim gen) (fun s => ind (visits obs s)) (fun i => rsum fuel (term i f obs) / mass L dim gen T i f) BC1) as AC.
      rewrite Lb in AC. apply AC. intros x Hx Hp. apply bridge_law; try assumption. apply BC2; assumption.
    - assert (SP : 0 < S0).
      { unfold S0. apply (rsum_pos dim (fun j => C j f) f); [intros j Hj; apply (trans_nonneg L dim gen T); assumption|exact Hf|]. apply (trans_pos_diag L dim gen T); assumption. }
      replace (rsum dim (fun i => markov Pt 0 i (obs ++ [(T, f)])) / S0) with (rsum dim (fun i => markov Pt 0 i (obs ++ [(T, f)]) / S0)) by apply rsum_div.
      apply (cv_rsum dim (fun i fuel => nth i bt 0 * (rsum fuel (term i f obs) / mass L dim gen T i f))). intros i Hi. rewrite Nb by exact Hi.
      assert (C0 : 0 <= C i f) by (apply (trans_nonneg L dim gen T); assumption).
      destruct C0 as [C0|C0].
      + replace (markov Pt 0 i (obs ++ [(T, f)]) / S0) with (C i f / S0 * (markov Pt 0 i (obs ++ [(T, f)]) / C i f)) by (field; lra).
        apply CV_mult; [apply cv_const|apply bridge_limit; assumption].
      + assert (Z : markov Pt 0 i (obs ++ [(T, f)]) = 0).
        { destruct (term_series f Hf obs 0 i Hi HR HO) as [HS HP0].
          assert (Z0 : forall n, Q n i f = 0).
          { intros n. pose proof (psum_le L dim gen T Hgen Hrb HT HL i f n Hi Hf) as B. rewrite <- C0, Rmult_0_l in B.
            pose proof (psum_nonneg dim gen T Hgen Hrb HT i f) as PN.
            assert (U0 : uterm dim P lam i f n = 0).
            { pose proof (uterm_nonneg dim gen T Hgen Hrb HT i f n Hi Hf) as U1.
              assert (U2 : uterm dim P lam i f n <= psum dim gen T i f n).
              { unfold psum. apply (rsum_term (S n) (uterm dim P lam i f) n); [intros j _; apply (uterm_nonneg dim gen T); assumption|lia]. }
              lra. }
            unfold uterm in U0. apply Rmult_integral in U0 as [U0|U0]; [|exact U0]. exfalso.
            assert (0 < lam ^ n / INR (fact n)); [|lra]. apply Rmult_lt_0_compat; [apply pow_lt, Rmult_lt_0_compat; assumption|apply Rinv_0_lt_compat, INR_fact_lt_0]. }
          assert (HS0 : is_series (fun n => lam ^ n * cellsum T 0 (map fst obs) (fun cs => weight dim gen f n i (seq_obs obs cs)) n) 0).
          { apply (is_series_ext (fun _ => 0)).
            - intros n. pose proof (given_zero i f obs n Hi Hf HR (Z0 n)) as G0. unfold given in G0. apply Rmult_integral in G0 as [G0|G0]; [exfalso; exact (INR_fact_neq_0 n G0)|]. rewrite G0. symmetry. apply Rmult_0_r.
            - apply is_series_Reals. intros eps He. exists 0%nat. intros m _. rewrite sum_eq_R0 by reflexivity. unfold R_dist. rewrite Rminus_diag_eq by reflexivity. rewrite Rabs_R0. exact He. }
          pose proof (is_series_unique _ _ HS) as E1. pose proof (is_series_unique _ _ HS0) as E2. rewrite E1 in E2.
          apply Rmult_integral in E2 as [E2|E2]; [|exact E2]. exfalso. pose proof (exp_pos (rb * (T - 0))). lra. }
        rewrite Z. replace (0 / S0) with 0 by (unfold Rdiv; ring). rewrite <- C0.
        refine (Un_cv_ext (fun _ => 0) _ _ _ (cv_const 0)). intros n. unfold Rdiv. ring.
  Qed.
End Law.
