(** Forward simulation started from the stationary law. *)
From Coquelicot Require Import Rcomplements Hierarchy Rbar Lim_seq Continuity Derive RInt Series PSeries.
From Coq Require Import Reals List Bool Arith Lia Lra.
From Verif Require Import Base Np Rng L_rng M_mjp SpecMjp SpecLin SpecLaw SpecFdd L_law L_law2 L_law4 L_law5 L_bridge L_stat L_fdd1 L_fdd2 L_fdd3 L_fdd5 L_fwd1 L_fwd2 L_fwd3 L_fwd4 L_mat Mat.
Import ListNotations.
Local Open Scope R_scope.

Lemma vec_nth : forall dim (p : vec) i, (i < dim)%nat -> nth i (vec_list dim p) 0 = p i.
Proof.
  intros dim p i Hi. unfold vec_list. rewrite (nth_indep _ 0 (p 0%nat)) by (rewrite map_length, seq_length; exact Hi). rewrite map_nth, seq_nth by exact Hi. reflexivity.
Qed.
Lemma vec_prob : forall dim (p : vec), rsum dim p = 1 -> (forall i, (i < dim)%nat -> 0 < p i) -> is_prob_vector (vec_list dim p) = true.
Proof.
  intros dim p H1 H2. unfold is_prob_vector. apply andb_true_iff; split.
  - apply forallb_forall. intros v Hv. unfold vec_list in Hv. apply in_map_iff in Hv as (i & <- & Hi).
    apply in_seq in Hi. apply Rleb_true. specialize (H2 i ltac:(lia)). lra.
  - apply Reqb_true. unfold vec_list. rewrite rsum_list. exact H1.
Qed.

Section Stationary.
  Variables (L : linalg) (dim : nat) (gen : mat).
  Hypothesis Hgen : generator dim gen.
  Hypothesis HL : expm_exact L.

  (** a stationary vector is left fixed by the transition probabilities *)
  Lemma stationary_trans : forall p, stationary dim gen p -> forall t y, (y < dim)%nat ->
    rsum dim (fun x => p x * get_trans L dim t gen x y) = p y.
  Proof.
    intros p HS t y Hy.
    assert (HP : forall n y, (y < dim)%nat -> rsum dim (fun x => p x * mpow dim gen (S n) x y) = 0).
    { intros n z Hz.
      rewrite (rsum_ext dim _ (fun x => rsum dim (fun k => p x * gen x k * mpow dim gen n k z))).
      - rewrite rsum_swap. apply rsum_0.
        intros k Hk. cbv beta. rewrite (rsum_ext dim _ (fun x => mpow dim gen n k z * (p x * gen x k))) by (intros; ring). rewrite rsum_scal_l, (HS k Hk). ring.
      - intros x Hx. rewrite <- (mpow_comm dim gen n x z Hx Hz). unfold mmul. rewrite <- rsum_scal_l. apply rsum_ext. intros; ring. }
    assert (HA : is_series (fun n => rsum dim (fun x => p x * (coef dim gen x y n * t ^ n))) (rsum dim (fun x => p x * get_trans L dim t gen x y))).
    { apply (is_series_rsum dim (fun x n => p x * (coef dim gen x y n * t ^ n)) (fun x => p x * get_trans L dim t gen x y)).
      intros x Hx. apply (is_series_scal_l (V := R_NormedModule) (p x)). apply series_trans; assumption. }
    assert (HB : is_series (fun n => rsum dim (fun x => p x * (coef dim gen x y n * t ^ n))) (p y)).
    { apply (is_series_ext (fun n => match n with O => p y | _ => 0 end)).
      - intros [|n]; symmetry.
        + rewrite (rsum_ext dim _ (fun x => if Nat.eqb y x then p x else 0)).
          * apply (rsum_delta dim p y Hy).
          * intros x Hx. unfold coef. rewrite (proj2 (Nat.ltb_lt x dim) Hx), (proj2 (Nat.ltb_lt y dim) Hy). cbn [andb mpow fact pow INR]. unfold mident.
            rewrite (Nat.eqb_sym x y). destruct (Nat.eqb y x); req; field.
        + rewrite (rsum_ext dim _ (fun x => t ^ S n / INR (fact (S n)) * (p x * mpow dim gen (S n) x y))).
          * rewrite rsum_scal_l, (HP n y Hy). req. ring.
          * intros x Hx. unfold coef. rewrite (proj2 (Nat.ltb_lt x dim) Hx), (proj2 (Nat.ltb_lt y dim) Hy). cbn [andb]. unfold Rdiv. req. ring.
      - apply is_series_Reals. intros eps He. exists 0%nat. intros n _.
        assert (E : sum_f_R0 (fun n => match n with O => p y | _ => 0 end) n = p y).
        { induction n as [|n IH]; [reflexivity|]. cbn [sum_f_R0]. rewrite IH. ring. }
        unfold R_dist. match goal with |- Rabs (?a - _) < _ => change a with (sum_f_R0 (fun n => match n with O => p y | _ => 0 end) n) end. rewrite E. rewrite Rminus_eq_0, Rabs_R0. exact He. }
    rewrite <- (is_series_unique _ _ HA). exact (is_series_unique _ _ HB).
  Qed.

  Variable T : R.
  Hypothesis HT : 0 < T.
  Lemma forwards_stat_fdd : forall obs, (2 <= dim)%nat -> pos_off dim gen -> solve_ok L dim (stat_matrix gen) stat_rhs ->
    in_order 0 obs T -> Forall (fun p => (snd p < dim)%nat) obs ->
    exists p, rsum dim p = 1 /\ (forall i, (i < dim)%nat -> 0 < p i) /\ stationary dim gen p /\
    exists c, (forall fuel, chance (sample_forwards L fuel T None dim gen) (visits obs) (c fuel)) /\
      Un_cv c (rsum dim (fun x => p x * markov (fun t => get_trans L dim t gen) 0 x obs)).
  Proof.
    intros obs Hd HO HS HI HR.
    destruct (get_stat_prob dim gen ltac:(lia) (proj2 Hgen) HO L HS) as (p & E & P1 & P2 & P3).
    exists p. split; [exact P1|]. split; [exact P2|]. split; [exact P3|].
    exists (fun fuel => rsum dim (fun x => p x * V dim gen T fuel obs 0 x)). split.
    - intros fuel. unfold chance.
      apply (average_comp _ (bind (choice (vec_list dim p)) (fun x0 => forwards_loop fuel T dim gen [] [] (Fin 0) x0))).
      { intros o n. unfold sample_forwards. rewrite E. reflexivity. }
      pose proof (average_choice _ (vec_list dim p) (fun x0 => forwards_loop fuel T dim gen [] [] (Fin 0) x0) (fun s => ind (visits obs s)) (fun x => V dim gen T fuel obs 0 x) (vec_prob dim p P1 P2)) as AC.
      assert (Ln : length (vec_list dim p) = dim) by (unfold vec_list; rewrite map_length, seq_length; reflexivity).
      rewrite Ln in AC. refine (average_eq _ _ _ _ _ _ (AC _)).
      + apply rsum_ext. intros i Hi. rewrite (vec_nth dim p i Hi). reflexivity.
      + intros x Hx _. apply loop_law; assumption.
    - apply (cv_rsum dim (fun x fuel => p x * V dim gen T fuel obs 0 x)). intros x Hx.
      apply CV_mult; [apply cv_const|].
      intros eps He. destruct (converges L dim gen T Hgen HT HL ltac:(lia) obs HR (eps / 2) ltac:(lra)) as [N HN]. exists N. intros n Hn.
      specialize (HN n Hn 0 x Hx (Rle_refl 0) HI). unfold R_dist. rewrite <- (mm_markov L dim gen HL) by assumption.
      rewrite Rabs_minus_sym. unfold err in HN. rewrite Rmult_1_l in HN. lra.
  Qed.
End Stationary.
