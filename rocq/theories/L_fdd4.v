(** The finite-dimensional laws of bridges. *)
From Coquelicot Require Import Hierarchy RInt RInt_analysis Series.
From Coq Require Import Reals List Bool Arith Lia Lra Sorted Permutation.
From Verif Require Import Base Np Rng L_rng M_mjp SpecMjp SpecLin SpecLaw SpecFdd L_list L_path L_law L_law2 L_law4 L_law5 L_bridge L_unif L_bridge2 L_bridge3 L_fdd1 L_fdd2 L_fdd3 L_lindemo L_mat Mat.
Import ListNotations.
Local Open Scope R_scope.

Lemma average_lift : forall A (r : res A) f, average (lift r) f (value f r).
Proof. intros A r f. apply (mean_done (value f) (lift r) r). intros; reflexivity. Qed.

Section Number.
  Variables (L : linalg) (dim : nat) (gen : mat) (T : R).
  Hypothesis Hgen : generator dim gen.
  Hypothesis Hrb : 0 < rate_bound dim gen.
  Hypothesis HT : 0 < T.
  Hypothesis HL : expm_exact L.
  Variables (i f : nat).
  Hypothesis Hi : (i < dim)%nat.
  Hypothesis Hf : (f < dim)%nat.
  Hypothesis HC : 0 < get_trans L dim T gen i f.
  Notation P := (dtrans dim gen).
  Notation Q := (mpow dim (dtrans dim gen)).
  Notation lam := (rate_bound dim gen * T).
  Notation C := (get_trans L dim T gen).
  Notation ps := (psum dim gen T i f).
  Definition mass : R := C i f * exp lam.
  Lemma mass_pos : 0 < mass.
  Proof. apply Rmult_lt_0_compat; [exact HC|apply exp_pos]. Qed.
  Definition low (n : nat) : R := match n with O => 0 | S m => ps m / mass end.
  Lemma low_step : forall n, low (S n) - low n = uterm dim P lam i f n / mass.
  Proof.
    intros [|n]; unfold low.
    - unfold psum. cbn [rsum]. unfold Rdiv. ring.
    - change (ps (S n)) with (ps n + uterm dim P lam i f (S n)). unfold Rdiv. ring.
  Qed.
  Lemma low_range : forall n, 0 <= low n <= 1.
  Proof.
    pose proof mass_pos as MP.
    intros [|n]; unfold low; [lra|]. split.
    - apply Rmult_le_pos; [apply psum_nonneg; assumption|]. left. apply Rinv_0_lt_compat. exact MP.
    - apply Rdiv_le_1; [exact MP|]. apply (psum_le L dim gen T); assumption.
  Qed.
  Lemma low_mono : forall n, low n <= low (S n).
  Proof.
    intros n. assert (E : 0 <= low (S n) - low n); [|lra]. rewrite low_step. apply Rmult_le_pos; [apply uterm_nonneg; assumption|].
    left. apply Rinv_0_lt_compat, mass_pos.
  Qed.

  Lemma loop_integral : forall (H : nat -> R) fuel n,
    is_RInt (fun v => value (fun r => H (fst r)) (n_trans_loop fuel dim P lam i f (eln (target L dim gen T v i f)) n (eln (ps n)) (rev (powers dim gen n))))
      (low n) 1 (rsum fuel (fun k => (low (S (n + k)) - low (n + k)) * H (n + k)%nat)).
  Proof.
    intros H. pose proof mass_pos as MP. induction fuel as [|fuel IH]; intros n.
    - cbn [n_trans_loop value rsum]. apply rint_const. ring.
    - rewrite rsum_shift. rewrite Nat.add_0_r.
      pose proof (low_range n) as R1. pose proof (low_range (S n)) as R2. pose proof (low_mono n) as R3.
      apply (rint_split _ (low n) (low (S n)) 1 ((low (S n) - low n) * H n) (rsum fuel (fun k => (low (S (S n + k)) - low (S n + k)) * H (S n + k)%nat))).
      + f_equal. apply rsum_ext. intros k _. rewrite Nat.add_succ_r. reflexivity.
      + apply (is_RInt_ext (fun _ => H n)).
        * intros v Hv. rewrite Rmin_left, Rmax_right in Hv by lra. cbn [n_trans_loop].
          rewrite eltb_eln by (apply psum_nonneg || apply target_nonneg; assumption || lra).
          assert (E : Rltb (ps n) (target L dim gen T v i f) = false).
          { apply Rltb_false. unfold target. rewrite Rmult_assoc. fold mass. unfold low in Hv at 2. 
            destruct Hv as [_ Hv]. apply (Rmult_lt_compat_r mass) in Hv; [|exact MP]. unfold Rdiv in Hv. rewrite Rmult_assoc, Rinv_l in Hv by lra. lra. }
          rewrite E. reflexivity.
        * apply rint_const. reflexivity.
      + refine (is_RInt_ext _ _ _ _ _ _ (IH (S n))). intros v Hv. rewrite Rmin_left, Rmax_right in Hv by lra. cbn [n_trans_loop].
        rewrite (eltb_eln (ps n)) by (apply psum_nonneg || apply target_nonneg; assumption || lra).
        assert (E : Rltb (ps n) (target L dim gen T v i f) = true).
        { apply Rltb_true. unfold target. rewrite Rmult_assoc. fold mass. unfold low in Hv.
          destruct Hv as [Hv _]. apply (Rmult_lt_compat_r mass) in Hv; [|exact MP]. unfold Rdiv in Hv. rewrite Rmult_assoc, Rinv_l in Hv by lra. lra. }
        rewrite E. rewrite powers_hd_rev. change (mmul dim (Q n) P) with (Q (S n)).
        replace (Q (S n) :: rev (powers dim gen n)) with (rev (powers dim gen (S n))) by (rewrite powers_S, rev_app_distr; reflexivity).
        match goal with |- context [n_trans_loop _ _ _ _ _ _ _ _ (if Reqb ?a 0 then ?b else ?c) _] => assert (EP : (if Reqb a 0 then b else c) = eln (ps (S n))) end.
        { change (ps (S n)) with (ps n + uterm dim P lam i f (S n)). unfold uterm.
          destruct (Reqb_dec (Q (S n) i f) 0) as [[Z ->]|[Z ->]].
          - rewrite Z, Rmult_0_r, Rplus_0_r. reflexivity.
          - destruct (mpow_bounds dim P (dtrans_stochastic dim gen Hgen Hrb) (S n) i f Hi Hf) as [B0 _].
            rewrite trans_term_eln; [|apply Rmult_lt_0_compat; assumption|lra]. apply elogaddexp_eln; [apply psum_nonneg; assumption|].
            apply (uterm_nonneg dim gen T Hgen Hrb HT i f (S n) Hi Hf). }
        rewrite EP. reflexivity.
  Qed.

  Lemma number_law : forall (H : nat -> R) fuel,
    average (sample_n_trans fuel dim P (rate_bound dim gen) T C i f) (fun r => H (fst r))
      (rsum fuel (fun n => uterm dim P lam i f n / mass * H n)).
  Proof.
    intros H fuel.
    refine (average_eq _ _ _ _ _ _ (average_comp _ (bind (draw_r (DUniform 0 1)) (fun v => lift (n_trans_loop fuel dim P lam i f (eln (target L dim gen T v i f)) 0 (eln (ps 0)) (rev (powers dim gen 0))))) _ _ _ _ (average_r _ (DUniform 0 1) _ _ (fun v => value (fun r => H (fst r)) (n_trans_loop fuel dim P lam i f (eln (target L dim gen T v i f)) 0 (eln (ps 0)) (rev (powers dim gen 0)))) (rsum fuel (fun n => uterm dim P lam i f n / mass * H n)) _ _))).
    - reflexivity.
    - intros o k V. rewrite (sample_n_trans_unfold L dim gen T) by assumption. reflexivity.
    - split; [lra|]. refine (eq_ind _ (fun w => is_RInt _ 0 1 w) (loop_integral H fuel 0) _ _).
      rewrite Rminus_0_r, Rmult_1_l. apply rsum_ext. intros n _. cbn [Nat.add]. rewrite low_step. reflexivity.
    - intros v _. apply average_lift.
  Qed.
End Number.
