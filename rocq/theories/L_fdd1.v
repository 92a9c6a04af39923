(** Numbers of uniform points between given thresholds. *)
From Coquelicot Require Import Hierarchy RInt RInt_analysis Continuity.
From Coq Require Import Reals List Bool Arith Lia Lra.
From Verif Require Import Base Np Rng L_rng SpecLaw L_law L_law2 L_law4 L_law5 L_bridge L_mat Mat.
Import ListNotations.
Local Open Scope R_scope.

(** points at or below each threshold and above the previous ones *)
Fixpoint cells (thr : list R) (us : list R) : list nat :=
  match thr with
  | [] => []
  | u :: r => length (filter (fun x => Rleb x u) us) :: cells r (filter (fun x => negb (Rleb x u)) us)
  end.
Definition bump_head (Phi : list nat -> R) (cs : list nat) : R := match cs with [] => Phi [] | c :: r => Phi (S c :: r) end.
Fixpoint bump (x : R) (thr : list R) (Phi : list nat -> R) (cs : list nat) : R :=
  match thr with
  | [] => Phi cs
  | u :: r => if Rleb x u then bump_head Phi cs else match cs with [] => Phi [] | c :: cs' => bump x r (fun l => Phi (c :: l)) cs' end
  end.
Lemma cells_cons : forall x us thr Phi, Phi (cells thr (x :: us)) = bump x thr Phi (cells thr us).
Proof.
  intros x us thr. revert x us. induction thr as [|u r IH]; intros x us Phi; cbn [cells bump]; [reflexivity|].
  cbn [filter]. destruct (Rleb x u); cbn [negb]; [reflexivity|].
  exact (IH x _ (fun l => Phi (length (filter (fun x => Rleb x u) us) :: l))).
Qed.

Lemma sum_rsum : forall f n, sum_f_R0 f n = rsum (S n) f.
Proof. intros f n. induction n as [|n IH]; cbn [sum_f_R0]; [cbn; ring|]. rewrite IH. reflexivity. Qed.
Section Cells.
  Variable T : R.
  Hypothesis HT : 0 < T.

  (** n! times this is the mean of Phi over the numbers of n uniform points in (lo, T) *)
  Fixpoint cellsum (lo : R) (thr : list R) (Phi : list nat -> R) (n : nat) : R :=
    match thr with
    | [] => ((T - lo) / T) ^ n / INR (fact n) * Phi []
    | u :: r => rsum (S n) (fun m => ((u - lo) / T) ^ m / INR (fact m) * cellsum u r (fun cs => Phi (m :: cs)) (n - m))
    end.
  Lemma cellsum_ext : forall thr lo Phi Psi n, (forall cs, (fold_right Nat.add 0 cs <= n)%nat -> length cs = length thr -> Phi cs = Psi cs) ->
    cellsum lo thr Phi n = cellsum lo thr Psi n.
  Proof.
    induction thr as [|u r IH]; intros lo Phi Psi n H; cbn [cellsum].
    - rewrite H; [reflexivity|cbn; lia|reflexivity].
    - apply rsum_ext. intros m Hm. f_equal. apply IH. intros cs Hcs Hl. apply H; cbn; lia.
  Qed.
  Lemma cellsum_scal : forall thr lo Phi n c, cellsum lo thr (fun cs => c * Phi cs) n = c * cellsum lo thr Phi n.
  Proof.
    induction thr as [|u r IH]; intros lo Phi n c; cbn [cellsum]; [ring|].
    rewrite <- rsum_scal_l. apply rsum_ext. intros m Hm. rewrite IH. ring.
  Qed.
  Lemma fact_nz : forall n, INR (fact n) <> 0.
  Proof. intros n. apply INR_fact_neq_0. Qed.
  Lemma cellsum_0 : forall thr lo Phi, cellsum lo thr Phi 0 = Phi (repeat 0%nat (length thr)).
  Proof.
    induction thr as [|u r IH]; intros lo Phi; cbn [cellsum length repeat].
    - cbn. field.
    - cbn [rsum]. cbn [Nat.sub]. rewrite IH. cbn. field.
  Qed.
  Lemma cellsum_const : forall thr lo c n, cellsum lo thr (fun _ => c) n = ((T - lo) / T) ^ n / INR (fact n) * c.
  Proof.
    induction thr as [|u r IH]; intros lo c n; cbn [cellsum]; [reflexivity|].
    rewrite (rsum_ext _ _ (fun m => / INR (fact n) * c * (INR (fact n) / (INR (fact m) * INR (fact (n - m))) * ((u - lo) / T) ^ m * ((T - u) / T) ^ (n - m)))).
    2:{ intros m Hm. rewrite IH. field. repeat split; apply fact_nz. }
    rewrite rsum_scal_l.
    assert (B : rsum (S n) (fun m => INR (fact n) / (INR (fact m) * INR (fact (n - m))) * ((u - lo) / T) ^ m * ((T - u) / T) ^ (n - m)) = ((T - lo) / T) ^ n).
    { replace ((T - lo) / T) with ((u - lo) / T + (T - u) / T) by (field; lra). rewrite binomial. unfold Binomial.C.
      symmetry. apply sum_rsum. }
    rewrite B. field. apply fact_nz.
  Qed.

  Fixpoint climbs (lo : R) (thr : list R) : Prop := match thr with [] => lo <= T | u :: r => lo <= u /\ climbs u r end.
  Lemma climbs_le : forall thr lo, climbs lo thr -> lo <= T.
  Proof. induction thr as [|u r IH]; intros lo H; cbn in H; [exact H|]. destruct H as [H1 H2]. apply IH in H2. lra. Qed.

  Lemma rint_sum : forall n (f : nat -> R -> R) (v : nat -> R) a b, (forall m, (m < n)%nat -> is_RInt (f m) a b (v m)) ->
    is_RInt (fun x => rsum n (fun m => f m x)) a b (rsum n v).
  Proof.
    induction n as [|n IH]; intros f v a b H; cbn [rsum].
    - pose proof (is_RInt_const (V := R_NormedModule) a b (0 : R)) as C.
      match type of C with is_RInt _ _ _ ?w => replace w with (0 : R) in C; [exact C|unfold scal; cbn; unfold mult; cbn; ring] end.
    - exact (is_RInt_plus (V := R_NormedModule) _ _ _ _ _ _ (IH f v a b (fun m Hm => H m (Nat.lt_lt_succ_r _ _ Hm))) (H n (Nat.lt_succ_diag_r n))).
  Qed.
  Lemma rint_const : forall (c a b v : R), v = (b - a) * c -> is_RInt (fun _ => c) a b v.
  Proof.
    intros c a b v ->. exact (is_RInt_const (V := R_NormedModule) a b c).
  Qed.
  Lemma rint_scal : forall (c : R) f a b (v w : R), w = c * v -> is_RInt f a b v -> is_RInt (fun x => c * f x) a b w.
  Proof. intros c f a b v w -> H. exact (is_RInt_scal (V := R_NormedModule) f a b c v H). Qed.

  Lemma cell_step : forall thr lo Phi n, climbs lo thr ->
    is_RInt (fun x => cellsum lo thr (bump x thr Phi) n) lo T (T * INR (S n) * cellsum lo thr Phi (S n)).
  Proof.
    induction thr as [|u r IH]; intros lo Phi n H.
    - cbn [cellsum bump]. apply rint_const. rewrite fact_simpl, mult_INR, S_INR. cbn [pow]. field. repeat split; try apply fact_nz; try lra. rewrite <- S_INR. apply not_0_INR. lia.
    - cbn in H. destruct H as [H1 H2]. pose proof (climbs_le _ _ H2) as H3.
      set (a := fun m => ((u - lo) / T) ^ m / INR (fact m)).
      set (beta := fun m => cellsum u r (fun cs => Phi (m :: cs)) (S n - m)).
      assert (Ea : forall m, (u - lo) * a m = T * (INR (S m) * a (S m))).
      { intros m. unfold a. rewrite fact_simpl, mult_INR. cbn [pow]. field. repeat split; try apply fact_nz; try lra; apply not_0_INR; lia. }
      apply (rint_split _ lo u T ((u - lo) * rsum (S n) (fun m => a m * beta (S m))) (rsum (S n) (fun m => a m * (T * INR (S (n - m)) * beta m)))).
      + rewrite <- rsum_scal_l.
        rewrite (rsum_ext (S n) (fun i => (u - lo) * (a i * beta (S i))) (fun i => T * (INR (S i) * a (S i) * beta (S i)))).
        2:{ intros m _. rewrite <- Rmult_assoc, Ea. ring. }
        rewrite rsum_scal_l.
        assert (E1 : rsum (S n) (fun i => INR (S i) * a (S i) * beta (S i)) = rsum (S (S n)) (fun i => INR i * a i * beta i)).
        { rewrite (rsum_shift (S n)). cbn [INR]. ring. }
        rewrite E1.
        rewrite (rsum_ext (S n) (fun m => a m * (T * INR (S (n - m)) * beta m)) (fun m => T * (INR (S n - m) * a m * beta m))).
        2:{ intros m Hm. replace (S (n - m)) with (S n - m)%nat by lia. ring. }
        rewrite rsum_scal_l.
        assert (E2 : rsum (S n) (fun m => INR (S n - m) * a m * beta m) = rsum (S (S n)) (fun m => INR (S n - m) * a m * beta m)).
        { cbn [rsum]. rewrite Nat.sub_diag. cbn [INR]. ring. }
        rewrite E2, <- Rmult_plus_distr_l, <- rsum_plus.
        rewrite (rsum_ext _ _ (fun i => INR (S n) * (a i * beta i))).
        2:{ intros i Hi. rewrite (minus_INR (S n) i) by lia. ring. }
        rewrite rsum_scal_l. unfold beta, a. cbn [cellsum]. ring.
      + apply (is_RInt_ext (fun _ => rsum (S n) (fun m => a m * beta (S m)))).
        * intros x Hx. rewrite Rmin_left, Rmax_right in Hx by lra. cbn [cellsum bump]. assert (E : Rleb x u = true) by (apply Rleb_true; lra). rewrite E. reflexivity.
        * apply rint_const. ring.
      + apply (is_RInt_ext (fun x => rsum (S n) (fun m => a m * cellsum u r (bump x r (fun cs => Phi (m :: cs))) (n - m)))).
        * intros x Hx. rewrite Rmin_left, Rmax_right in Hx by lra. cbn [cellsum bump]. assert (E : Rleb x u = false) by (apply Rleb_false; lra). rewrite E. reflexivity.
        * apply (rint_sum (S n) (fun m x => a m * cellsum u r (bump x r (fun cs => Phi (m :: cs))) (n - m)) (fun m => a m * (T * INR (S (n - m)) * beta m))).
          intros m Hm. apply (rint_scal _ _ _ _ (T * INR (S (n - m)) * cellsum u r (fun cs => Phi (m :: cs)) (S (n - m)))).
          -- unfold beta. replace (S n - m)%nat with (S (n - m)) by lia. reflexivity.
          -- apply IH. exact H2.
  Qed.

  Lemma cells_law : forall n thr Phi, climbs 0 thr ->
    average (draw_rs (repeat (DUniform 0 T) n)) (fun us => Phi (cells thr us)) (INR (fact n) * cellsum 0 thr Phi n).
  Proof.
    induction n as [|n IH]; intros thr Phi H; cbn [repeat draw_rs].
    - refine (average_eq _ _ _ _ _ _ (average_ret _ [] (fun us => Phi (cells thr us)))).
      rewrite cellsum_0. cbn [fact INR]. rewrite Rmult_1_l. f_equal.
      clear. induction thr as [|u r IH]; [reflexivity|]. cbn [cells filter length repeat]. f_equal. exact IH.
    - apply (average_r _ _ _ _ (fun x => INR (fact n) * cellsum 0 thr (bump x thr Phi) n)).
      + split; [exact HT|]. pose proof (cell_step thr 0 Phi n H) as C.
        apply (rint_scal _ _ _ _ (T * INR (S n) * cellsum 0 thr Phi (S n))); [|exact C].
        rewrite fact_simpl, mult_INR. ring.
      + intros x _. apply (average_bind0 _ _ _ _ _ _ _ (IH thr (bump x thr Phi) H)). intros us.
        refine (average_eq _ _ _ _ _ _ (average_ret _ (x :: us) (fun us => Phi (cells thr us)))). apply cells_cons.
  Qed.
End Cells.
