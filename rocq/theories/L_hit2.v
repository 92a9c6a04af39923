(** Alternating partial sums and the deciding loop. *)
From Coq Require Import Reals List Bool Arith Lia Lra Psatz.
From Verif Require Import Base Rng L_rng M_hit SpecHit.
Import ListNotations.
Local Open Scope R_scope.


Section Alt.
  Variables (c s : nat -> R) (N : nat).
  Hypothesis Hs : forall n, s (S n) = s n + (if Nat.even n then c n else - c n).
  Hypothesis Hdec : forall n, (N <= n)%nat -> 0 <= c (S n) <= c n.
  Hypothesis Hcv : Un_cv c 0.

  Let sg (n : nat) : R := if Nat.even n then 1 else -1.
  Lemma pow_sg n : (-1) ^ n = sg n.
  Proof.
    unfold sg. induction n; [reflexivity|]. change ((-1) ^ S n) with (-1 * (-1) ^ n). rewrite IHn.
    rewrite Nat.even_succ, <- Nat.negb_even. destruct (Nat.even n); simpl; lra.
  Qed.
  Lemma alt_shift k : s (N + S k)%nat = s N + sg N * sum_f_R0 (tg_alt (fun i => c (N + i)%nat)) k.
  Proof.
    assert (E : forall i, s (S (N + i)) = s (N + i)%nat + sg N * (tg_alt (fun i => c (N + i)%nat) i)).
    { intros i. rewrite Hs. f_equal. unfold tg_alt. rewrite pow_sg. unfold sg. rewrite Nat.even_add.
      destruct (Nat.even N), (Nat.even i); simpl; ring. }
    induction k as [|k IH].
    - rewrite Nat.add_succ_r, E, Nat.add_0_r. reflexivity.
    - rewrite Nat.add_succ_r, E, IH. simpl sum_f_R0. ring.
  Qed.
  Lemma alt_bracket : exists p, Un_cv s p /\ brackets s N p.
  Proof.
    set (d := fun i => c (N + i)%nat).
    assert (D1 : Un_decreasing d). { intros i. unfold d. rewrite Nat.add_succ_r. apply Hdec. lia. }
    assert (D2 : positivity_seq d).
    { intros i. unfold d. destruct (Hdec (N + i)%nat ltac:(lia)). lra. }
    assert (D3 : Un_cv d 0).
    { intros e E. destruct (Hcv e E) as (n & Hn). exists n. intros m Hm. apply Hn. lia. }
    destruct (CV_ALT d D1 D2 D3) as (l & L).
    assert (B : forall k, (Nat.even k = true -> l <= sum_f_R0 (tg_alt d) k) /\ (Nat.odd k = true -> sum_f_R0 (tg_alt d) k <= l)).
    { intros k. split; intros K.
      - apply Nat.even_spec in K as (m & ->). apply (alternated_series_ineq d l m D1 D3 L).
      - apply Nat.odd_spec in K as (m & ->). replace (2 * m + 1)%nat with (S (2 * m)) by lia. apply (alternated_series_ineq d l m D1 D3 L). }
    assert (L0 : 0 <= l).
    { destruct (B 1%nat) as [_ H]. specialize (H eq_refl). unfold tg_alt in H. simpl in H. pose proof (D1 0%nat). lra. }
    exists (s N + sg N * l). split.
    - intros e E. destruct (L e E) as (n & Hn). exists (N + S n)%nat. intros m Hm.
      replace m with (N + S (m - N - 1))%nat by lia. rewrite alt_shift. unfold R_dist.
      fold d. replace (_ - _) with (sg N * (sum_f_R0 (tg_alt d) (m - N - 1) - l)) by ring. rewrite Rabs_mult.
      replace (Rabs (sg N)) with 1 by (unfold sg; destruct (Nat.even N); [rewrite Rabs_R1|rewrite Rabs_left]; lra).
      rewrite Rmult_1_l. apply Hn. lia.
    - intros n Hn. destruct (Nat.eq_dec n N) as [->|].
      + unfold sg. rewrite <- Nat.negb_even. destruct (Nat.even N); simpl; split; intros; try discriminate; lra.
      + replace n with (N + S (n - N - 1))%nat by lia. rewrite alt_shift. fold d.
        set (k := (n - N - 1)%nat). destruct (B k) as [B1 B2].
        rewrite <- Nat.negb_even, Nat.even_add, Nat.even_succ. unfold sg.
        rewrite <- Nat.negb_even in B2. rewrite <- Nat.negb_even.
        destruct (Nat.even N), (Nat.even k); simpl in *; split; intros; try discriminate;
          repeat match goal with H : true = true -> _ |- _ => specialize (H eq_refl) end; lra.
  Qed.
End Alt.

Lemma cv_unique s p q : Un_cv s p -> Un_cv s q -> p = q.
Proof. apply UL_sequence. Qed.

(** c n <= C / n makes c vanish *)
Lemma cv_harmonic c C : 0 < C -> (forall n, 0 <= c n) -> (forall n, (2 <= n)%nat -> c n <= C / INR n) -> Un_cv c 0.
Proof.
  intros HC P B e E. destruct (archimed_cor1 (e / C)) as (n & Hn & Pn); [apply Rdiv_lt_0_compat; lra|].
  exists (n + 2)%nat. intros m Hm. unfold R_dist. rewrite Rminus_0_r, Rabs_right by (apply Rle_ge, P).
  eapply Rle_lt_trans; [apply B; lia|].
  assert (0 < INR n) by (apply lt_0_INR; lia). assert (INR n <= INR m) by (apply le_INR; lia).
  apply (Rmult_lt_reg_r (INR m)); [lra|]. unfold Rdiv at 1. rewrite Rmult_assoc, Rinv_l by lra. rewrite Rmult_1_r.
  apply (Rmult_lt_compat_r (C * INR n)) in Hn; [|nra].
  replace (/ INR n * (C * INR n)) with C in Hn by (field; lra).
  replace (e / C * (C * INR n)) with (e * INR n) in Hn by (field; lra). nra.
Qed.
Lemma exp_neg_le x : 0 < x -> exp (- x) <= / x.
Proof.
  intros X. rewrite exp_Ropp. apply Rinv_le_contravar; auto. pose proof (exp_ineq1 x ltac:(lra)). lra.
Qed.

(** ** The loop decides *)
Definition fbrackets (ser : nat -> fval) (N : nat) (p : R) : Prop :=
  forall n seed, (N <= n)%nat ->
    (Nat.even n = true -> flt (Some (Fin seed)) (ser n) = true -> seed < p) /\
    (Nat.odd n = true -> flt (ser n) (Some (Fin seed)) = true -> p < seed).
Lemma fbrackets_of s N p : brackets s N p -> fbrackets (fun i => Some (Fin (s i))) N p.
Proof.
  intros B n seed Hn. destruct (B n Hn) as [B1 B2]. simpl. split; intros E F; apply Rltb_true in F.
  - specialize (B1 E). lra.
  - specialize (B2 E). lra.
Qed.
Lemma esc_loop_sound ser N p seed : fbrackets ser N p -> forall fuel i r, (N <= i)%nat ->
  esc_loop ser fuel i seed = Ok r -> (r = true <-> seed < p).
Proof.
  intros B. induction fuel as [|f IH]; intros i r Hi E; [discriminate|]. simpl in E.
  destruct (orb _ _) eqn:O.
  - injection E as <-. apply orb_prop in O as [O|O]; apply andb_prop in O as [O1 O2].
    + rewrite O1. split; auto. intros _. eapply B; eauto.
    + rewrite <- Nat.negb_even in O1. destruct (Nat.even i) eqn:EV; [discriminate|].
      split; intros; [discriminate|]. assert (p < seed); [|lra].
      eapply B; eauto. now rewrite <- Nat.negb_even, EV.
  - eapply (IH (S i)); [lia|exact E].
Qed.
Lemma esc_loop_noraise ser fuel i seed e : esc_loop ser fuel i seed <> Raise e.
Proof. revert i. induction fuel; intros i; simpl; [discriminate|]. destruct (orb _ _); [discriminate|auto]. Qed.

Lemma esc_loop_fuel ser seed : forall k i fuel, (k < fuel)%nat ->
  (flt (Some (Fin seed)) (ser (i + k)%nat) = true /\ Nat.even (i + k) = true \/
   flt (ser (i + k)%nat) (Some (Fin seed)) = true /\ Nat.odd (i + k) = true) ->
  exists r, esc_loop ser fuel i seed = Ok r.
Proof.
  induction k as [|k IH]; intros i fuel F H; (destruct fuel as [|f]; [lia|]); cbn [esc_loop].
  - rewrite Nat.add_0_r in H. assert (E : orb (andb (Nat.even i) (flt (Some (Fin seed)) (ser i))) (andb (Nat.odd i) (flt (ser i) (Some (Fin seed)))) = true).
    { destruct H as [[-> ->]|[-> ->]]; auto. apply orb_true_r. }
    rewrite E. eauto.
  - destruct (orb _ _); eauto. apply IH; [lia|]. now replace (S i + k)%nat with (i + S k)%nat by lia.
Qed.
Lemma esc_loop_terminates s ser p i seed : Un_cv s p -> (exists n0, forall n, (n0 <= n)%nat -> ser n = Some (Fin (s n))) -> seed <> p ->
  exists n0, forall fuel, (n0 <= fuel)%nat -> exists r, esc_loop ser fuel i seed = Ok r.
Proof.
  intros CV (m0 & SER) NE.
  destruct (CV (Rabs (seed - p))) as (n1 & H1). { apply Rabs_pos_lt. lra. }
  (* a later position of each parity *)
  set (k0 := (2 * (n1 + m0 + i))%nat). assert (E0 : Nat.even k0 = true) by (apply Nat.even_spec; eexists; reflexivity).
  assert (A : forall k, (k0 <= k)%nat -> ser (i + (k - i))%nat = Some (Fin (s k)) /\ Rabs (s k - p) < Rabs (seed - p)).
  { intros k K. replace (i + (k - i))%nat with k by (unfold k0 in K; lia). split; [apply SER; unfold k0 in K; lia|]. apply H1. unfold k0 in K. lia. }
  destruct (Rtotal_order seed p) as [L|[L|L]]; [|contradiction|].
  - exists (S k0). intros fuel F. destruct (A k0 (Nat.le_refl _)) as [A1 A2].
    apply (esc_loop_fuel _ _ (k0 - i)); [lia|]. left. rewrite A1. replace (i + (k0 - i))%nat with k0 by (unfold k0; lia). split; auto.
    simpl. apply Rltb_true. rewrite (Rabs_left (seed - p)) in A2 by lra. apply Rabs_def2 in A2. lra.
  - exists (S (S k0)). intros fuel F. destruct (A (S k0)) as [A1 A2]; [lia|].
    apply (esc_loop_fuel _ _ (S k0 - i)); [lia|]. right. rewrite A1. replace (i + (S k0 - i))%nat with (S k0) by (unfold k0; lia). split.
    + simpl. apply Rltb_true. rewrite (Rabs_right (seed - p)) in A2 by lra. apply Rabs_def2 in A2. lra.
    + rewrite Nat.odd_succ. auto.
Qed.
