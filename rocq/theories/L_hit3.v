(** The two escape series: monotone magnitudes, convergence, exact decisions. *)
From Coq Require Import Reals List Bool Arith Lia Lra Psatz.
From Verif Require Import Base Rng L_rng M_hit SpecHit L_hit2.
Import ListNotations.
Local Open Scope R_scope.

(** ** A series of alternating pairs *)
Section Pairs.
  Variables (U D : nat -> R) (s : nat -> R).
  Hypothesis (s0 : s 0%nat = 0).
  Hypothesis (sU : forall m, s (2 * m + 1)%nat = s (2 * m)%nat + U (S m)).
  Hypothesis (sD : forall m, s (2 * m + 2)%nat = s (2 * m + 1)%nat - D (S m)).
  Definition pc (n : nat) : R := if Nat.even n then U (S (Nat.div2 n)) else D (S (Nat.div2 n)).
  Lemma nat_par n : exists m, n = (2 * m)%nat \/ n = (2 * m + 1)%nat.
  Proof. destruct (Nat.Even_or_Odd n) as [[m ->]|[m ->]]; eauto. Qed.
  Lemma even_2 m : Nat.even (2 * m) = true.
  Proof. apply Nat.even_spec. now exists m. Qed.
  Lemma even_2p m : Nat.even (2 * m + 1) = false.
  Proof. rewrite <- Nat.negb_odd. now rewrite (proj2 (Nat.odd_spec _) (ex_intro _ m eq_refl)). Qed.
  Lemma pc_even m : pc (2 * m) = U (S m).
  Proof. unfold pc. rewrite even_2, Nat.div2_double. auto. Qed.
  Lemma pc_odd m : pc (2 * m + 1) = D (S m).
  Proof. unfold pc. rewrite even_2p. rewrite Nat.add_1_r, Nat.div2_succ_double. auto. Qed.
  Lemma pairs_step n : s (S n) = s n + (if Nat.even n then pc n else - pc n).
  Proof.
    destruct (nat_par n) as (m & [-> | ->]).
    - rewrite even_2, pc_even, <- sU. f_equal. lia.
    - rewrite even_2p, pc_odd. replace (S (2 * m + 1)) with (2 * m + 2)%nat by lia. rewrite sD. ring.
  Qed.
  Lemma pairs_sum m : s (2 * m + 2)%nat = sum_f_R0 (fun n => U (S n) - D (S n)) m.
  Proof.
    induction m as [|m IH].
    - rewrite sD, sU. simpl sum_f_R0. replace (2 * 0)%nat with 0%nat by lia. rewrite s0. ring.
    - rewrite sD, sU. replace (2 * S m)%nat with (2 * m + 2)%nat by lia. rewrite IH. simpl. ring.
  Qed.
  Lemma pairs_cv p : Un_cv s p -> infinite_sum (fun n => U (S n) - D (S n)) p.
  Proof.
    intros CV e E. destruct (CV e E) as (n & Hn). exists n. intros m Hm. rewrite <- pairs_sum. apply Hn. lia.
  Qed.
  (** from pair N on the magnitudes decrease *)
  Lemma pairs_dec N : (forall j, (1 <= j)%nat -> 0 <= U j /\ 0 <= D j) -> (forall j, (N < j)%nat -> D j <= U j) ->
    (forall j, (N < j)%nat -> U (S j) <= D j) -> forall n, (2 * N <= n)%nat -> 0 <= pc (S n) <= pc n.
  Proof.
    intros P H1 H2 n Hn. destruct (nat_par n) as (m & [-> | ->]).
    - replace (S (2 * m)) with (2 * m + 1)%nat by lia. rewrite pc_even, pc_odd. split; [apply P; lia|apply H1; lia].
    - replace (S (2 * m + 1)) with (2 * (S m))%nat by lia. rewrite pc_even, pc_odd. split; [apply P; lia|apply H2; lia].
  Qed.
  Lemma pairs_vanish C : 0 < C -> (forall j, (1 <= j)%nat -> 0 <= U j /\ 0 <= D j) ->
    (forall j, (2 <= j)%nat -> U j <= C / INR j /\ D j <= C / INR j) -> Un_cv pc 0.
  Proof.
    intros HC P H. apply (cv_harmonic _ (2 * C)); [lra| |].
    - intros n. unfold pc. destruct (Nat.even n); apply P; lia.
    - intros n Hn. destruct (nat_par n) as (m & [-> | ->]).
      + rewrite pc_even. eapply Rle_trans; [apply H; lia|]. rewrite mult_INR. change (INR 2) with 2.
        assert (0 < INR m) by (apply lt_0_INR; lia).
        replace (2 * C / (2 * INR m)) with (C / INR m) by (field; lra).
        unfold Rdiv. apply Rmult_le_compat_l; [lra|]. apply Rinv_le_contravar; auto. apply le_INR. lia.
      + rewrite pc_odd. eapply Rle_trans; [apply H; lia|].
        assert (INR (2 * m + 1) = 2 * INR m + 1) as -> by (rewrite plus_INR, mult_INR; simpl; ring). rewrite S_INR.
        assert (0 < INR m) by (apply lt_0_INR; lia).
        apply (Rmult_le_reg_r ((INR m + 1) * (2 * INR m + 1))); [nra|].
        replace (C / (INR m + 1) * ((INR m + 1) * (2 * INR m + 1))) with (C * (2 * INR m + 1)) by (field; lra).
        replace (2 * C / (2 * INR m + 1) * ((INR m + 1) * (2 * INR m + 1))) with (2 * C * (INR m + 1)) by (field; lra). nra.
  Qed.
End Pairs.

(** ** Brownian bridge *)
Section Brown.
  Variables (t a b K : R).
  Hypothesis (Ht : 0 < t) (Ha : Rabs a < K) (Hb : Rabs b < K).
  Let HK : 0 < K. Proof. pose proof (Rabs_pos a). lra. Qed.
  Let Ba : - K < a < K. Proof. apply Rabs_def2 in Ha. lra. Qed.
  Let Bb : - K < b < K. Proof. apply Rabs_def2 in Hb. lra. Qed.
  Definition bU (j : nat) : R := s_up K t j a b + s_up K t j (- a) (- b).
  Definition bD (j : nat) : R := s_down K t j a b + s_down K t j (- a) (- b).
  Notation s := (brown_sum t a b K).

  Lemma bs_U m : s (2 * m + 1)%nat = s (2 * m)%nat + bU (S m).
  Proof.
    rewrite Nat.add_1_r. simpl brown_sum. f_equal. unfold brown_inc.
    assert (O : Nat.odd (S (2 * m)) = true) by (apply Nat.odd_spec; exists m; lia).
    change (m + (m + 0))%nat with (2 * m)%nat. rewrite O. unfold bU. replace ((S (2 * m) + 1) / 2)%nat with (S m); auto.
    replace (S (2 * m) + 1)%nat with (S m * 2)%nat by lia. now rewrite Nat.div_mul.
  Qed.
  Lemma bs_D m : s (2 * m + 2)%nat = s (2 * m + 1)%nat - bD (S m).
  Proof.
    replace (2 * m + 2)%nat with (S (2 * m + 1)) by lia. cbn [brown_sum]. unfold brown_inc.
    assert (O : Nat.odd (S (2 * m + 1)) = false). { rewrite <- Nat.negb_even. rewrite (proj2 (Nat.even_spec _)); auto. exists (S m). lia. }
    rewrite O. replace (S (2 * m + 1))%nat with (S m * 2)%nat by lia. rewrite Nat.div_mul by lia. unfold bD. ring.
  Qed.
  Lemma exp_le_iff x y : - x <= - y -> exp (- x) <= exp (- y).
  Proof. intros H. destruct (Req_dec x y); [subst; lra|]. left. apply exp_increasing. lra. Qed.
  Lemma up_e j x y : s_up K t j x y = exp (- (2 * (K * (2 * INR j - 1) - x) * (K * (2 * INR j - 1) - y) / t)).
  Proof. unfold s_up. f_equal. field. lra. Qed.
  Lemma down_e j x y : s_down K t j x y = exp (- (INR j * (8 * K ^ 2 * INR j + 4 * K * (x - y)) / t)).
  Proof. unfold s_down. f_equal. field. lra. Qed.
  Lemma div_le x y : x <= y -> x / t <= y / t.
  Proof. intros. apply Rmult_le_compat_r; auto. left. now apply Rinv_0_lt_compat. Qed.
  Lemma down_up j x y : (1 <= j)%nat -> - K < x < K -> - K < y < K -> s_down K t j x y <= s_up K t j x y.
  Proof.
    intros J X Y. rewrite up_e, down_e. apply exp_le_iff, Ropp_le_contravar, div_le.
    assert (1 <= INR j) by (apply (le_INR 1); lia).
    assert (0 <= (K + x) * (K * (4 * INR j - 1) - y)) by (apply Rmult_le_pos; nra). nra.
  Qed.
  Lemma up_down j x y : (1 <= j)%nat -> - K < x < K -> - K < y < K -> s_up K t (S j) x y <= s_down K t j x y.
  Proof.
    intros J X Y. rewrite up_e, down_e. apply exp_le_iff, Ropp_le_contravar, div_le. rewrite S_INR.
    assert (1 <= INR j) by (apply (le_INR 1); lia).
    assert (0 <= (K - x) * (K * (4 * INR j + 1) - y)) by (apply Rmult_le_pos; nra). nra.
  Qed.
  Lemma bUD j : (1 <= j)%nat -> 0 <= bU j /\ 0 <= bD j.
  Proof. intros _. unfold bU, bD, s_up, s_down. split; left; apply Rplus_lt_0_compat; apply exp_pos. Qed.
  Lemma bD_U j : (0 < j)%nat -> bD j <= bU j.
  Proof. intros. unfold bD, bU. apply Rplus_le_compat; apply down_up; auto; lra. Qed.
  Lemma bU_D j : (0 < j)%nat -> bU (S j) <= bD j.
  Proof. intros. unfold bD, bU. apply Rplus_le_compat; apply up_down; auto; lra. Qed.
  Lemma up_small j x y : (2 <= j)%nat -> - K < x < K -> - K < y < K -> s_up K t j x y <= t / K ^ 2 / INR j.
  Proof.
    intros J X Y. rewrite up_e. assert (2 <= INR j) by (apply (le_INR 2); lia).
    assert (E : K ^ 2 * INR j <= 2 * (K * (2 * INR j - 1) - x) * (K * (2 * INR j - 1) - y)).
    { assert (K * (2 * INR j - 2) <= K * (2 * INR j - 1) - x) by lra.
      assert (K * (2 * INR j - 2) <= K * (2 * INR j - 1) - y) by lra.
      assert (0 <= K * (2 * INR j - 2)) by nra.
      assert (K * (2 * INR j - 2) * (K * (2 * INR j - 2)) <= (K * (2 * INR j - 1) - x) * (K * (2 * INR j - 1) - y)) by (apply Rmult_le_compat; auto).
      assert (INR j <= 2 * ((2 * INR j - 2) * (2 * INR j - 2))) by nra.
      assert (0 < K ^ 2) by (apply pow_lt; auto). nra. }
    assert (P : 0 < K ^ 2 * INR j / t) by (apply Rdiv_lt_0_compat; auto; assert (0 < K ^ 2) by (apply pow_lt; auto); nra).
    eapply Rle_trans; [apply (exp_le_iff _ (K ^ 2 * INR j / t)), Ropp_le_contravar, div_le, E|].
    eapply Rle_trans; [apply exp_neg_le; auto|]. right. field. split; [lra|]. split; lra.
  Qed.
  Lemma brown_vanish : Un_cv (pc bU bD) 0.
  Proof.
    assert (P2 : 0 < t / K ^ 2) by (apply Rdiv_lt_0_compat; auto; apply pow_lt; auto).
    assert (S1 : forall j, (2 <= j)%nat -> bU j <= 2 * (t / K ^ 2) / INR j).
    { intros j J. unfold bU. pose proof (up_small j a b J Ba Bb). pose proof (up_small j (- a) (- b) J ltac:(lra) ltac:(lra)). lra. }
    apply (pairs_vanish _ _ (2 * (t / K ^ 2))); [lra|apply bUD|].
    intros j J. split; [auto|]. eapply Rle_trans; [apply bD_U; lia|auto].
  Qed.
  Lemma brown_brackets : exists p, Un_cv s p /\ brackets s 0 p.
  Proof.
    apply (alt_bracket (pc bU bD)).
    - apply pairs_step; [apply bs_U|apply bs_D].
    - intros n _. apply (pairs_dec bU bD 0); [apply bUD|apply bD_U|apply bU_D|lia].
    - apply brown_vanish.
  Qed.
  Lemma brown_term_eq n : two_sided_term t a b K (S n) = bU (S n) - bD (S n).
  Proof.
    unfold two_sided_term, bU, bD. rewrite !up_e, !down_e.
    replace (- (2 * ((2 * INR (S n) - 1) * K - a) * ((2 * INR (S n) - 1) * K - b) / t)) with (- (2 * (K * (2 * INR (S n) - 1) - a) * (K * (2 * INR (S n) - 1) - b) / t)) by (field; lra).
    replace (- (2 * ((2 * INR (S n) - 1) * K + a) * ((2 * INR (S n) - 1) * K + b) / t)) with (- (2 * (K * (2 * INR (S n) - 1) - - a) * (K * (2 * INR (S n) - 1) - - b) / t)) by (field; lra).
    replace (- (4 * INR (S n) * K * (2 * INR (S n) * K + (a - b)) / t)) with (- (INR (S n) * (8 * K ^ 2 * INR (S n) + 4 * K * (a - b)) / t)) by (field; lra).
    replace (- (4 * INR (S n) * K * (2 * INR (S n) * K - (a - b)) / t)) with (- (INR (S n) * (8 * K ^ 2 * INR (S n) + 4 * K * (- a - - b)) / t)) by (field; lra).
    ring.
  Qed.
  Lemma infinite_sum_ext u v l : (forall n, u n = v n) -> infinite_sum u l -> infinite_sum v l.
  Proof.
    intros E H e He. destruct (H e He) as (n & Hn). exists n. intros m Hm. rewrite <- (sum_eq u v); auto.
  Qed.
  (** the limit is the classical series *)
  Lemma brown_limit p : brown_escape t a b K p <-> Un_cv s p.
  Proof.
    assert (F : forall q, Un_cv s q -> brown_escape t a b K q).
    { intros q Q. eapply infinite_sum_ext; [intros; symmetry; apply brown_term_eq|]. apply (pairs_cv bU bD s); [reflexivity|apply bs_U|apply bs_D|exact Q]. }
    split; auto. intros H. destruct brown_brackets as (q & CV & _). specialize (F q CV).
    assert (p = q) as -> by (eapply uniqueness_sum; eauto). auto.
  Qed.
  Lemma brown_brackets_of p : brown_escape t a b K p -> brackets s 0 p.
  Proof.
    intros H. apply brown_limit in H. destruct brown_brackets as (q & CV & B). now rewrite (cv_unique _ _ _ H CV).
  Qed.
  Lemma brown_nonneg p : brown_escape t a b K p -> 0 <= p.
  Proof. intros H. destruct (brown_brackets_of p H 0%nat (Nat.le_refl _)) as [A _]. apply A. auto. Qed.
End Brown.
