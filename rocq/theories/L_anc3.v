(** With a single bound a fair anchor is not exact. *)
From Coq Require Import Reals List Bool Arith Lia Lra Psatz.
From Verif Require Import Base Rng L_rng M_hit SpecHit L_hit L_hit2 L_hit3 L_hit4 L_hit5 L_hit6 L_hit7 L_hit8 SpecLaw SpecEsc SpecAnch L_heat5 L_anc L_anc2.
Local Open Scope R_scope.

Lemma exp_npow : forall n x, exp x ^ n = exp (INR n * x).
Proof. induction n as [|n IH]; intros x; [cbn; rewrite Rmult_0_l, exp_0; reflexivity|]. rewrite S_INR. cbn [pow]. rewrite IH, <- exp_plus. f_equal. ring. Qed.
Definition gs (x : R) : R := exp (- (2 * x ^ 2)).
Lemma gs_decr : forall x y, 0 <= x <= y -> gs y <= gs x.
Proof. intros x y [H1 H2]. unfold gs. assert (- (2 * y ^ 2) <= - (2 * x ^ 2)) as [H|H] by nra; [left; apply exp_increasing; exact H|right; rewrite H; reflexivity]. Qed.
Lemma gs_scale : forall x k, gs (INR k * x) = gs x ^ (k * k).
Proof.
  intros x k. unfold gs. rewrite exp_npow. f_equal. rewrite mult_INR. ring.
Qed.
Lemma gs_half : forall x, gs x = gs (x / 2) ^ 4.
Proof. intros x. change 4%nat with (2 * 2)%nat. rewrite <- gs_scale. f_equal. cbn [INR]. field. Qed.

Section Zero.
  Variables (l u p : R).
  Hypothesis (Hl : 0 < l) (Hu : 0 < u) (E : brown_escape 1 (0 - (- l + u) / 2) (0 - (- l + u) / 2) ((u - - l) / 2) p).
  Let c := 0 - (- l + u) / 2.
  Let K := (u - - l) / 2.
  Lemma zero_sum2 : brown_sum 1 c c K 2 = gs u + gs l - 2 * gs (l + u).
  Proof.
    cbn [brown_sum]. unfold brown_inc. cbn [Nat.odd Nat.even negb]. change (Nat.div (1 + 1) 2) with 1%nat. change (Nat.div 2 2) with 1%nat.
    unfold s_up, s_down, gs, c, K. cbn [INR].
    match goal with |- 0 + (exp ?a + exp ?b) + - (exp ?d + exp ?e) = exp ?a' + exp ?b' - 2 * exp ?d' => replace a with a' by field; replace b with b' by field; replace d with d' by field; replace e with d' by field end. ring.
  Qed.
  Lemma zero_sum3 : brown_sum 1 c c K 3 = gs u + gs l - 2 * gs (l + u) + (gs (l + 2 * u) + gs (2 * l + u)).
  Proof.
    change (brown_sum 1 c c K 3) with (brown_sum 1 c c K 2 + brown_inc 1 c c K 3). rewrite zero_sum2. f_equal.
    unfold brown_inc. cbn [Nat.odd Nat.even negb]. change (Nat.div (3 + 1) 2) with 2%nat. unfold s_up, gs, c, K. cbn [INR].
    match goal with |- exp ?a + exp ?b = exp ?a' + exp ?b' => replace a with a' by field; replace b with b' by field end. reflexivity.
  Qed.
  Lemma zero_bracket : gs u + gs l - 2 * gs (l + u) <= p <= gs u + gs l - 2 * gs (l + u) + (gs (l + 2 * u) + gs (2 * l + u)).
  Proof.
    assert (A : Rabs c < K) by (unfold c, K; apply Rabs_def1; lra).
    destruct (brown_full_range 1 c c K Rlt_0_1 A A) as (q & E' & _ & _ & B). rewrite (escape_unique _ _ _ _ _ _ E E').
    rewrite <- zero_sum3, <- zero_sum2. split; [apply (B 2%nat); [lia|reflexivity]|apply (B 3%nat); [lia|reflexivity]].
  Qed.
End Zero.

Definition root4 : R := / sqrt (sqrt 5).
Lemma root4_pow : 0 < root4 /\ root4 ^ 4 = 1 / 5.
Proof.
  assert (S5 : 0 < sqrt 5) by (apply sqrt_lt_R0; lra). assert (S55 : 0 < sqrt (sqrt 5)) by (apply sqrt_lt_R0; exact S5). split; [apply Rinv_0_lt_compat; exact S55|].
  unfold root4. replace ((/ sqrt (sqrt 5)) ^ 4) with (/ ((sqrt (sqrt 5) * sqrt (sqrt 5)) * (sqrt (sqrt 5) * sqrt (sqrt 5)))) by (field; lra).
  rewrite (sqrt_sqrt (sqrt 5)) by lra. rewrite sqrt_sqrt by lra. field.
Qed.
Lemma root4_range : 668 / 1000 < root4 < 669 / 1000.
Proof.
  destruct root4_pow as [P E]. set (r := root4) in *. assert (E2 : (r * r) * (r * r) = 1 / 5) by (rewrite <- E; ring).
  split.
  - destruct (Rlt_le_dec (668 / 1000) r) as [H|H]; [exact H|exfalso]. assert (r * r <= 446224 / 1000000) by nra. nra.
  - destruct (Rlt_le_dec r (669 / 1000)) as [H|H]; [exact H|exfalso]. assert (447561 / 1000000 <= r * r) by nra. nra.
Qed.
(** the bound that makes the lower edge of the first layer equal to half the upper edge of the second *)
Definition low_bound : R := - sqrt (- ln (2 * root4 - 1) / 2).
Lemma low_bound_ok : low_bound < 0 /\ exp (- (2 * (0 - low_bound) * (0 - low_bound) / 1)) = 2 * root4 - 1.
Proof.
  pose proof root4_range as R. assert (L : ln (2 * root4 - 1) < 0) by (rewrite <- ln_1; apply ln_increasing; lra). unfold low_bound.
  assert (S5 : 0 < sqrt (- ln (2 * root4 - 1) / 2)) by (apply sqrt_lt_R0; lra). split; [lra|].
  set (s := sqrt _) in *. assert (SS : s * s = - ln (2 * root4 - 1) / 2) by (unfold s; apply sqrt_sqrt; lra).
  replace (- (2 * (0 - - s) * (0 - - s) / 1)) with (- (2 * (s * s))) by field. rewrite SS. replace (- (2 * (- ln (2 * root4 - 1) / 2))) with (ln (2 * root4 - 1)) by field. apply exp_ln. lra.
Qed.
Lemma gs_inj : forall x y, 0 <= x -> 0 <= y -> gs x = gs y -> x = y.
Proof. intros x y X Y E. apply exp_inv in E. assert ((x - y) * (x + y) = 0) as H by nra. apply Rmult_integral in H. destruct H as [H|H]; nra. Qed.
Lemma stays_ex : forall t a b l u, 0 < t -> exists s, stays t a b l u s.
Proof.
  intros t a b l u Ht. destruct (Rlt_le_dec l (Rmin a b)) as [A|A]; [|exists 0; right; split; [left; exact A|reflexivity]].
  destruct (Rlt_le_dec (Rmax a b) u) as [B|B]; [|exists 0; right; split; [right; exact B|reflexivity]].
  assert (X := Rmin_l a b). assert (Y := Rmin_r a b). assert (Z := Rmax_l a b). assert (W := Rmax_r a b).
  destruct (brown_full_range t (a - (l + u) / 2) (b - (l + u) / 2) ((u - l) / 2) Ht) as (p & E & _); [apply Rabs_def1; lra|apply Rabs_def1; lra|].
  exists (1 - p). left. split; [exact A|]. split; [exact B|]. exists p. split; [exact E|reflexivity].
Qed.
Lemma half_refuted : exists t a b lb ub le ue le' ue' s s' lo hi, 0 < t /\ elt lb (Fin (Rmin a b)) /\ elt (Fin (Rmax a b)) ub /\
  compute_edges 2 t a b lb ub = Ok (Fin le, Fin ue) /\ compute_edges 1 t a b lb ub = Ok (Fin le', Fin ue') /\
  stays t a b le ue s /\ stays t a b le' ue' s' /\ stays t a b le' ue lo /\ stays t a b le ue' hi /\ ~ anchor_exact (1 / 2) s s' lo hi.
Proof.
  destruct low_bound_ok as [NB EB]. pose proof root4_range as RR. destruct root4_pow as [_ R4].
  assert (M0 : Rmin 0 0 = 0) by (unfold Rmin; destruct (Rle_dec 0 0); reflexivity). assert (M1 : Rmax 0 0 = 0) by (unfold Rmax; destruct (Rle_dec 0 0); reflexivity).
  assert (L : elt (Fin low_bound) (Fin (Rmin 0 0))) by (rewrite M0; exact NB). assert (U : elt (Fin (Rmax 0 0)) PosInf) by exact I.
  destruct (edges_inside 1 0 0 (Fin low_bound) PosInf Rlt_0_1 L U 2) as (le & ue & E & _ & _ & _ & _ & S1). destruct S1 as [S1 S2]; [lia|].
  destruct (edges_inside 1 0 0 (Fin low_bound) PosInf Rlt_0_1 L U 1) as (le' & ue' & E' & _ & _ & _ & _ & T1). destruct T1 as [T1 T2]; [lia|]. rewrite M0 in S1, T1. rewrite M1 in S2, T2.
  destruct (edges_quantile 1 0 0 (Fin low_bound) PosInf Rlt_0_1 L U 2 le ue) as [Q1 Q2]; [lia|exact E|].
  destruct (edges_quantile 1 0 0 (Fin low_bound) PosInf Rlt_0_1 L U 1 le' ue') as [Q3 Q4]; [lia|exact E'|].
  unfold reach_given in Q1, Q2, Q3, Q4. cbn [reach] in Q1, Q2, Q3, Q4. rewrite EB in Q1, Q3.
  assert (G : forall x, exp (- (2 * (0 - x) * (0 - x) / 1)) = gs x) by (intros x; unfold gs; f_equal; field). rewrite G in Q1, Q2, Q3, Q4. cbn [INR] in Q1, Q2, Q3, Q4.
  assert (F1 : gs le' = root4) by (apply (Rmult_eq_compat_r (1 - (2 * root4 - 1))) in Q3; unfold Rdiv in Q3; rewrite Rmult_assoc, Rinv_l in Q3 by lra; lra).
  assert (F2 : gs le = (8 * root4 - 3) / 5) by (apply (Rmult_eq_compat_r (1 - (2 * root4 - 1))) in Q1; unfold Rdiv in Q1; rewrite Rmult_assoc, Rinv_l in Q1 by lra; lra).
  assert (F3 : gs ue' = 1 / 2) by lra. assert (F4 : gs ue = 1 / 5) by lra. clear Q1 Q2 Q3 Q4 G.
  assert (EV : forall x, gs (- x) = gs x) by (intros x; unfold gs; f_equal; ring).
  set (l1 := - le'). set (l2 := - le). assert (P1 : 0 < l1) by (unfold l1; lra). assert (P2 : 0 < l2) by (unfold l2; lra).
  assert (G1 : gs l1 = root4) by (unfold l1; rewrite EV; exact F1). assert (G2 : gs l2 = (8 * root4 - 3) / 5) by (unfold l2; rewrite EV; exact F2).
  assert (H1 : 2 * l1 = ue). { apply gs_inj; [lra|lra|]. rewrite (gs_half (2 * l1)). replace (2 * l1 / 2) with l1 by field. rewrite G1, F4. exact R4. }
  assert (H2 : ue' <= l2). { destruct (Rle_lt_dec ue' l2) as [H|H]; [exact H|exfalso]. assert (X := gs_decr l2 ue' ltac:(lra)). lra. }
  destruct (stays_ex 1 0 0 le ue Rlt_0_1) as (s & Es). destruct (stays_ex 1 0 0 le' ue' Rlt_0_1) as (s' & Es').
  destruct (stays_ex 1 0 0 le' ue Rlt_0_1) as (lo & Elo). destruct (stays_ex 1 0 0 le ue' Rlt_0_1) as (hi & Ehi).
  exists 1, 0, 0, (Fin low_bound), PosInf, le, ue, le', ue', s, s', lo, hi.
  split; [lra|]. split; [exact L|]. split; [exact U|]. split; [exact E|]. split; [exact E'|]. split; [exact Es|]. split; [exact Es'|]. split; [exact Elo|]. split; [exact Ehi|].
  rewrite half_exact. intros EQ.
  destruct Elo as [(_ & _ & p & Ep & Elo)|[X _]]; [|rewrite M0, M1 in X; lra]. destruct Ehi as [(_ & _ & q & Eq & Ehi)|[X _]]; [|rewrite M0, M1 in X; lra].
  replace le' with (- l1) in Ep by (unfold l1; ring). replace le with (- l2) in Eq by (unfold l2; ring).
  destruct (zero_bracket l1 ue p P1 ltac:(lra) Ep) as [_ B1]. destruct (zero_bracket l2 ue' q P2 ltac:(lra) Eq) as [B2 _].
  assert (V1 : gs (l1 + ue) = root4 ^ 9). { rewrite <- G1. change 9%nat with (3 * 3)%nat. rewrite <- gs_scale. f_equal. cbn [INR]. lra. }
  assert (V2 : gs (2 * l1 + ue) = root4 ^ 16). { rewrite <- G1. change 16%nat with (4 * 4)%nat. rewrite <- gs_scale. f_equal. cbn [INR]. lra. }
  assert (V3 : gs (l1 + 2 * ue) <= gs (2 * l1 + ue)) by (apply gs_decr; lra).
  assert (V4 : gs (l2 + ue') <= 1 / 16). { apply (Rle_trans _ (gs (2 * ue'))); [apply gs_decr; lra|]. rewrite (gs_half (2 * ue')). replace (2 * ue' / 2) with ue' by field. rewrite F3. lra. }
  replace (root4 ^ 9) with (root4 ^ 4 * root4 ^ 4 * root4) in V1 by ring. replace (root4 ^ 16) with (root4 ^ 4 * root4 ^ 4 * root4 ^ 4 * root4 ^ 4) in V2 by ring.
  rewrite R4 in V1, V2. rewrite G1, F4, V1 in B1. rewrite G2, F3 in B2. lra.
Qed.
