(** The law of the values of the hidden path at the regime changes, and the breaks of sample_partition. *)
From Coq Require Import Reals List Bool Arith Lia Lra Sorted.
From Verif Require Import Base Np Rng L_rng M_mjp SpecMjp M_path SpecPath M_sw L_list L_path L_part L_path2 L_occ L_sde L_sde3 L_ars L_ars2 L_mat Mat.
Import ListNotations.
Local Open Scope R_scope.

Section Anch.
  Variables (vol : nat -> R) (s : M_mjp.skel R) (a b : R).
  Hypothesis Hs : timed s.
  Hypothesis Hv : forall y, In y (M_mjp.sk_x s) -> 0 < vol y.
  Notation t := (M_mjp.sk_t s).
  Notation y := (M_mjp.sk_x s).
  Notation T := (M_mjp.sk_fin s).
  Definition inc (k : nat) : R := (nth (S k) (t ++ [T]) 0 - nth k (t ++ [T]) 0) * vol (nth k y 0%nat) ^ 2.
  Definition acc (k : nat) : R := rsum k inc.

  Lemma sorted_nth : forall (l : list R) i j, StronglySorted Rlt l -> (i < j < length l)%nat -> nth i l 0 < nth j l 0.
  Proof.
    induction l as [|x l IH]; intros i j HS H; [simpl in H; lia|]. inversion HS as [|? ? H1 H2]; subst. destruct j as [|j]; [lia|].
    simpl in H. destruct i as [|i]; simpl.
    - rewrite Forall_forall in H2. apply H2. apply nth_In. lia.
    - apply IH; [exact H1|lia].
  Qed.
  Lemma inc_pos : forall k, (k < length t)%nat -> 0 < inc k.
  Proof.
    intros k Hk. destruct Hs as [HL HF HS HB]. unfold inc. apply Rmult_lt_0_compat.
    - apply Rlt_Rminus. rewrite (app_nth1 t [T] 0) by exact Hk.
      destruct (Nat.eq_dec (S k) (length t)) as [E|N].
      + rewrite app_nth2 by lia. rewrite E, Nat.sub_diag. cbn [nth]. apply HB. apply nth_In. exact Hk.
      + rewrite app_nth1 by lia. apply sorted_nth; [exact HS|lia].
    - apply pow_lt. apply Hv. apply nth_In. rewrite <- HL. exact Hk.
  Qed.
  Lemma acc_lt : forall i j, (i < j <= length t)%nat -> acc i < acc j.
  Proof.
    intros i j. induction j as [|j IH]; intros H; [lia|]. unfold acc in *. cbn [rsum]. pose proof (inc_pos j ltac:(lia)).
    destruct (Nat.eq_dec i j) as [->|N]; [lra|]. specialize (IH ltac:(lia)). lra.
  Qed.
  Lemma sorted_map : forall n (f : nat -> R) k, (forall i j, (i < j)%nat -> (k <= i)%nat -> (j < k + n)%nat -> f i < f j) -> StronglySorted Rlt (map f (seq k n)).
  Proof.
    induction n as [|n IH]; intros f k H; [constructor|]. cbn [seq map]. constructor.
    - apply IH. intros i j Hij H1 H2. apply H; lia.
    - apply Forall_forall. intros z Hz. apply in_map_iff in Hz as (j & <- & Hj). apply in_seq in Hj. apply H; lia.
  Qed.

  Lemma anchor_law : forall n, length t = S (S n) -> exists X m c,
    (forall o k, sample_anchors vol t y T a b o k = (Ok (a :: X (normals o k (S n))), (k + S n)%nat)) /\
    gaussian (S n) X m c /\
    forall i j, (i < S n)%nat -> (j < S n)%nat ->
      nth i m 0 = a + (b - a) * acc (S i) / acc (S (S n)) /\
      entry c i j = Rmin (acc (S i)) (acc (S j)) * (acc (S (S n)) - Rmax (acc (S i)) (acc (S j))) / acc (S (S n)).
  Proof.
    intros n Ln. pose proof Hs as [HL HF HS HB].
    set (g := map (fun j => acc (S j)) (seq 0 (S n))).
    assert (ES : map (fun p => fst p * vol (snd p) ^ 2) (combine (np_diff (t ++ [T])) y) = map inc (seq 0 (S (S n)))).
    { apply (nth_ext _ _ 0 0).
      - rewrite map_length, combine_length, np_diff_length, app_length, map_length, seq_length, <- HL, Ln. simpl. lia.
      - intros i Hi. rewrite map_length, combine_length, np_diff_length, app_length, <- HL, Ln in Hi. cbn [length] in Hi.
        assert (Hi' : (i < S (S n))%nat) by lia.
        rewrite (nth_map_lt _ _ i (0, 0%nat)) by (rewrite combine_length, np_diff_length, app_length, <- HL, Ln; simpl; lia).
        rewrite combine_nth by (rewrite np_diff_length, app_length, <- HL, Ln; simpl; lia).
        rewrite nth_map_seq by exact Hi'. cbn [fst snd]. rewrite np_diff_seq, nth_map_seq by (rewrite app_length, Ln; simpl; lia). reflexivity. }
    assert (EC : np_cumsum (map inc (seq 0 (S (S n)))) = g ++ [acc (S (S n))]).
    { assert (EN : forall i, (i < S (S n))%nat -> nth i (map inc (seq 0 (S (S n)))) 0 = inc i) by (intros i Hi; rewrite nth_map_seq by lia; reflexivity).
      rewrite cumsum_0, cumsum_from_seq, map_length, seq_length. revert EN. generalize (map inc (seq 0 (S (S n)))). intros l EN.
      unfold g. rewrite (seq_S (S n)), map_app. cbn [map Nat.add]. f_equal.
      - apply map_ext_in. intros j Hj. apply in_seq in Hj. rewrite Rplus_0_l. apply rsum_ext. intros i Hi. apply EN. lia.
      - f_equal. rewrite Rplus_0_l. apply rsum_ext. intros i Hi. apply EN. lia. }
    assert (A0 : acc 0 = 0) by reflexivity.
    assert (GT : time_grid g).
    { split; [discriminate|]. split; [apply sorted_map; intros i j H1 _ H2; apply acc_lt; lia|].
      apply Forall_forall. intros z Hz. apply in_map_iff in Hz as (j & <- & Hj). apply in_seq in Hj. rewrite <- A0. apply acc_lt. lia. }
    assert (GB : Forall (fun z => z < acc (S (S n))) g).
    { apply Forall_forall. intros z Hz. apply in_map_iff in Hz as (j & <- & Hj). apply in_seq in Hj. apply acc_lt. lia. }
    assert (Lg : length g = S n) by (unfold g; rewrite map_length, seq_length; reflexivity).
    destruct (brownbr_statement g (acc (S (S n))) a b GT GB) as (X & HX & m & c & Em & Gm). rewrite Lg in *.
    exists X, m, c. split; [|split; [exact Gm|]].
    - intros o k. unfold sample_anchors. rewrite Ln. cbn [Nat.eqb]. rewrite ES, EC.
      rewrite last_opt_app. unfold bind at 1. cbn [lift_opt]. unfold bind, ret at 1. rewrite removelast_last, HX. reflexivity.
    - intros i j Hi Hj. pose proof (bridge_moment_values g (acc (S (S n))) a b m c Em i j ltac:(lia) ltac:(lia)) as [E1 E2].
      assert (EG : forall k, (k < S n)%nat -> nth k g 0 = acc (S k)) by (intros k Hk; unfold g; rewrite nth_map_seq by exact Hk; reflexivity).
      rewrite (EG i Hi) in E1, E2. rewrite (EG j Hj) in E2. exact (conj E1 E2).
  Qed.
End Anch.

Lemma anchors_gaussian : forall vol (s : M_mjp.skel R) a b n, timed s -> (forall y, In y (M_mjp.sk_x s) -> 0 < vol y) ->
  length (M_mjp.sk_t s) = S (S n) ->
  exists (V : nat -> R) X m c, V 0%nat = 0 /\
    (forall k, (k <= S n)%nat -> V (S k) = V k + (nth (S k) (M_mjp.sk_t s ++ [M_mjp.sk_fin s]) 0 - nth k (M_mjp.sk_t s ++ [M_mjp.sk_fin s]) 0) * vol (nth k (M_mjp.sk_x s) 0%nat) ^ 2) /\
    (forall o k, sample_anchors vol (M_mjp.sk_t s) (M_mjp.sk_x s) (M_mjp.sk_fin s) a b o k = (Ok (a :: X (normals o k (S n))), (k + S n)%nat)) /\
    gaussian (S n) X m c /\
    forall i j, (i < S n)%nat -> (j < S n)%nat ->
      nth i m 0 = a + (b - a) * V (S i) / V (S (S n)) /\
      entry c i j = Rmin (V (S i)) (V (S j)) * (V (S (S n)) - Rmax (V (S i)) (V (S j))) / V (S (S n)).
Proof.
  intros vol s a b n Hs Hv Ln. destruct (anchor_law vol s a b Hs Hv n Ln) as (X & m & c & H1 & H2 & H3).
  exists (acc vol s), X, m, c. split; [reflexivity|]. split; [intros; reflexivity|]. exact (conj H1 (conj H2 H3)).
Qed.

Lemma partition_breaks : forall s intensity, 0 < M_mjp.sk_fin s ->
  returns (sample_partition s intensity) (fun r => forall i, (i < length (snd r))%nat ->
    nth i (snd r) 0 = (INR i + 1) * (M_mjp.sk_fin s / (INR (length (snd r)) + 1)) /\ 0 < nth i (snd r) 0 < M_mjp.sk_fin s).
Proof.
  intros s v H o k V. unfold sample_partition, bind, draw_n. cbn [fst snd ret]. intros i. unfold linspace_inner. set (n := ora_n o k _).
  rewrite map_length, seq_length. intros Hi. rewrite (nth_map_lt _ (seq 1 n) i 0%nat) by (rewrite seq_length; exact Hi). rewrite seq_nth by exact Hi.
  change (1 + i)%nat with (S i). rewrite Nat.add_1_r, !S_INR. split; [ring|].
  assert (Hn : 0 <= INR i /\ INR i + 1 <= INR n) by (split; [apply pos_INR|rewrite <- S_INR; apply le_INR; lia]).
  split.
  - apply Rmult_lt_0_compat; [lra|]. apply Rdiv_lt_0_compat; lra.
  - apply (Rmult_lt_reg_r ((INR n + 1) / M_mjp.sk_fin s)); [apply Rdiv_lt_0_compat; lra|]. field_simplify; lra.
Qed.
Lemma sorted_nth_le : forall l : list R, (forall i, (S i < length l)%nat -> nth i l 0 <= nth (S i) l 0) -> StronglySorted Rle l.
Proof.
  intros l H. apply Sorted_StronglySorted; [intros x y z; apply Rle_trans|]. induction l as [|a l IH]; [constructor|]. constructor.
  - apply IH. intros i Hi. apply (H (S i)). simpl. lia.
  - destruct l as [|b l]; constructor. apply (H 0%nat). simpl. lia.
Qed.
Lemma partition_sampled : forall s intensity, wf_skel s ->
  returns (sample_partition s intensity) (fun r => paste_partition (fst r) = Ok s /\ length (fst r) = S (length (snd r)) /\
    forall i, (i < length (snd r))%nat ->
    nth i (snd r) 0 = (INR i + 1) * (M_mjp.sk_fin s / (INR (length (snd r)) + 1)) /\ 0 < nth i (snd r) 0 < M_mjp.sk_fin s).
Proof.
  intros s v W. assert (HF : 0 < M_mjp.sk_fin s).
  { destruct W as [[HL H0 _ HB] _]. apply HB. apply nth_error_In in H0. exact H0. }
  intros o k V. pose proof (partition_breaks s v HF o k V) as P. unfold sample_partition, bind, draw_n in *. cbn [fst snd ret] in *.
  revert P. set (l := linspace_inner (M_mjp.sk_fin s) (ora_n o k (DPoisson (v * M_mjp.sk_fin s)))). intros P.
  assert (HS : StronglySorted Rle l).
  { apply sorted_nth_le. intros i Hi. destruct (P i ltac:(lia)) as [E1 _], (P (S i) Hi) as [E2 _]. rewrite E1, E2, S_INR.
    apply Rmult_le_compat_r; [|lra]. apply Rlt_le. apply Rdiv_lt_0_compat; [exact HF|]. pose proof (pos_INR (length l)). lra. }
  assert (HI : forall b, In b l -> 0 <= b <= M_mjp.sk_fin s).
  { intros b Hb. destruct (In_nth l b 0 Hb) as (i & Hi & <-). destruct (P i Hi) as [_ ?]. lra. }
  split; [|split; [|exact P]].
  - apply (roundtrip s (proj1 W) (proj2 W) l HS HI).
  - apply (partition_correct s l W HS HI).
Qed.
