(** compute_edges for every integer exponent. *)
From Coq Require Import Reals List Bool Arith ZArith Lia Lra Psatz.
From Verif Require Import Base Rng L_rng M_hit M_edges SpecHit L_hit L_hit2 L_hit3 L_hit4 L_hit5 L_hit6 L_hit7 L_hit8.
Import ListNotations.
Local Open Scope R_scope.

Definition ipow (pw : Z) (i : nat) : R := 1 / (powerRZ (INR i) pw + 1).
Lemma edges_default i t a b lb ub : compute_edges_pow 2 i t a b lb ub = compute_edges i t a b lb ub.
Proof. reflexivity. Qed.
Lemma ipow_range pw i : (1 <= i)%nat -> 0 < ipow pw i < 1.
Proof.
  intros H. apply le_INR in H. simpl in H. unfold ipow. assert (0 < powerRZ (INR i) pw) by (apply powerRZ_lt; lra).
  split; [apply Rdiv_lt_0_compat; lra|]. apply (Rmult_lt_reg_r (powerRZ (INR i) pw + 1)); [lra|]. unfold Rdiv. rewrite Rmult_assoc, Rinv_l; lra.
Qed.
Lemma ipow_pos_pow pw i : (0 < pw)%Z -> powerRZ (INR i) pw = INR i ^ Z.to_nat pw.
Proof. intros H. destruct pw; try lia. reflexivity. Qed.
Lemma pow_incr_lt x y n : 0 <= x < y -> (0 < n)%nat -> x ^ n < y ^ n.
Proof.
  intros H N. destruct n as [|n]; [lia|]. clear N. induction n as [|n IH]; [simpl; lra|]. change (x * x ^ S n < y * y ^ S n).
  assert (0 <= x ^ S n) by (apply pow_le; lra). apply Rle_lt_trans with (x * y ^ S n); [apply Rmult_le_compat_l; lra|]. apply Rmult_lt_compat_r; [apply pow_lt; lra|lra].
Qed.
Lemma ipow_decr pw i j : (0 < pw)%Z -> (i < j)%nat -> ipow pw j < ipow pw i.
Proof.
  intros Hp H. apply lt_INR in H. pose proof (pos_INR i). unfold ipow, Rdiv. rewrite !Rmult_1_l, !ipow_pos_pow by auto.
  pose proof (pow_incr_lt (INR i) (INR j) (Z.to_nat pw) ltac:(lra) ltac:(lia)). pose proof (pow_le (INR i) (Z.to_nat pw) ltac:(lra)).
  apply Rinv_lt_contravar; [apply Rmult_lt_0_compat; lra|lra].
Qed.
Lemma ipow_small pw e : (0 < pw)%Z -> 0 < e -> exists N, forall i, (N <= i)%nat -> ipow pw i < e.
Proof.
  intros Hp E. destruct (archimed_cor1 e E) as (N & H1 & H2). exists N. intros i Hi. eapply Rle_lt_trans; [|exact H1].
  assert (1 <= INR N) by (apply (le_INR 1); lia). apply le_INR in Hi. unfold ipow, Rdiv. rewrite Rmult_1_l, ipow_pos_pow by auto. apply Rinv_le_contravar; [lra|].
  assert (INR i ^ 1 <= INR i ^ Z.to_nat pw) by (apply Rle_pow; [lra|lia]). simpl in H0. lra.
Qed.
Section Edges.
  Variables (pw : Z) (t a b : R) (lb ub : ext).
  Hypothesis (Ht : 0 < t) (Hlb : elt lb (Fin (Rmin a b))) (Hub : elt (Fin (Rmax a b)) ub).
  Let mir := (a + b) / 2.
  Let mlb := esub_from mir ub.
  Lemma mir_min : Rmin (mir - a) (mir - b) = mir - Rmax a b.
  Proof. unfold mir, Rmin, Rmax. destruct (Rle_dec _ _), (Rle_dec _ _); lra. Qed.
  Lemma mlb_lt : elt mlb (Fin (Rmin (mir - a) (mir - b))).
  Proof. rewrite mir_min. unfold mlb. destruct ub; simpl in *; auto. lra. Qed.
  Lemma edge_val_pow i : (1 <= i)%nat -> exists le m, compute_edges_pow pw i t a b lb ub = Ok (Fin le, Fin (mir - m)) /\
    ppf_brownbr_min (ipow pw i) t a b (Some lb) None = Ok (Fin le) /\ elt lb (Fin le) /\ le < Rmin a b /\
    ppf_brownbr_min (ipow pw i) t (mir - a) (mir - b) (Some mlb) None = Ok (Fin m) /\ elt mlb (Fin m) /\ m < mir - Rmax a b.
  Proof.
    intros Hi. pose proof (ipow_range pw i Hi) as P.
    destruct (ppf_statement t a b (Some lb) None Ht Hlb (Rle_refl _) (ipow pw i) ltac:(lra)) as (x & E & _ & _ & _ & L & U).
    specialize (L ltac:(lra)). specialize (U ltac:(lra)).
    destruct (ppf_statement t (mir - a) (mir - b) (Some mlb) None Ht mlb_lt (Rle_refl _) (ipow pw i) ltac:(lra)) as (y & E' & _ & _ & _ & L' & U').
    specialize (L' ltac:(lra)). specialize (U' ltac:(lra)).
    destruct x as [|le|]; simpl in U; try contradiction. { simpl in L. destruct lb; contradiction. }
    destruct y as [|m|]; simpl in U'; try contradiction. { simpl in L'. destruct mlb; contradiction. }
    exists le, m. rewrite mir_min in U'. split; [|auto 10].
    unfold compute_edges_pow. rewrite (proj2 (Rltb_true _ _) Ht).
    assert (B1 : eltb lb (Fin (Rmin a b)) = true). { destruct lb; simpl in *; auto; try contradiction. now apply Rltb_true. }
    assert (B2 : eltb (Fin (Rmax a b)) ub = true). { destruct ub; simpl in *; auto; try contradiction. now apply Rltb_true. }
    rewrite B1, B2. simpl negb. cbv iota. destruct i; [lia|]. cbv zeta. fold mir. fold (ipow pw (S i)). rewrite E. cbn [rbind]. fold mlb. rewrite E'. reflexivity.
  Qed.
  Lemma edge_zero_pow : compute_edges_pow pw 0 t a b lb ub = Ok (Fin (Rmin a b), Fin (Rmax a b)).
  Proof.
    unfold compute_edges_pow. rewrite (proj2 (Rltb_true _ _) Ht).
    assert (B1 : eltb lb (Fin (Rmin a b)) = true). { destruct lb; simpl in *; auto; try contradiction. now apply Rltb_true. }
    assert (B2 : eltb (Fin (Rmax a b)) ub = true). { destruct ub; simpl in *; auto; try contradiction. now apply Rltb_true. }
    now rewrite B1, B2.
  Qed.
  Lemma esub_lt m : elt mlb (Fin m) -> elt (Fin (mir - m)) ub.
  Proof. unfold mlb. destruct ub; simpl; auto. intros; lra. Qed.
  Lemma lt_esub m : elt (Fin m) ub -> elt mlb (Fin (mir - m)).
  Proof. unfold mlb. destruct ub; simpl; auto. intros; lra. Qed.
  Lemma edges_inside_pow i : exists le ue, compute_edges_pow pw i t a b lb ub = Ok (Fin le, Fin ue) /\ elt lb (Fin le) /\ elt (Fin ue) ub /\
    le <= Rmin a b /\ Rmax a b <= ue /\ ((1 <= i)%nat -> le < Rmin a b /\ Rmax a b < ue).
  Proof.
    destruct i as [|i].
    - exists (Rmin a b), (Rmax a b). rewrite edge_zero_pow. repeat split; auto; try lra; intros; lia.
    - destruct (edge_val_pow (S i)) as (le & m & E & _ & L & U & _ & L' & U'); [lia|]. exists le, (mir - m).
      split; auto. split; auto. split; [now apply esub_lt|]. repeat split; lra.
  Qed.
  Lemma edges_quantile_pow i le ue : (1 <= i)%nat -> compute_edges_pow pw i t a b lb ub = Ok (Fin le, Fin ue) ->
    reach_given t a b (Fin le) lb = 1 / (powerRZ (INR i) pw + 1) /\ reach_given t a b (Fin ue) ub = 1 / (powerRZ (INR i) pw + 1).
  Proof.
    intros Hi E. change (1 / (powerRZ (INR i) pw + 1)) with (ipow pw i). destruct (edge_val_pow i Hi) as (x & m & E' & P & _ & U & P' & _ & U'). rewrite E' in E. injection E as <- <-.
    pose proof (ipow_range pw i Hi) as IR.
    destruct (ppf_statement t a b (Some lb) None Ht Hlb (Rle_refl _) (ipow pw i) ltac:(lra)) as (x' & Q & _ & _ & C & _ & _).
    destruct (ppf_statement t (mir - a) (mir - b) (Some mlb) None Ht mlb_lt (Rle_refl _) (ipow pw i) ltac:(lra)) as (m' & Q' & _ & _ & C' & _ & _).
    rewrite P in Q. injection Q as <-. rewrite P' in Q'. injection Q' as <-.
    rewrite cdf_reach in C, C'; auto; try apply mlb_lt; try (rewrite mir_min); simpl; try lra.
    injection C as C. injection C' as C'. split; [exact C|].
    rewrite <- C'. unfold reach_given. unfold mlb. rewrite reach_shift by auto.
    replace (Fin m) with (esub_from mir (Fin (mir - m))) by (simpl; f_equal; ring). now rewrite reach_shift.
  Qed.
  Lemma edges_nested_pow i j le ue le' ue' : (0 < pw)%Z -> (i < j)%nat -> compute_edges_pow pw i t a b lb ub = Ok (Fin le, Fin ue) ->
    compute_edges_pow pw j t a b lb ub = Ok (Fin le', Fin ue') -> le' < le /\ ue < ue'.
  Proof.
    intros Hpw Hij Ei Ej. destruct (edge_val_pow j) as (x & m & E & P & _ & U & P' & _ & U'); [lia|].
    rewrite E in Ej. injection Ej as <- <-. destruct i as [|i].
    - rewrite edge_zero_pow in Ei. injection Ei as <- <-. lra.
    - destruct (edge_val_pow (S i)) as (y & m' & E2 & Q & _ & _ & Q' & _ & _); [lia|]. rewrite E2 in Ei. injection Ei as <- <-.
      pose proof (ipow_decr pw (S i) j Hpw Hij). pose proof (ipow_range pw (S i) ltac:(lia)). pose proof (ipow_range pw j ltac:(lia)).
      pose proof (ppf_monotone t a b (Some lb) None Ht Hlb (Rle_refl _) (ipow pw j) (ipow pw (S i)) _ _ ltac:(lra) ltac:(lra) ltac:(lra) P Q) as M1.
      pose proof (ppf_monotone t (mir - a) (mir - b) (Some mlb) None Ht mlb_lt (Rle_refl _) (ipow pw j) (ipow pw (S i)) _ _ ltac:(lra) ltac:(lra) ltac:(lra) P' Q') as M2.
      simpl in M1, M2. lra.
  Qed.
  (** below any level above the lower bound, above any level below the upper bound *)
  Lemma edges_exhaust_pow x y : (0 < pw)%Z -> elt lb (Fin x) -> elt (Fin y) ub -> exists N, forall i le ue, (N <= i)%nat ->
    compute_edges_pow pw i t a b lb ub = Ok (Fin le, Fin ue) -> le < x /\ y < ue.
  Proof.
    intros Hpw.
    assert (X : forall aa bb l z, elt l (Fin (Rmin aa bb)) -> elt l (Fin z) -> exists N, forall i m, (N <= i)%nat -> (1 <= i)%nat ->
      ppf_brownbr_min (ipow pw i) t aa bb (Some l) None = Ok (Fin m) -> m < z).
    { intros aa bb l z Hl Hz. set (z' := Rmin z (Rmin aa bb)).
      assert (Z1 : elt l (Fin z')). { unfold z', Rmin. destruct (Rle_dec _ _); auto. }
      assert (Z2 : z' <= Rmin aa bb) by apply Rmin_r. assert (Z3 : z' <= z) by apply Rmin_l.
      destruct (cdf_statement t aa bb (Some l) None Ht Hl (Rle_refl _)) as (C1 & C2 & C3 & C4).
      destruct (C1 (Fin z')) as (p & EP & P); [now apply elt_le|exact Z2|].
      assert (PP : 0 < p). { apply (C4 l (Fin z') 0 p); auto. apply ele_refl. }
      destruct (ipow_small pw p Hpw PP) as (N & HN). exists N. intros i m Hi Hi1 E.
      pose proof (ppf_cdf t aa bb (Some l) None Ht Hl (Rle_refl _) (Fin z') p ltac:(now apply elt_le) Z2 EP) as PZ.
      pose proof (ipow_range pw i Hi1).
      pose proof (ppf_monotone t aa bb (Some l) None Ht Hl (Rle_refl _) (ipow pw i) p _ _ ltac:(lra) (HN i Hi) ltac:(lra) E PZ) as M. simpl in M. lra. }
    intros Hx Hy. destruct (X a b lb x Hlb Hx) as (N1 & H1). destruct (X (mir - a) (mir - b) mlb (mir - y) mlb_lt (lt_esub _ Hy)) as (N2 & H2).
    exists (S (N1 + N2)). intros i le ue Hi E. destruct (edge_val_pow i) as (le' & m & E' & P & _ & _ & P' & _); [lia|].
    rewrite E' in E. injection E as <- <-. specialize (H1 i le' ltac:(lia) ltac:(lia) P). specialize (H2 i m ltac:(lia) ltac:(lia) P'). lra.
  Qed.
  Lemma edges_shrink i j le ue le' ue' : (pw <= 0)%Z -> (1 <= i < j)%nat -> compute_edges_pow pw i t a b lb ub = Ok (Fin le, Fin ue) ->
    compute_edges_pow pw j t a b lb ub = Ok (Fin le', Fin ue') -> le <= le' /\ ue' <= ue.
  Proof.
    intros Hpw Hij Ei Ej. destruct (edge_val_pow j) as (x & m & E & P & _ & U & P' & _ & U'); [lia|].
    rewrite E in Ej. injection Ej as <- <-. destruct (edge_val_pow i) as (y & m' & E2 & Q & _ & _ & Q' & _ & _); [lia|]. rewrite E2 in Ei. injection Ei as <- <-.
    assert (D : ipow pw i = ipow pw j \/ ipow pw i < ipow pw j).
    { destruct pw as [|p|p]; [left; reflexivity|lia|right]. unfold ipow, Rdiv. rewrite !Rmult_1_l.
      assert (Hi : 1 <= INR i) by (apply (le_INR 1); lia). assert (Hj : INR i < INR j) by (apply lt_INR; lia). simpl powerRZ.
      pose proof (pow_incr_lt (INR i) (INR j) (Pos.to_nat p) ltac:(lra) ltac:(lia)) as L. pose proof (pow_lt (INR i) (Pos.to_nat p) ltac:(lra)) as L1. pose proof (pow_lt (INR j) (Pos.to_nat p) ltac:(lra)) as L2.
      pose proof (Rinv_0_lt_compat _ L1). pose proof (Rinv_0_lt_compat _ L2).
      assert (/ INR j ^ Pos.to_nat p < / INR i ^ Pos.to_nat p) by (apply Rinv_lt_contravar; [apply Rmult_lt_0_compat; lra|lra]).
      apply Rinv_lt_contravar; [apply Rmult_lt_0_compat; lra|lra]. }
    destruct D as [D|D].
    - rewrite D in Q, Q'. rewrite P in Q. rewrite P' in Q'. injection Q as <-. injection Q' as <-. lra.
    - pose proof (ipow_range pw i ltac:(lia)). pose proof (ipow_range pw j ltac:(lia)).
      pose proof (ppf_monotone t a b (Some lb) None Ht Hlb (Rle_refl _) (ipow pw i) (ipow pw j) _ _ ltac:(lra) ltac:(lra) ltac:(lra) Q P) as M1.
      pose proof (ppf_monotone t (mir - a) (mir - b) (Some mlb) None Ht mlb_lt (Rle_refl _) (ipow pw i) (ipow pw j) _ _ ltac:(lra) ltac:(lra) ltac:(lra) Q' P') as M2.
      simpl in M1, M2. lra.
  Qed.
End Edges.
