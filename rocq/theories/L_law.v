(** Lemmas on the law of computations: uniqueness and the rules to compute it. *)
From Coq Require Import Reals List Bool Arith Lia Lra ClassicalEpsilon FunctionalExtensionality.
From Coquelicot Require Import Hierarchy RInt RInt_analysis RInt_gen Series PSeries Rbar Rcomplements Continuity Derive AutoDerive ElemFct Lim_seq.
From Verif Require Import Base Rng L_rng SpecLaw.
Import ListNotations.
Local Open Scope R_scope.

Ltac req := match goal with |- @eq _ ?a ?b => change (@eq R a b) end.

(** ** Generator hygiene of computations that have a law *)
Definition agree_from (k : nat) (o o' : oracle) : Prop :=
  forall i, (k <= i)%nat -> (forall d, ora_r o i d = ora_r o' i d) /\ (forall d, ora_n o i d = ora_n o' i d).

Lemma mean_counter : forall A (F : res A -> R) m v, mean F m v ->
  forall o k, valid o -> (k <= snd (m o k))%nat.
Proof.
  induction 1 as [m r E | m d f g v E Hf IH Hg | m d f g v E Hne Hf IH Hg]; intros o k Hv.
  - rewrite (E o k Hv). cbn. lia.
  - rewrite (E o k Hv). unfold bind, draw_r.
    pose proof (IH (ora_r o k d) (proj1 Hv k d) o (S k) Hv). lia.
  - rewrite (E o k Hv). unfold bind, draw_n.
    pose proof (IH (ora_n o k d) (proj2 Hv k d Hne) o (S k) Hv). lia.
Qed.

Lemma mean_local : forall A (F : res A -> R) m v, mean F m v ->
  forall o o' k, valid o -> valid o' -> agree_from k o o' -> m o k = m o' k.
Proof.
  induction 1 as [m r E | m d f g v E Hf IH Hg | m d f g v E Hne Hf IH Hg]; intros o o' k Hv Hv' Ha.
  - rewrite (E o k Hv), (E o' k Hv'). reflexivity.
  - rewrite (E o k Hv), (E o' k Hv'). unfold bind, draw_r.
    rewrite <- (proj1 (Ha k (le_n _)) d). apply IH; try assumption.
    + apply (proj1 Hv).
    + intros i Hi. apply Ha. lia.
  - rewrite (E o k Hv), (E o' k Hv'). unfold bind, draw_n.
    rewrite <- (proj2 (Ha k (le_n _)) d). apply IH; try assumption.
    + apply (proj2 Hv); assumption.
    + intros i Hi. apply Ha. lia.
Qed.

(** an oracle with one answer replaced *)
Definition set_r (o : oracle) (k : nat) (d : rdist) (x : R) : oracle :=
  {| ora_r := fun i e => if Nat.eqb i k then (if excluded_middle_informative (e = d) then x else ora_r o i e) else ora_r o i e;
     ora_n := ora_n o |}.
Definition set_n (o : oracle) (k : nat) (d : ndist) (x : nat) : oracle :=
  {| ora_r := ora_r o;
     ora_n := fun i e => if Nat.eqb i k then (if excluded_middle_informative (e = d) then x else ora_n o i e) else ora_n o i e |}.
Lemma set_r_valid : forall o k d x, valid o -> rsupport d x -> valid (set_r o k d x).
Proof.
  intros o k d x [Hr Hn] Hx. split; cbn; intros i e; [|apply Hn].
  destruct (Nat.eqb i k); [|apply Hr]. destruct (excluded_middle_informative (e = d)) as [-> |]; [exact Hx|apply Hr].
Qed.
Lemma set_n_valid : forall o k d x, valid o -> nsupport d x -> valid (set_n o k d x).
Proof.
  intros o k d x [Hr Hn] Hx. split; cbn; intros i e; [apply Hr|].
  destruct (Nat.eqb i k); [|apply Hn]. destruct (excluded_middle_informative (e = d)) as [-> |]; [intros _; exact Hx|apply Hn].
Qed.
Lemma set_r_eq : forall o k d x, ora_r (set_r o k d x) k d = x.
Proof. intros. cbn. rewrite Nat.eqb_refl. destruct (excluded_middle_informative (d = d)); congruence. Qed.
Lemma set_r_ne : forall o k d e x, e <> d -> ora_r (set_r o k d x) k e = ora_r o k e.
Proof. intros. cbn. rewrite Nat.eqb_refl. destruct (excluded_middle_informative (e = d)); congruence. Qed.
Lemma set_n_eq : forall o k d x, ora_n (set_n o k d x) k d = x.
Proof. intros. cbn. rewrite Nat.eqb_refl. destruct (excluded_middle_informative (d = d)); congruence. Qed.
Lemma set_n_ne : forall o k d e x, e <> d -> ora_n (set_n o k d x) k e = ora_n o k e.
Proof. intros. cbn. rewrite Nat.eqb_refl. destruct (excluded_middle_informative (e = d)); congruence. Qed.
Lemma set_r_agree : forall o k d x i, (k < i)%nat -> agree_from i o (set_r o k d x).
Proof.
  intros o k d x i Hi j Hj. split; intros e; cbn; [|reflexivity].
  destruct (Nat.eqb_spec j k); [lia|reflexivity].
Qed.
Lemma set_n_agree : forall o k d x i, (k < i)%nat -> agree_from i o (set_n o k d x).
Proof.
  intros o k d x i Hi j Hj. split; intros e; cbn; [reflexivity|].
  destruct (Nat.eqb_spec j k); [lia|reflexivity].
Qed.
Lemma agree_trans : forall k a b c, agree_from k a b -> agree_from k b c -> agree_from k a c.
Proof.
  intros k a b c H1 H2 i Hi. destruct (H1 i Hi), (H2 i Hi).
  split; intros d; etransitivity; eauto.
Qed.

(** ** Uniqueness of the one-draw means, and normalisation *)
Lemma beta_integral : forall j i, is_RInt (fun x => x ^ i * (1 - x) ^ j) 0 1 (INR (fact i) * INR (fact j) / INR (fact (i + j + 1))).
Proof.
  induction j as [|j IH]; intros i.
  - replace (INR (fact i) * INR (fact 0) / INR (fact (i + 0 + 1))) with (1 ^ S i / INR (S i) - 0 ^ S i / INR (S i)).
    2:{ rewrite Nat.add_0_r, Nat.add_1_r. rewrite fact_simpl, mult_INR. cbn [fact]. rewrite pow1, pow_ne_zero by lia.
        pose proof (INR_fact_neq_0 i). pose proof (not_0_INR (S i) ltac:(lia)). cbn [INR]. field. auto. }
    apply (is_RInt_ext (fun x => x ^ i)); [intros; req; rewrite pow_O; ring|].
    apply (is_RInt_derive (fun x => x ^ S i / INR (S i))).
    + intros x _. auto_derive; [exact Logic.I|]. pose proof (not_0_INR (S i) ltac:(lia)).
      fold (INR (S i)). req. field. exact H.
    + intros x _. apply (ex_derive_continuous (fun x => x ^ i)). auto_derive. exact Logic.I.
  - pose proof (not_0_INR (S i) ltac:(lia)) as Hi.
    assert (D : is_RInt (fun x => INR (S i) * (x ^ i * (1 - x) ^ S j) - INR (S j) * (x ^ S i * (1 - x) ^ j)) 0 1 0).
    { replace 0 with ((fun x => x ^ S i * (1 - x) ^ S j) 1 - (fun x => x ^ S i * (1 - x) ^ S j) 0) at 2.
      2:{ cbv beta. cbn [pow]. req. ring. }
      apply (is_RInt_derive (fun x => x ^ S i * (1 - x) ^ S j)).
      - intros x _. auto_derive; [exact Logic.I|]. change (match i with 0%nat => 1 | S _ => INR i + 1 end) with (INR (S i)). change (match j with 0%nat => 1 | S _ => INR j + 1 end) with (INR (S j)). req. generalize (INR (S i)) (INR (S j)). intros a b. cbn [pow]. unfold Rminus. ring.
      - intros x _. apply (ex_derive_continuous (fun x => INR (S i) * (x ^ i * (1 - x) ^ S j) - INR (S j) * (x ^ S i * (1 - x) ^ j))).
        auto_derive. exact Logic.I. }
    pose proof (is_RInt_scal _ _ _ (INR (S j)) _ (IH (S i))) as E.
    pose proof (is_RInt_plus _ _ _ _ _ _ D E) as P.
    pose proof (is_RInt_scal _ _ _ (/ INR (S i)) _ P) as Q.
    unfold scal, plus in Q; cbn in Q. unfold mult in Q; cbn in Q.
    replace (i + S j + 1)%nat with (S i + j + 1)%nat by lia.
    replace (INR (fact i) * INR (fact (S j)) / INR (fact (S i + j + 1)))
      with (/ INR (S i) * (0 + INR (S j) * (INR (fact (S i)) * INR (fact j) / INR (fact (S i + j + 1))))).
    2:{ rewrite !fact_simpl, !mult_INR. pose proof (INR_fact_neq_0 (i + j + 1)). field. pose proof (not_0_INR (S (i + j + 1)) ltac:(lia)).
        split; [|exact Hi]. replace (S i + j + 1)%nat with (S (i + j + 1)) by lia. rewrite fact_simpl, mult_INR. apply Rmult_integral_contrapositive; auto. }
    refine (is_RInt_ext _ _ _ _ _ _ Q). intros x _. req. cbv beta. cbn [pow]. field. exact Hi.
Qed.
Lemma beta_density_total : forall i j, is_RInt (beta_density i j) 0 1 1.
Proof.
  intros i j. pose proof (is_RInt_scal _ _ _ (INR (fact (i + j + 1)) / (INR (fact i) * INR (fact j))) _ (beta_integral j i)) as H.
  unfold scal in H; cbn in H; unfold mult in H; cbn in H.
  replace 1 with (INR (fact (i + j + 1)) / (INR (fact i) * INR (fact j)) * (INR (fact i) * INR (fact j) / INR (fact (i + j + 1)))) at 2.
  - exact H.
  - pose proof (INR_fact_neq_0 i); pose proof (INR_fact_neq_0 j); pose proof (INR_fact_neq_0 (i + j + 1)). field; auto.
Qed.

Lemma is_RInt_gen_half : forall (f : R -> R) (J : R -> R) (l : R),
  (forall b, 0 < b -> is_RInt f 0 b (J b)) -> is_lim J p_infty l ->
  is_RInt_gen f (at_point 0) (Rbar_locally p_infty) l.
Proof.
  intros f J l HJ HL P HP. unfold filtermapi.
  specialize (HL P HP). unfold filtermap in HL.
  apply (Filter_prod _ _ _ (fun a => a = 0) (fun b => 0 < b /\ P (J b))).
  - reflexivity.
  - apply filter_and; [|exact HL]. exists 0. intros x Hx. exact Hx.
  - intros a b -> [Hb HPb]. exists (J b). split; [apply HJ; exact Hb|exact HPb].
Qed.
Lemma exp_decay_lim : forall s, 0 < s -> is_lim (fun b => exp (- b / s)) p_infty 0.
Proof.
  intros s Hs. apply (is_lim_comp exp (fun b => - b / s) p_infty 0 m_infty).
  - apply is_lim_exp_m.
  - apply (is_lim_ext (fun b => (- / s) * b)); [intros b; req; field; lra|].
    replace m_infty with (Rbar_mult (- / s) p_infty).
    + apply is_lim_scal_l. apply is_lim_id.
    + cbn. assert (- / s < 0) by (pose proof (Rinv_0_lt_compat s Hs); lra).
      destruct (Rle_dec 0 (- / s)); [exfalso; lra|reflexivity].
  - exists 0. intros x _. discriminate.
Qed.
Lemma exp_density_total : forall s, 0 < s ->
  is_RInt_gen (fun x => exp (- x / s) / s) (at_point 0) (Rbar_locally p_infty) 1.
Proof.
  intros s Hs. apply (is_RInt_gen_half _ (fun b => 1 - exp (- b / s))).
  - intros b Hb. replace (1 - exp (- b / s)) with ((fun x => - exp (- x / s)) b - (fun x => - exp (- x / s)) 0).
    2:{ cbv beta. replace (- 0 / s) with 0 by (field; lra). rewrite exp_0. ring. }
    apply (is_RInt_derive (fun x => - exp (- x / s))).
    + intros x _. auto_derive; [exact Logic.I|]. unfold Rdiv. field. lra.
    + intros x _. apply (ex_derive_continuous (fun x => exp (- x / s) / s)). auto_derive. exact Logic.I.
  - replace (Finite 1) with (Rbar_plus (Finite 1) (Rbar_opp (Finite 0))) by (cbn; f_equal; ring).
    apply (is_lim_minus (fun _ => 1) (fun b => exp (- b / s)) p_infty 1 0).
    + apply is_lim_const.
    + apply exp_decay_lim. exact Hs.
    + cbn. reflexivity.
Qed.

Lemma uniform_support : forall lo hi x, lo < hi -> lo < x < hi -> rsupport (DUniform lo hi) x.
Proof.
  intros lo hi x H [H1 H2]. exists ((x - lo) / (hi - lo)). split; [split|].
  - apply Rmult_le_pos; [lra|]. left. apply Rinv_0_lt_compat. lra.
  - apply (Rmult_lt_reg_r (hi - lo)); [lra|]. unfold Rdiv. rewrite Rmult_assoc, Rinv_l by lra. lra.
  - field. lra.
Qed.

Lemma is_RInt_uniq : forall (f : R -> R) a b u v, is_RInt f a b u -> is_RInt f a b v -> u = v.
Proof. intros f a b u v H1 H2. rewrite <- (is_RInt_unique _ _ _ _ H1). apply is_RInt_unique. exact H2. Qed.

(** rules for means under a density given up to a constant *)
Lemma under_unique : forall w Fa Fb (P : R -> Prop) g g' v v', ProperFilter' Fa -> ProperFilter' Fb ->
  filter_prod Fa Fb (fun ab => forall x, Rmin (fst ab) (snd ab) < x < Rmax (fst ab) (snd ab) -> P x) ->
  (forall x, P x -> g x = g' x) -> under w Fa Fb g v -> under w Fa Fb g' v' -> v = v'.
Proof.
  intros w Fa Fb P g g' v v' PA PB HP E (Z & HZ & I0 & I1) (Z' & HZ' & I0' & I1').
  assert (Z = Z') as <- by (rewrite <- (is_RInt_gen_unique _ _ I0); apply is_RInt_gen_unique; exact I0').
  assert (I3 : is_RInt_gen (fun x => w x * g' x) Fa Fb (Z * v)).
  { refine (is_RInt_gen_ext _ _ _ _ I1). eapply filter_imp; [|exact HP]. intros ab H x Hx.
    rewrite (E x (H x Hx)). reflexivity. }
  apply (Rmult_eq_reg_l Z); [|lra]. rewrite <- (is_RInt_gen_unique _ _ I3). apply is_RInt_gen_unique. exact I1'.
Qed.
Lemma under_normal : forall w Fa Fb g v c, ProperFilter' Fa -> ProperFilter' Fb -> under w Fa Fb g v -> under w Fa Fb (fun _ => c) c.
Proof.
  intros w Fa Fb g v c PA PB (Z & HZ & I0 & I1). exists Z. split; [exact HZ|]. split; [exact I0|].
  pose proof (is_RInt_gen_scal _ c _ I0) as P. unfold scal in P; cbn in P; unfold mult in P; cbn in P.
  rewrite Rmult_comm. refine (is_RInt_gen_ext _ _ _ _ P). apply filter_forall. intros p x _. req. ring.
Qed.
Lemma under_scal : forall w Fa Fb g v c, ProperFilter' Fa -> ProperFilter' Fb ->
  under w Fa Fb g v -> under w Fa Fb (fun x => c * g x) (c * v).
Proof.
  intros w Fa Fb g v c PA PB (Z & HZ & I0 & I1). exists Z. split; [exact HZ|]. split; [exact I0|].
  pose proof (is_RInt_gen_scal _ c _ I1) as P. unfold scal in P; cbn in P; unfold mult in P; cbn in P.
  replace (Z * (c * v)) with (c * (Z * v)) by ring. refine (is_RInt_gen_ext _ _ _ _ P). apply filter_forall. intros p x _. req. ring.
Qed.
Lemma under_plus : forall w Fa Fb g g' v v', ProperFilter' Fa -> ProperFilter' Fb ->
  under w Fa Fb g v -> under w Fa Fb g' v' -> under w Fa Fb (fun x => g x + g' x) (v + v').
Proof.
  intros w Fa Fb g g' v v' PA PB (Z & HZ & I0 & I1) (Z' & HZ' & I0' & I1').
  assert (Z = Z') as <- by (rewrite <- (is_RInt_gen_unique _ _ I0); apply is_RInt_gen_unique; exact I0').
  exists Z. split; [exact HZ|]. split; [exact I0|].
  pose proof (is_RInt_gen_plus _ _ _ _ I1 I1') as P. unfold plus in P; cbn in P.
  rewrite Rmult_plus_distr_l. refine (is_RInt_gen_ext _ _ _ _ P). apply filter_forall. intros p x _. req. ring.
Qed.
Lemma is_RInt_gen_pos : forall (f : R -> R) Fa Fb v, ProperFilter Fa -> ProperFilter Fb ->
  filter_prod Fa Fb (fun ab => fst ab <= snd ab) ->
  filter_prod Fa Fb (fun ab => forall x, Rmin (fst ab) (snd ab) < x < Rmax (fst ab) (snd ab) -> 0 <= f x) ->
  is_RInt_gen f Fa Fb v -> 0 <= v.
Proof.
  intros f Fa Fb v PA PB HO HP I1. set (h := fun x => Rabs (f x)).
  assert (I2 : is_RInt_gen h Fa Fb v).
  { refine (is_RInt_gen_ext _ _ _ _ I1). eapply filter_imp; [|exact HP]. intros ab H x Hx. unfold h. rewrite Rabs_pos_eq; [reflexivity|apply H; exact Hx]. }
  pose proof (RInt_gen_norm h h v v HO) as P. unfold norm in P. cbn in P. unfold abs in P. cbn in P.
  pose proof (Rabs_pos v). assert (Rabs v <= v); [|lra]. apply P; [|exact I2|exact I2].
  apply filter_forall. intros ab x _. unfold h. rewrite Rabs_Rabsolu. lra.
Qed.
Lemma under_pos : forall w Fa Fb (P : R -> Prop) g v, ProperFilter Fa -> ProperFilter Fb ->
  filter_prod Fa Fb (fun ab => fst ab <= snd ab) ->
  filter_prod Fa Fb (fun ab => forall x, Rmin (fst ab) (snd ab) < x < Rmax (fst ab) (snd ab) -> P x) ->
  (forall x, 0 <= w x) -> (forall x, P x -> 0 <= g x) -> under w Fa Fb g v -> 0 <= v.
Proof.
  intros w Fa Fb P g v PA PB HO HP Hw Hg (Z & HZ & I0 & I1).
  assert (0 <= Z * v).
  { apply (is_RInt_gen_pos (fun x => w x * g x) Fa Fb _ PA PB HO); [|exact I1]. eapply filter_imp; [|exact HP]. intros ab H x Hx.
    apply Rmult_le_pos; [apply Hw|apply Hg, H; exact Hx]. }
  apply (Rmult_le_reg_l Z); lra.
Qed.
Lemma below_above : filter_prod (Rbar_locally m_infty) (Rbar_locally p_infty) (fun ab : R * R => fst ab <= snd ab).
Proof.
  apply (Filter_prod _ _ _ (fun a => a < 0) (fun b => 0 < b)); [exists 0; auto|exists 0; auto|]. intros a b Ha Hb. cbn. lra.
Qed.
Lemma right_above : filter_prod (at_right 0) (Rbar_locally p_infty) (fun ab : R * R => 0 < fst ab <= snd ab).
Proof.
  apply (Filter_prod _ _ _ (fun a => 0 < a < 1) (fun b => 1 < b)); [|exists 1; auto|].
  - exists (mkposreal 1 Rlt_0_1). intros y Hy Hy'. unfold ball in Hy. cbn in Hy. unfold AbsRing_ball, abs, minus, plus, opp in Hy. cbn in Hy.
    apply Rabs_lt_between in Hy. lra.
  - intros a b Ha Hb. cbn. lra.
Qed.
Lemma right_above_pos : filter_prod (at_right 0) (Rbar_locally p_infty)
  (fun ab : R * R => forall x, Rmin (fst ab) (snd ab) < x < Rmax (fst ab) (snd ab) -> 0 < x).
Proof.
  eapply filter_imp; [|exact right_above]. intros ab H x. rewrite Rmin_left, Rmax_right by lra. lra.
Qed.
Lemma everywhere : forall Fa Fb, ProperFilter' Fa -> ProperFilter' Fb -> filter_prod Fa Fb
  (fun ab : R * R => forall x, Rmin (fst ab) (snd ab) < x < Rmax (fst ab) (snd ab) -> True).
Proof. intros Fa Fb PA PB. apply filter_forall. auto. Qed.

Lemma expect_r_unique : forall d g g' v v', (forall x, rsupport d x -> g x = g' x) ->
  expect_r d g v -> expect_r d g' v' -> v = v'.
Proof.
  intros [lo hi|s|a b| | | |] g g' v v' E; cbn [expect_r]; try contradiction.
  - intros [H1 I1] [_ I2].
    assert (I3 : is_RInt g' lo hi ((hi - lo) * v)).
    { refine (is_RInt_ext _ _ _ _ _ _ I1). rewrite Rmin_left, Rmax_right by lra.
      intros x Hx. apply E. apply uniform_support; assumption. }
    pose proof (is_RInt_uniq _ _ _ _ _ I2 I3). apply (Rmult_eq_reg_l (hi - lo)); lra.
  - intros [H1 I1] [_ I2].
    assert (I3 : is_RInt_gen (fun x => exp (- x / s) / s * g' x) (at_point 0) (Rbar_locally p_infty) v).
    { refine (is_RInt_gen_ext _ _ _ _ I1).
      apply (Filter_prod _ _ _ (fun a => a = 0) (fun b => 0 < b)); [reflexivity|exists 0; intros x Hx; exact Hx|].
      intros a b -> Hb x. cbn [fst snd]. rewrite Rmin_left, Rmax_right by lra. intros Hx.
      rewrite E; [reflexivity|]. cbn. lra. }
    rewrite <- (is_RInt_gen_unique _ _ I2). symmetry. rewrite <- (is_RInt_gen_unique _ _ I3). reflexivity.
  - intros (i & j & Ha & Hb & I1) (i' & j' & Ha' & Hb' & I2).
    assert (i = i') as <- by (apply INR_eq; lra). assert (j = j') as <- by (apply INR_eq; lra).
    assert (I3 : is_RInt (fun x => beta_density i j x * g' x) 0 1 v).
    { refine (is_RInt_ext _ _ _ _ _ _ I1). rewrite Rmin_left, Rmax_right by lra.
      intros x Hx. rewrite E; [reflexivity|]. cbn. lra. }
    symmetry. apply (is_RInt_uniq _ _ _ _ _ I2 I3).
  - apply (under_unique _ _ _ (fun _ => True)); [typeclasses eauto|typeclasses eauto|apply everywhere; typeclasses eauto|].
    intros x _. apply E. exact Logic.I.
  - intros [(Ha & Hs & I1)|(Ha & Hs & I1)] [(Ha' & Hs' & I2)|(Ha' & Hs' & I2)]; try (exfalso; lra).
    + revert I1 I2. apply (under_unique _ _ _ (fun x => 0 < x)); [typeclasses eauto|typeclasses eauto|apply right_above_pos|].
      intros x Hx. apply E. cbn. auto.
    + rewrite <- (I1 1), <- (I2 1). apply E. cbn. lra.
  - intros (Ha & Hs & I1) (_ & _ & I2). revert I1 I2.
    apply (under_unique _ _ _ (fun x => 0 < x)); [typeclasses eauto|typeclasses eauto|apply right_above_pos|].
    intros x Hx. apply E. cbn. auto.
Qed.
Lemma expect_r_normal : forall d g v c, expect_r d g v -> expect_r d (fun _ => c) c.
Proof.
  intros [lo hi|s|a b| | | |] g v c; cbn [expect_r]; try contradiction.
  - intros [H _]. split; [exact H|]. exact (is_RInt_const lo hi c).
  - intros [H _]. split; [exact H|].
    pose proof (is_RInt_gen_scal _ c _ (exp_density_total s H)) as P. unfold scal in P; cbn in P; unfold mult in P; cbn in P.
    rewrite Rmult_1_r in P. refine (is_RInt_gen_ext _ _ _ _ P).
    apply filter_forall. intros p x _. req. ring.
  - intros (i & j & Ha & Hb & _). exists i, j. split; [exact Ha|]. split; [exact Hb|].
    pose proof (is_RInt_scal _ _ _ c _ (beta_density_total i j)) as P. unfold scal in P; cbn in P; unfold mult in P; cbn in P.
    rewrite Rmult_1_r in P. refine (is_RInt_ext _ _ _ _ _ _ P). intros x _. req. ring.
  - apply under_normal; typeclasses eauto.
  - intros [(Ha & Hs & I1)|(Ha & Hs & I1)]; [left|right; auto]. split; [exact Ha|]. split; [exact Hs|]. revert I1. apply under_normal; typeclasses eauto.
  - intros (Ha & Hs & I1). split; [exact Ha|]. split; [exact Hs|]. revert I1. apply under_normal; typeclasses eauto.
Qed.
Lemma expect_r_const : forall d g v c, (forall x, rsupport d x -> g x = c) -> expect_r d g v -> v = c.
Proof. intros d g v c E H. exact (expect_r_unique d g (fun _ => c) v c E H (expect_r_normal d g v c H)). Qed.

Lemma exp_series : forall x, is_series (fun n => x ^ n / INR (fact n)) (exp x).
Proof.
  intros x. pose proof (is_exp_Reals x) as H. unfold is_pseries in H.
  refine (is_series_ext _ _ _ _ H). intros n. unfold scal; cbn; unfold mult; cbn. rewrite pow_n_pow. unfold Rdiv. reflexivity.
Qed.
Lemma is_series_uniq : forall (f : nat -> R) u v, is_series f u -> is_series f v -> u = v.
Proof. intros f u v H1 H2. rewrite <- (is_series_unique _ _ H1). apply is_series_unique. exact H2. Qed.
Lemma expect_n_unique : forall d g g' v v', (forall x, nsupport d x -> g x = g' x) ->
  expect_n d g v -> expect_n d g' v' -> v = v'.
Proof.
  intros [lam|p|m] g g' v v' E; cbn [expect_n].
  - intros [H1 I1] [_ I2].
    assert (I3 : is_series (fun n => exp (- lam) * (lam ^ n / INR (fact n)) * g' n) v).
    { refine (is_series_ext _ _ _ _ I1). intros n.
      destruct (Req_dec lam 0) as [-> | Hl].
      - destruct n as [|n]; [rewrite E; [reflexivity|cbn; auto]|]. req. rewrite pow_ne_zero by lia. unfold Rdiv. ring.
      - rewrite E; [reflexivity|]. cbn. intros X. contradiction. }
    symmetry. apply (is_series_uniq _ _ _ I2 I3).
  - intros [H1 ->] [_ ->]. f_equal. apply map_ext_in. intros i Hi. apply in_seq in Hi.
    unfold is_prob_vector in H1. apply andb_true_iff in H1 as [H1 _]. rewrite forallb_forall in H1.
    assert (Hl : (i < length p)%nat) by (clear - Hi; cbn in Hi; destruct Hi as [_ Hi]; exact Hi). pose proof (H1 (nth i p 0) (nth_In p 0 Hl)) as H0. unfold Rleb in H0. destruct (Rle_dec 0 (nth i p 0)); [|discriminate].
    destruct (Rle_lt_or_eq_dec _ _ r) as [Hp|Hp]; [rewrite E; [reflexivity|exact Hp]|]. rewrite <- Hp. ring.
  - intros [H1 ->] [_ ->]. f_equal. f_equal. apply map_ext_in. intros i Hi. apply in_seq in Hi. apply E. cbn. intros _. lia.
Qed.
Lemma sum_nth : forall (p : list R) c, fold_right Rplus 0 (map (fun i => nth i p 0 * c) (seq 0 (length p))) = fold_right Rplus 0 p * c.
Proof.
  induction p as [|a p IH]; intros c; cbn; [ring|]. rewrite <- seq_shift, map_map. rewrite IH. ring.
Qed.
Lemma sum_const : forall (l : list nat) c, fold_right Rplus 0 (map (fun _ => c) l) = INR (length l) * c.
Proof. induction l as [|a l IH]; intros c; [cbn; ring|]. cbn [map fold_right length]. rewrite IH, S_INR. ring. Qed.
Lemma poisson_total : forall lam c, is_series (fun n => exp (- lam) * (lam ^ n / INR (fact n)) * c) c.
Proof.
  intros lam c. pose proof (is_series_scal (exp (- lam) * c) _ _ (exp_series lam)) as P. unfold scal in P; cbn in P; unfold mult in P; cbn in P.
  replace (exp (- lam) * c * exp lam) with c in P by (replace (exp (- lam) * c * exp lam) with (exp (- lam) * exp lam * c) by ring; rewrite <- exp_plus, Rplus_opp_l, exp_0; ring).
  refine (is_series_ext _ _ _ _ P). intros n. req. ring.
Qed.
Lemma expect_n_normal : forall d g v c, expect_n d g v -> expect_n d (fun _ => c) c.
Proof.
  intros [lam|p|m] g v c; cbn [expect_n].
  - intros [H _]. split; [exact H|]. apply poisson_total.
  - intros [H _]. split; [exact H|]. rewrite sum_nth. unfold is_prob_vector in H. apply andb_true_iff in H as [_ H].
    unfold Reqb in H. destruct (Req_EM_T (fold_right Rplus 0 p) 1) as [-> |]; [ring|discriminate].
  - intros [H _]. split; [exact H|]. rewrite sum_const, seq_length. field. apply not_0_INR. lia.
Qed.
Lemma expect_n_const : forall d g v c, (forall x, nsupport d x -> g x = c) -> expect_n d g v -> v = c.
Proof. intros d g v c E H. exact (expect_n_unique d g (fun _ => c) v c E H (expect_n_normal d g v c H)). Qed.

(** some valid oracle *)
Lemma rsupport_inh : forall d, exists x, rsupport d x.
Proof.
  intros [lo hi|s|a b| |a b|a b|]; cbn.
  - exists lo, 0. split; [lra|ring].
  - exists 1. lra.
  - exists (1 / 2). lra.
  - exists 0. exact Logic.I.
  - exists 1. lra.
  - exists 1. lra.
  - exists 1. lra.
Qed.
Lemma nsupport_inh : forall d, nonempty_n d -> exists x, nsupport d x.
Proof.
  intros [lam|p|m]; cbn; intros H.
  - exists 0%nat. reflexivity.
  - exact H.
  - exists 0%nat. auto.
Qed.
Lemma valid_inh : exists o, valid o.
Proof.
  exists {| ora_r := fun _ d => proj1_sig (constructive_indefinite_description _ (rsupport_inh d));
            ora_n := fun _ d => match excluded_middle_informative (nonempty_n d) with
                                | left H => proj1_sig (constructive_indefinite_description _ (nsupport_inh d H)) | right _ => 0%nat end |}.
  split; cbn; intros k d.
  - apply (proj2_sig (constructive_indefinite_description _ (rsupport_inh d))).
  - intros H. destruct (excluded_middle_informative (nonempty_n d)); [|contradiction].
    apply (proj2_sig (constructive_indefinite_description _ (nsupport_inh d n))).
Qed.

Lemma mean_unique_from : forall A (F : res A -> R) m v, mean F m v -> forall m' v', mean F m' v' ->
  forall k0, (forall o k, valid o -> (k0 <= k)%nat -> m o k = m' o k) -> v = v'.
Proof.
  intros A F m v H.
  induction H as [m r E | m d f g v E Hf IH Hg | m d f g v E Hne Hf IH Hg]; intros m' v' H'.
  - destruct H' as [m' r' E' | m' d' f' g' v' E' Hf' Hg' | m' d' f' g' v' E' Hne' Hf' Hg']; intros k0 EQ;
      destruct valid_inh as [o Ho]; specialize (EQ o k0 Ho (le_n _)); rewrite (E o k0 Ho), (E' o k0 Ho) in EQ.
    + injection EQ as ->. reflexivity.
    + exfalso. unfold bind, draw_r in EQ. pose proof (mean_counter _ _ _ _ (Hf' _ (proj1 Ho k0 d')) o (S k0) Ho) as C.
      rewrite <- EQ in C. cbn in C. lia.
    + exfalso. unfold bind, draw_n in EQ. pose proof (mean_counter _ _ _ _ (Hf' _ (proj2 Ho k0 d' Hne')) o (S k0) Ho) as C.
      rewrite <- EQ in C. cbn in C. lia.
  - destruct H' as [m' r' E' | m' d' f' g' v' E' Hf' Hg' | m' d' f' g' v' E' Hne' Hf' Hg']; intros k0 EQ.
    + exfalso. destruct valid_inh as [o Ho]; specialize (EQ o k0 Ho (le_n _)); rewrite (E o k0 Ho), (E' o k0 Ho) in EQ.
      unfold bind, draw_r in EQ. pose proof (mean_counter _ _ _ _ (Hf _ (proj1 Ho k0 d)) o (S k0) Ho) as C.
      rewrite EQ in C. cbn in C. lia.
    + destruct (excluded_middle_informative (d' = d)) as [-> | ND].
      * apply (expect_r_unique d g g' v v'); [|exact Hg|exact Hg']. intros x Hx.
        apply (IH x Hx (f' x) (g' x) (Hf' x Hx) (S k0)). intros o k Ho Hk.
        destruct k as [|k]; [lia|]. pose proof (set_r_valid o k d x Ho Hx) as Ho2.
        specialize (EQ (set_r o k d x) k Ho2 ltac:(lia)). rewrite (E _ k Ho2), (E' _ k Ho2) in EQ.
        unfold bind, draw_r in EQ. rewrite set_r_eq in EQ.
        rewrite (mean_local _ _ _ _ (Hf x Hx) o (set_r o k d x) (S k) Ho Ho2 (set_r_agree o k d x (S k) (Nat.lt_succ_diag_r k))).
        rewrite (mean_local _ _ _ _ (Hf' x Hx) o (set_r o k d x) (S k) Ho Ho2 (set_r_agree o k d x (S k) (Nat.lt_succ_diag_r k))).
        exact EQ.
      * assert (C : forall x x', rsupport d x -> rsupport d' x' -> g x = g' x').
        { intros x x' Hx Hx'. apply (IH x Hx (f' x') (g' x') (Hf' x' Hx') (S k0)). intros o k Ho Hk.
          destruct k as [|k]; [lia|]. pose proof (set_r_valid o k d x Ho Hx) as Ho2.
          pose proof (set_r_valid _ k d' x' Ho2 Hx') as Ho3. set (o3 := set_r (set_r o k d x) k d' x') in *.
          specialize (EQ o3 k Ho3 ltac:(lia)). rewrite (E _ k Ho3), (E' _ k Ho3) in EQ.
          unfold bind, draw_r in EQ. unfold o3 in EQ at 1. rewrite set_r_ne, set_r_eq in EQ by congruence.
          unfold o3 in EQ at 2. rewrite set_r_eq in EQ.
          assert (AG : agree_from (S k) o o3) by (apply (agree_trans _ _ (set_r o k d x)); apply set_r_agree; lia).
          rewrite (mean_local _ _ _ _ (Hf x Hx) o o3 (S k) Ho Ho3 AG).
          rewrite (mean_local _ _ _ _ (Hf' x' Hx') o o3 (S k) Ho Ho3 AG). exact EQ. }
        destruct (rsupport_inh d') as [x' Hx']. destruct (rsupport_inh d) as [x Hx].
        rewrite (expect_r_const d g v (g' x') (fun y Hy => C y x' Hy Hx') Hg).
        symmetry. rewrite (expect_r_const d' g' v' (g x) (fun y Hy => eq_sym (C x y Hx Hy)) Hg'). apply C; assumption.
    + assert (C : forall x x', rsupport d x -> nsupport d' x' -> g x = g' x').
      { intros x x' Hx Hx'. apply (IH x Hx (f' x') (g' x') (Hf' x' Hx') (S k0)). intros o k Ho Hk.
        destruct k as [|k]; [lia|]. pose proof (set_r_valid o k d x Ho Hx) as Ho2.
        pose proof (set_n_valid _ k d' x' Ho2 Hx') as Ho3. set (o3 := set_n (set_r o k d x) k d' x') in *.
        specialize (EQ o3 k Ho3 ltac:(lia)). rewrite (E _ k Ho3), (E' _ k Ho3) in EQ.
        unfold bind, draw_r, draw_n in EQ. unfold o3 in EQ at 1. change (ora_r (set_n (set_r o k d x) k d' x') k d) with (ora_r (set_r o k d x) k d) in EQ.
        rewrite set_r_eq in EQ. unfold o3 in EQ at 2. rewrite set_n_eq in EQ.
        assert (AG : agree_from (S k) o o3) by (apply (agree_trans _ _ (set_r o k d x)); [apply set_r_agree|apply set_n_agree]; lia).
        rewrite (mean_local _ _ _ _ (Hf x Hx) o o3 (S k) Ho Ho3 AG).
        rewrite (mean_local _ _ _ _ (Hf' x' Hx') o o3 (S k) Ho Ho3 AG). exact EQ. }
      destruct (nsupport_inh d' Hne') as [x' Hx']. destruct (rsupport_inh d) as [x Hx].
      rewrite (expect_r_const d g v (g' x') (fun y Hy => C y x' Hy Hx') Hg).
      symmetry. rewrite (expect_n_const d' g' v' (g x) (fun y Hy => eq_sym (C x y Hx Hy)) Hg'). apply C; assumption.
  - destruct H' as [m' r' E' | m' d' f' g' v' E' Hf' Hg' | m' d' f' g' v' E' Hne' Hf' Hg']; intros k0 EQ.
    + exfalso. destruct valid_inh as [o Ho]; specialize (EQ o k0 Ho (le_n _)); rewrite (E o k0 Ho), (E' o k0 Ho) in EQ.
      unfold bind, draw_n in EQ. pose proof (mean_counter _ _ _ _ (Hf _ (proj2 Ho k0 d Hne)) o (S k0) Ho) as C.
      rewrite EQ in C. cbn in C. lia.
    + assert (C : forall x x', nsupport d x -> rsupport d' x' -> g x = g' x').
      { intros x x' Hx Hx'. apply (IH x Hx (f' x') (g' x') (Hf' x' Hx') (S k0)). intros o k Ho Hk.
        destruct k as [|k]; [lia|]. pose proof (set_n_valid o k d x Ho Hx) as Ho2.
        pose proof (set_r_valid _ k d' x' Ho2 Hx') as Ho3. set (o3 := set_r (set_n o k d x) k d' x') in *.
        specialize (EQ o3 k Ho3 ltac:(lia)). rewrite (E _ k Ho3), (E' _ k Ho3) in EQ.
        unfold bind, draw_r, draw_n in EQ. unfold o3 in EQ at 1. change (ora_n (set_r (set_n o k d x) k d' x') k d) with (ora_n (set_n o k d x) k d) in EQ.
        rewrite set_n_eq in EQ. unfold o3 in EQ at 2. rewrite set_r_eq in EQ.
        assert (AG : agree_from (S k) o o3) by (apply (agree_trans _ _ (set_n o k d x)); [apply set_n_agree|apply set_r_agree]; lia).
        rewrite (mean_local _ _ _ _ (Hf x Hx) o o3 (S k) Ho Ho3 AG).
        rewrite (mean_local _ _ _ _ (Hf' x' Hx') o o3 (S k) Ho Ho3 AG). exact EQ. }
      destruct (rsupport_inh d') as [x' Hx']. destruct (nsupport_inh d Hne) as [x Hx].
      rewrite (expect_n_const d g v (g' x') (fun y Hy => C y x' Hy Hx') Hg).
      symmetry. rewrite (expect_r_const d' g' v' (g x) (fun y Hy => eq_sym (C x y Hx Hy)) Hg'). apply C; assumption.
    + destruct (excluded_middle_informative (d' = d)) as [-> | ND].
      * apply (expect_n_unique d g g' v v'); [|exact Hg|exact Hg']. intros x Hx.
        apply (IH x Hx (f' x) (g' x) (Hf' x Hx) (S k0)). intros o k Ho Hk.
        destruct k as [|k]; [lia|]. pose proof (set_n_valid o k d x Ho Hx) as Ho2.
        specialize (EQ (set_n o k d x) k Ho2 ltac:(lia)). rewrite (E _ k Ho2), (E' _ k Ho2) in EQ.
        unfold bind, draw_n in EQ. rewrite set_n_eq in EQ.
        rewrite (mean_local _ _ _ _ (Hf x Hx) o (set_n o k d x) (S k) Ho Ho2 (set_n_agree o k d x (S k) (Nat.lt_succ_diag_r k))).
        rewrite (mean_local _ _ _ _ (Hf' x Hx) o (set_n o k d x) (S k) Ho Ho2 (set_n_agree o k d x (S k) (Nat.lt_succ_diag_r k))).
        exact EQ.
      * assert (C : forall x x', nsupport d x -> nsupport d' x' -> g x = g' x').
        { intros x x' Hx Hx'. apply (IH x Hx (f' x') (g' x') (Hf' x' Hx') (S k0)). intros o k Ho Hk.
          destruct k as [|k]; [lia|]. pose proof (set_n_valid o k d x Ho Hx) as Ho2.
          pose proof (set_n_valid _ k d' x' Ho2 Hx') as Ho3. set (o3 := set_n (set_n o k d x) k d' x') in *.
          specialize (EQ o3 k Ho3 ltac:(lia)). rewrite (E _ k Ho3), (E' _ k Ho3) in EQ.
          unfold bind, draw_n in EQ. unfold o3 in EQ at 1. rewrite set_n_ne, set_n_eq in EQ by congruence.
          unfold o3 in EQ at 2. rewrite set_n_eq in EQ.
          assert (AG : agree_from (S k) o o3) by (apply (agree_trans _ _ (set_n o k d x)); apply set_n_agree; lia).
          rewrite (mean_local _ _ _ _ (Hf x Hx) o o3 (S k) Ho Ho3 AG).
          rewrite (mean_local _ _ _ _ (Hf' x' Hx') o o3 (S k) Ho Ho3 AG). exact EQ. }
        destruct (nsupport_inh d' Hne') as [x' Hx']. destruct (nsupport_inh d Hne) as [x Hx].
        rewrite (expect_n_const d g v (g' x') (fun y Hy => C y x' Hy Hx') Hg).
        symmetry. rewrite (expect_n_const d' g' v' (g x) (fun y Hy => eq_sym (C x y Hx Hy)) Hg'). apply C; assumption.
Qed.
Lemma mean_unique : forall A (F : res A -> R) m v v', mean F m v -> mean F m v' -> v = v'.
Proof. intros A F m v v' H H'. exact (mean_unique_from A F m v H m v' H' 0 (fun _ _ _ _ => eq_refl)). Qed.
