(** Linearity of the mean. *)
From Coq Require Import Reals List Bool Arith Lia Lra ClassicalEpsilon.
From Coquelicot Require Import Hierarchy RInt RInt_analysis RInt_gen Series Rbar Lim_seq.
From Verif Require Import Base Rng L_rng SpecLaw L_law L_law2.
Import ListNotations.
Local Open Scope R_scope.

Definition shift (o : oracle) : oracle := {| ora_r := fun i => ora_r o (S i); ora_n := fun i => ora_n o (S i) |}.
Definition unshift (o : oracle) : oracle := {| ora_r := fun i => ora_r o (Nat.pred i); ora_n := fun i => ora_n o (Nat.pred i) |}.
Lemma shift_valid : forall o, valid o -> valid (shift o).
Proof. intros o [H1 H2]. split; cbn; auto. Qed.
Lemma unshift_valid : forall o, valid o -> valid (unshift o).
Proof. intros o [H1 H2]. split; cbn; auto. Qed.
Lemma shift_unshift : forall o, shift (unshift o) = o.
Proof. intros [r n]. reflexivity. Qed.

Lemma mean_shift : forall A (F : res A -> R) m v, mean F m v ->
  forall o k, valid o -> m o (S k) = (fst (m (shift o) k), S (snd (m (shift o) k))).
Proof.
  induction 1 as [m r E | m d f g v E Hf IH Hg | m d f g v E Hne Hf IH Hg]; intros o k Hv.
  - rewrite (E o (S k) Hv), (E (shift o) k (shift_valid o Hv)). reflexivity.
  - rewrite (E o (S k) Hv), (E (shift o) k (shift_valid o Hv)). unfold bind, draw_r.
    change (ora_r (shift o) k d) with (ora_r o (S k) d). apply IH; [apply (proj1 Hv)|exact Hv].
  - rewrite (E o (S k) Hv), (E (shift o) k (shift_valid o Hv)). unfold bind, draw_n.
    change (ora_n (shift o) k d) with (ora_n o (S k) d). apply IH; [apply (proj2 Hv); exact Hne|exact Hv].
Qed.
Lemma agree_everywhere : forall A (F F' : res A -> R) m m' v v', mean F m v -> mean F' m' v' ->
  forall k0, (forall o k, valid o -> (k0 <= k)%nat -> m o k = m' o k) -> forall o k, valid o -> m o k = m' o k.
Proof.
  intros A F F' m m' v v' H H'. induction k0 as [|k0 IH]; intros E.
  - intros o k Ho. apply E; [exact Ho|lia].
  - apply IH. intros o k Ho Hk. pose proof (unshift_valid o Ho) as Hu.
    specialize (E (unshift o) (S k) Hu ltac:(lia)).
    rewrite (mean_shift _ _ _ _ H _ k Hu), (mean_shift _ _ _ _ H' _ k Hu), shift_unshift in E.
    injection E as E1 E2. destruct (m o k), (m' o k). cbn in *. congruence.
Qed.

Lemma expect_r_plus : forall d g g' v v', expect_r d g v -> expect_r d g' v' -> expect_r d (fun x => g x + g' x) (v + v').
Proof.
  intros [lo hi|s|a b| | | |] g g' v v'; cbn [expect_r]; try contradiction.
  - intros [H I1] [_ I2]. split; [exact H|]. rewrite Rmult_plus_distr_l. exact (is_RInt_plus _ _ _ _ _ _ I1 I2).
  - intros [H I1] [_ I2]. split; [exact H|].
    refine (is_RInt_gen_ext _ _ _ _ (is_RInt_gen_plus _ _ _ _ I1 I2)).
    apply filter_forall. intros p x _. unfold plus; cbn. req. ring.
  - intros (i & j & Ha & Hb & I1) (i' & j' & Ha' & Hb' & I2).
    assert (i = i') as <- by (apply INR_eq; lra). assert (j = j') as <- by (apply INR_eq; lra).
    exists i, j. split; [exact Ha|]. split; [exact Hb|].
    refine (is_RInt_ext _ _ _ _ _ _ (is_RInt_plus _ _ _ _ _ _ I1 I2)). intros x _. unfold plus; cbn. req. ring.
  - apply under_plus; typeclasses eauto.
  - intros [(Ha & Hs & I1)|(Ha & Hs & I1)] [(Ha' & Hs' & I2)|(Ha' & Hs' & I2)]; try (exfalso; lra); [left|right]; (split; [exact Ha|]; split; [exact Hs|]).
    + revert I1 I2. apply under_plus; typeclasses eauto.
    + intros x. rewrite I1, I2. reflexivity.
  - intros (Ha & Hs & I1) (_ & _ & I2). split; [exact Ha|]. split; [exact Hs|]. revert I1 I2. apply under_plus; typeclasses eauto.
Qed.
Lemma sum_plus : forall (f g : nat -> R) l, fold_right Rplus 0 (map (fun x => f x + g x) l) = fold_right Rplus 0 (map f l) + fold_right Rplus 0 (map g l).
Proof. induction l as [|a l IH]; cbn; [ring|]. rewrite IH. ring. Qed.
Lemma expect_n_plus : forall d g g' v v', expect_n d g v -> expect_n d g' v' -> expect_n d (fun x => g x + g' x) (v + v').
Proof.
  intros [lam|p|m] g g' v v'; cbn [expect_n].
  - intros [H I1] [_ I2]. split; [exact H|].
    refine (is_series_ext _ _ _ _ (is_series_plus _ _ _ _ I1 I2)). intros n. unfold plus; cbn. req. ring.
  - intros [H ->] [_ ->]. split; [exact H|]. rewrite <- sum_plus. f_equal. apply map_ext. intros i. ring.
  - intros [H ->] [_ ->]. split; [exact H|]. rewrite sum_plus. field. apply not_0_INR. lia.
Qed.

(** what two decompositions of the same computation have in common *)
Lemma cross_rr : forall A (F G : res A -> R) m d f g d' f' g',
  (forall o k, valid o -> m o k = bind (draw_r d) f o k) -> (forall x, rsupport d x -> mean F (f x) (g x)) ->
  (forall o k, valid o -> m o k = bind (draw_r d') f' o k) -> (forall x, rsupport d' x -> mean G (f' x) (g' x)) ->
  forall x x', rsupport d x -> rsupport d' x' -> (d' = d -> x' = x) -> mean G (f x) (g' x').
Proof.
  intros A F G m d f g d' f' g' E Hf E' Hf' x x' Hx Hx' HD.
  apply (mean_ext _ G (f' x') (f x)); [|apply Hf'; exact Hx'].
  apply (agree_everywhere _ F G _ _ _ _ (Hf x Hx) (Hf' x' Hx') 1). intros o k Ho Hk.
  destruct k as [|k]; [lia|]. pose proof (set_r_valid o k d x Ho Hx) as Ho2.
  pose proof (set_r_valid _ k d' x' Ho2 Hx') as Ho3. set (o3 := set_r (set_r o k d x) k d' x') in *.
  pose proof (E o3 k Ho3) as E1. rewrite (E' o3 k Ho3) in E1. unfold bind, draw_r in E1.
  assert (R1 : ora_r o3 k d = x).
  { unfold o3. destruct (excluded_middle_informative (d = d')) as [ED|ND].
    - rewrite ED, set_r_eq. apply HD. congruence.
    - rewrite set_r_ne by exact ND. apply set_r_eq. }
  assert (R2 : ora_r o3 k d' = x') by apply set_r_eq. rewrite R1, R2 in E1.
  assert (AG : agree_from (S k) o o3) by (apply (agree_trans _ _ (set_r o k d x)); apply set_r_agree; lia).
  rewrite (mean_local _ _ _ _ (Hf x Hx) o o3 (S k) Ho Ho3 AG).
  rewrite (mean_local _ _ _ _ (Hf' x' Hx') o o3 (S k) Ho Ho3 AG). symmetry. exact E1.
Qed.
Lemma cross_rn : forall A (F G : res A -> R) m d f g d' f' g',
  (forall o k, valid o -> m o k = bind (draw_r d) f o k) -> (forall x, rsupport d x -> mean F (f x) (g x)) ->
  (forall o k, valid o -> m o k = bind (draw_n d') f' o k) -> (forall x, nsupport d' x -> mean G (f' x) (g' x)) ->
  forall x x', rsupport d x -> nsupport d' x' -> mean G (f x) (g' x').
Proof.
  intros A F G m d f g d' f' g' E Hf E' Hf' x x' Hx Hx'.
  apply (mean_ext _ G (f' x') (f x)); [|apply Hf'; exact Hx'].
  apply (agree_everywhere _ F G _ _ _ _ (Hf x Hx) (Hf' x' Hx') 1). intros o k Ho Hk.
  destruct k as [|k]; [lia|]. pose proof (set_r_valid o k d x Ho Hx) as Ho2.
  pose proof (set_n_valid _ k d' x' Ho2 Hx') as Ho3. set (o3 := set_n (set_r o k d x) k d' x') in *.
  pose proof (E o3 k Ho3) as E1. rewrite (E' o3 k Ho3) in E1. unfold bind, draw_r, draw_n in E1.
  assert (R1 : ora_r o3 k d = x) by apply (set_r_eq o k d x).
  assert (R2 : ora_n o3 k d' = x') by apply set_n_eq. rewrite R1, R2 in E1.
  assert (AG : agree_from (S k) o o3) by (apply (agree_trans _ _ (set_r o k d x)); [apply set_r_agree|apply set_n_agree]; lia).
  rewrite (mean_local _ _ _ _ (Hf x Hx) o o3 (S k) Ho Ho3 AG).
  rewrite (mean_local _ _ _ _ (Hf' x' Hx') o o3 (S k) Ho Ho3 AG). symmetry. exact E1.
Qed.
Lemma cross_nr : forall A (F G : res A -> R) m d f g d' f' g',
  (forall o k, valid o -> m o k = bind (draw_n d) f o k) -> (forall x, nsupport d x -> mean F (f x) (g x)) ->
  (forall o k, valid o -> m o k = bind (draw_r d') f' o k) -> (forall x, rsupport d' x -> mean G (f' x) (g' x)) ->
  forall x x', nsupport d x -> rsupport d' x' -> mean G (f x) (g' x').
Proof.
  intros A F G m d f g d' f' g' E Hf E' Hf' x x' Hx Hx'.
  apply (mean_ext _ G (f' x') (f x)); [|apply Hf'; exact Hx'].
  apply (agree_everywhere _ F G _ _ _ _ (Hf x Hx) (Hf' x' Hx') 1). intros o k Ho Hk.
  destruct k as [|k]; [lia|]. pose proof (set_n_valid o k d x Ho Hx) as Ho2.
  pose proof (set_r_valid _ k d' x' Ho2 Hx') as Ho3. set (o3 := set_r (set_n o k d x) k d' x') in *.
  pose proof (E o3 k Ho3) as E1. rewrite (E' o3 k Ho3) in E1. unfold bind, draw_r, draw_n in E1.
  assert (R1 : ora_n o3 k d = x) by apply (set_n_eq o k d x).
  assert (R2 : ora_r o3 k d' = x') by apply set_r_eq. rewrite R1, R2 in E1.
  assert (AG : agree_from (S k) o o3) by (apply (agree_trans _ _ (set_n o k d x)); [apply set_n_agree|apply set_r_agree]; lia).
  rewrite (mean_local _ _ _ _ (Hf x Hx) o o3 (S k) Ho Ho3 AG).
  rewrite (mean_local _ _ _ _ (Hf' x' Hx') o o3 (S k) Ho Ho3 AG). symmetry. exact E1.
Qed.
Lemma cross_nn : forall A (F G : res A -> R) m d f g d' f' g',
  (forall o k, valid o -> m o k = bind (draw_n d) f o k) -> (forall x, nsupport d x -> mean F (f x) (g x)) ->
  (forall o k, valid o -> m o k = bind (draw_n d') f' o k) -> (forall x, nsupport d' x -> mean G (f' x) (g' x)) ->
  forall x x', nsupport d x -> nsupport d' x' -> (d' = d -> x' = x) -> mean G (f x) (g' x').
Proof.
  intros A F G m d f g d' f' g' E Hf E' Hf' x x' Hx Hx' HD.
  apply (mean_ext _ G (f' x') (f x)); [|apply Hf'; exact Hx'].
  apply (agree_everywhere _ F G _ _ _ _ (Hf x Hx) (Hf' x' Hx') 1). intros o k Ho Hk.
  destruct k as [|k]; [lia|]. pose proof (set_n_valid o k d x Ho Hx) as Ho2.
  pose proof (set_n_valid _ k d' x' Ho2 Hx') as Ho3. set (o3 := set_n (set_n o k d x) k d' x') in *.
  pose proof (E o3 k Ho3) as E1. rewrite (E' o3 k Ho3) in E1. unfold bind, draw_n in E1.
  assert (R1 : ora_n o3 k d = x).
  { unfold o3. destruct (excluded_middle_informative (d = d')) as [ED|ND].
    - rewrite ED, set_n_eq. apply HD. congruence.
    - rewrite set_n_ne by exact ND. apply set_n_eq. }
  assert (R2 : ora_n o3 k d' = x') by apply set_n_eq. rewrite R1, R2 in E1.
  assert (AG : agree_from (S k) o o3) by (apply (agree_trans _ _ (set_n o k d x)); apply set_n_agree; lia).
  rewrite (mean_local _ _ _ _ (Hf x Hx) o o3 (S k) Ho Ho3 AG).
  rewrite (mean_local _ _ _ _ (Hf' x' Hx') o o3 (S k) Ho Ho3 AG). symmetry. exact E1.
Qed.

(** A second mean of a computation can be taken along the decomposition of the first. *)
Lemma mean_align_r : forall A (F G : res A -> R) m d f g v v',
  (forall o k, valid o -> m o k = bind (draw_r d) f o k) -> (forall x, rsupport d x -> mean F (f x) (g x)) -> expect_r d g v ->
  mean G m v' -> exists g', (forall x, rsupport d x -> mean G (f x) (g' x)) /\ expect_r d g' v'.
Proof.
  intros A F G m d f g v v' E Hf Hg H'.
  destruct H' as [m r' E' | m d' f' g' v' E' Hf' Hg' | m d' f' g' v' E' Hne' Hf' Hg'].
  - exfalso. destruct valid_inh as [o Ho]. pose proof (E o 0%nat Ho) as EQ. rewrite (E' o 0%nat Ho) in EQ.
    unfold bind, draw_r in EQ. pose proof (mean_counter _ _ _ _ (Hf _ (proj1 Ho 0%nat d)) o 1%nat Ho) as C.
    rewrite <- EQ in C. cbn in C. lia.
  - pose proof (cross_rr A F G m d f g d' f' g' E Hf E' Hf') as CR.
    destruct (excluded_middle_informative (d' = d)) as [-> | ND].
    + exists g'. split; [|exact Hg']. intros x Hx. apply (CR x x Hx Hx). auto.
    + destruct (rsupport_inh d') as [x' Hx']. exists (fun _ => g' x'). split; [intros x Hx; apply (CR x x' Hx Hx'); congruence|].
      replace v' with (g' x'); [apply (expect_r_normal d g v); exact Hg|].
      symmetry. apply (expect_r_const d' g' v'); [|exact Hg'].
      intros y Hy. destruct (rsupport_inh d) as [x Hx].
      apply (mean_unique _ G (f x)); apply (CR x); try assumption; congruence.
  - pose proof (cross_rn A F G m d f g d' f' g' E Hf E' Hf') as CR.
    destruct (nsupport_inh d' Hne') as [x' Hx']. exists (fun _ => g' x'). split; [intros x Hx; apply (CR x x' Hx Hx'); congruence|].
    replace v' with (g' x'); [apply (expect_r_normal d g v); exact Hg|].
    symmetry. apply (expect_n_const d' g' v'); [|exact Hg'].
    intros y Hy. destruct (rsupport_inh d) as [x Hx].
    apply (mean_unique _ G (f x)); apply (CR x); assumption.
Qed.
Lemma mean_align_n : forall A (F G : res A -> R) m d f g v v',
  (forall o k, valid o -> m o k = bind (draw_n d) f o k) -> nonempty_n d -> (forall x, nsupport d x -> mean F (f x) (g x)) -> expect_n d g v ->
  mean G m v' -> exists g', (forall x, nsupport d x -> mean G (f x) (g' x)) /\ expect_n d g' v'.
Proof.
  intros A F G m d f g v v' E Hne Hf Hg H'.
  destruct H' as [m r' E' | m d' f' g' v' E' Hf' Hg' | m d' f' g' v' E' Hne' Hf' Hg'].
  - exfalso. destruct valid_inh as [o Ho]. pose proof (E o 0%nat Ho) as EQ. rewrite (E' o 0%nat Ho) in EQ.
    unfold bind, draw_n in EQ. pose proof (mean_counter _ _ _ _ (Hf _ (proj2 Ho 0%nat d Hne)) o 1%nat Ho) as C.
    rewrite <- EQ in C. cbn in C. lia.
  - pose proof (cross_nr A F G m d f g d' f' g' E Hf E' Hf') as CR.
    destruct (rsupport_inh d') as [x' Hx']. exists (fun _ => g' x'). split; [intros x Hx; apply (CR x x' Hx Hx'); congruence|].
    replace v' with (g' x'); [apply (expect_n_normal d g v); exact Hg|].
    symmetry. apply (expect_r_const d' g' v'); [|exact Hg'].
    intros y Hy. destruct (nsupport_inh d Hne) as [x Hx].
    apply (mean_unique _ G (f x)); apply (CR x); assumption.
  - pose proof (cross_nn A F G m d f g d' f' g' E Hf E' Hf') as CR.
    destruct (excluded_middle_informative (d' = d)) as [-> | ND].
    + exists g'. split; [|exact Hg']. intros x Hx. apply (CR x x Hx Hx). auto.
    + destruct (nsupport_inh d' Hne') as [x' Hx']. exists (fun _ => g' x'). split; [intros x Hx; apply (CR x x' Hx Hx'); congruence|].
      replace v' with (g' x'); [apply (expect_n_normal d g v); exact Hg|].
      symmetry. apply (expect_n_const d' g' v'); [|exact Hg'].
      intros y Hy. destruct (nsupport_inh d Hne) as [x Hx].
      apply (mean_unique _ G (f x)); apply (CR x); try assumption; congruence.
Qed.

Lemma mean_plus : forall A (F G : res A -> R) m v, mean F m v -> forall v', mean G m v' -> mean (fun r => F r + G r) m (v + v').
Proof.
  intros A F G m v H. induction H as [m r E | m d f g v E Hf IH Hg | m d f g v E Hne Hf IH Hg]; intros v' H'.
  - assert (EV : v' = G r) by (apply (mean_unique _ G m); [exact H'|apply mean_done; exact E]).
    rewrite EV. apply (mean_done (fun r => F r + G r)). exact E.
  - destruct (mean_align_r A F G m d f g v v' E Hf Hg H') as (g' & Hf' & Hg').
    apply (mean_real _ m d f (fun x => g x + g' x) _ E); [|apply expect_r_plus; assumption].
    intros x Hx. apply IH; [exact Hx|]. apply Hf'. exact Hx.
  - destruct (mean_align_n A F G m d f g v v' E Hne Hf Hg H') as (g' & Hf' & Hg').
    apply (mean_int _ m d f (fun x => g x + g' x) _ E Hne); [|apply expect_n_plus; assumption].
    intros x Hx. apply IH; [exact Hx|]. apply Hf'. exact Hx.
Qed.
Lemma average_plus : forall A (m : M A) f g u v, average m f u -> average m g v -> average m (fun a => f a + g a) (u + v).
Proof.
  intros A m f g u v H H'. refine (mean_swap_from _ _ _ _ _ (mean_plus _ _ _ _ _ H _ H') 0 _).
  intros o k _ _. destruct (fst (m o k)); cbn; ring.
Qed.
(** constants have a mean as soon as something has *)
Lemma mean_const : forall A (F : res A -> R) m v c, mean F m v -> mean (fun _ => c) m c.
Proof.
  intros A F m v c H. induction H as [m r E | m d f g v E Hf IH Hg | m d f g v E Hne Hf IH Hg].
  - apply (mean_done (fun _ => c) m r E).
  - apply (mean_real _ m d f (fun _ => c) _ E IH). apply (expect_r_normal d g v c Hg).
  - apply (mean_int _ m d f (fun _ => c) _ E Hne IH). apply (expect_n_normal d g v c Hg).
Qed.
Lemma average_const : forall A (m : M A) f v c, average m f v -> total m (fun _ => True) -> average m (fun _ => c) c.
Proof.
  intros A m f v c H HT. refine (mean_swap_from _ _ _ _ _ (mean_const _ _ _ _ c H) 0 _).
  intros o k Ho _. specialize (HT o k Ho). destruct (fst (m o k)); cbn in *; [reflexivity|contradiction|contradiction].
Qed.
(** the mean is monotone *)
Lemma expect_r_pos : forall d g v, (forall x, rsupport d x -> 0 <= g x) -> expect_r d g v -> 0 <= v.
Proof.
  intros [lo hi|s|a b| | | |] g v HP; cbn [expect_r]; try contradiction.
  - intros [H I1]. apply (Rmult_le_reg_l (hi - lo)); [lra|]. rewrite Rmult_0_r.
    apply (is_RInt_le (fun _ => 0) g lo hi 0 ((hi - lo) * v)); [lra| |exact I1|intros x Hx; apply HP, uniform_support; lra].
    pose proof (is_RInt_const lo hi 0) as P. unfold scal in P; cbn in P; unfold mult in P; cbn in P. rewrite Rmult_0_r in P. exact P.
  - intros [H I1]. set (h := fun x => if Rle_dec x 0 then 0 else exp (- x / s) / s * g x).
    assert (Hh : forall x, 0 <= h x).
    { intros x. unfold h. destruct (Rle_dec x 0) as [L|L]; [lra|]. apply Rmult_le_pos; [|apply HP; cbn; lra].
      apply Rmult_le_pos; [left; apply exp_pos|left; apply Rinv_0_lt_compat; exact H]. }
    assert (I2 : is_RInt_gen h (at_point 0) (Rbar_locally p_infty) v).
    { refine (is_RInt_gen_ext _ _ _ _ I1).
      apply (Filter_prod _ _ _ (fun a => a = 0) (fun b => 0 < b)); [reflexivity|exists 0; intros x Hx; exact Hx|].
      intros a b -> Hb x. cbn [fst snd]. rewrite Rmin_left, Rmax_right by lra. intros Hx.
      unfold h. destruct (Rle_dec x 0); [lra|reflexivity]. }
    assert (PP : filter_prod (at_point 0) (Rbar_locally p_infty) (fun ab : R * R => fst ab <= snd ab)).
    { apply (Filter_prod _ _ _ (fun a => a = 0) (fun b => 0 < b)); [reflexivity|exists 0; intros x Hx; exact Hx|]. intros a b -> Hb. cbn. lra. }
    pose proof (RInt_gen_norm h h v v PP) as P. unfold norm in P. cbn in P. unfold abs in P. cbn in P.
    pose proof (Rabs_pos v). assert (Rabs v <= v); [|lra]. apply P; [|exact I2|exact I2].
    apply filter_forall. intros ab x _. rewrite Rabs_pos_eq; [lra|apply Hh].
  - intros (i & j & Ha & Hb & I1).
    apply (is_RInt_le (fun _ => 0) (fun x => beta_density i j x * g x) 0 1 0 v); [lra| |exact I1|].
    + pose proof (is_RInt_const 0 1 0) as P. unfold scal in P; cbn in P; unfold mult in P; cbn in P. rewrite Rmult_0_r in P. exact P.
    + intros x Hx. apply Rmult_le_pos; [|apply HP; cbn; lra]. unfold beta_density.
      apply Rmult_le_pos; [|apply Rmult_le_pos; apply pow_le; lra].
      apply Rmult_le_pos; [apply pos_INR|]. left. apply Rinv_0_lt_compat. apply Rmult_lt_0_compat; apply INR_fact_lt_0.
  - apply (under_pos _ _ _ (fun _ => True)); [typeclasses eauto|typeclasses eauto|apply below_above|apply everywhere; typeclasses eauto|intros x; left; apply exp_pos|].
    intros x _. apply HP. exact Logic.I.
  - intros [(Ha & Hs & I1)|(Ha & Hs & I1)]; [|rewrite <- (I1 0); apply HP; cbn; lra]. revert I1.
    apply (under_pos _ _ _ (fun x => 0 < x)); [typeclasses eauto|typeclasses eauto| |apply right_above_pos|intros x; left; apply exp_pos|].
    + eapply filter_imp; [|exact right_above]. intros ab H. apply H.
    + intros x Hx. apply HP. cbn. auto.
  - intros (Ha & Hs & I1). revert I1.
    apply (under_pos _ _ _ (fun x => 0 < x)); [typeclasses eauto|typeclasses eauto| |apply right_above_pos|intros x; left; apply exp_pos|].
    + eapply filter_imp; [|exact right_above]. intros ab H. apply H.
    + intros x Hx. apply HP. cbn. auto.
Qed.
Lemma sum_pos : forall (f : nat -> R) l, (forall x, In x l -> 0 <= f x) -> 0 <= fold_right Rplus 0 (map f l).
Proof.
  induction l as [|a l IH]; intros H; cbn; [lra|].
  apply Rplus_le_le_0_compat; [apply H; left; reflexivity|apply IH; intros; apply H; right; assumption].
Qed.
Lemma expect_n_pos : forall d g v, (forall x, nsupport d x -> 0 <= g x) -> expect_n d g v -> 0 <= v.
Proof.
  intros [lam|p|m] g v HP; cbn [expect_n].
  - intros [H I1].
    assert (TP : forall n, 0 <= exp (- lam) * (lam ^ n / INR (fact n)) * g n).
    { intros n. destruct (Req_dec lam 0) as [E|E].
      - destruct n as [|n].
        + apply Rmult_le_pos; [|apply HP; cbn; auto]. rewrite E. cbn. rewrite Ropp_0, exp_0. lra.
        + rewrite E, pow_ne_zero by lia. unfold Rdiv. lra.
      - apply Rmult_le_pos; [|apply HP; cbn; intros; contradiction]. apply Rmult_le_pos; [left; apply exp_pos|].
        apply Rmult_le_pos; [apply pow_le; exact H|left; apply Rinv_0_lt_compat, INR_fact_lt_0]. }
    assert (SP : forall n, 0 <= sum_n (fun n => exp (- lam) * (lam ^ n / INR (fact n)) * g n) n).
    { induction n as [|n IH]; [rewrite sum_O; apply TP|]. rewrite sum_Sn. exact (Rplus_le_le_0_compat _ _ IH (TP (S n))). }
    apply (is_lim_seq_le (fun _ => 0) _ 0 v SP); [apply is_lim_seq_const|exact I1].
  - intros [H ->]. apply sum_pos. intros i Hi. unfold is_prob_vector in H. apply andb_true_iff in H as [H _]. rewrite forallb_forall in H.
    apply in_seq in Hi. assert (Hl : (i < length p)%nat) by (destruct Hi as [_ Hi]; exact Hi).
    specialize (H (nth i p 0) (nth_In p 0 Hl)). unfold Rleb in H. destruct (Rle_dec 0 (nth i p 0)) as [L|]; [|discriminate].
    destruct (Rle_lt_or_eq_dec _ _ L) as [L'|L']; [apply Rmult_le_pos; [exact L|apply HP; exact L']|]. rewrite <- L'. lra.
  - intros [H ->]. apply Rmult_le_pos; [|left; apply Rinv_0_lt_compat; apply lt_0_INR; exact H].
    apply sum_pos. intros i Hi. apply in_seq in Hi. apply HP. cbn. intros _. destruct Hi as [_ Hi]. exact Hi.
Qed.
Lemma mean_pos_from : forall A (F : res A -> R) m v, mean F m v -> forall k0, (forall o k, valid o -> (k0 <= k)%nat -> 0 <= F (fst (m o k))) -> 0 <= v.
Proof.
  intros A F m v H. induction H as [m r E | m d f g v E Hf IH Hg | m d f g v E Hne Hf IH Hg]; intros k0 HF.
  - destruct valid_inh as [o Ho]. specialize (HF o k0 Ho (le_n _)). rewrite (E o k0 Ho) in HF. exact HF.
  - apply (expect_r_pos d g v); [|exact Hg]. intros x Hx. apply (IH x Hx (S k0)).
    apply (later_r A F (fun r => 0 <= F r) m d f g k0 E Hf HF x Hx).
  - apply (expect_n_pos d g v); [|exact Hg]. intros x Hx. apply (IH x Hx (S k0)).
    apply (later_n A F (fun r => 0 <= F r) m d f g k0 E Hf HF x Hx).
Qed.
Lemma average_pos : forall A (m : M A) f v, average m f v -> returns m (fun a => 0 <= f a) -> 0 <= v.
Proof.
  intros A m f v H HP. apply (mean_pos_from _ _ _ _ H 0). intros o k Ho _. specialize (HP o k Ho).
  destruct (fst (m o k)); cbn in *; [exact HP|lra|lra].
Qed.
Lemma average_le : forall A (m : M A) f g u v, average m f u -> average m g v -> returns m (fun a => f a <= g a) -> u <= v.
Proof.
  intros A m f g u v Hf Hg HP.
  pose proof (average_plus _ _ _ _ _ _ Hg (average_scal _ _ _ _ (-1) Hf)) as P.
  assert (0 <= v + -1 * u); [|lra]. apply (average_pos _ _ _ _ P).
  intros o k Ho. specialize (HP o k Ho). destruct (fst (m o k)); cbn in *; auto. lra.
Qed.
Lemma chance_range : forall A (m : M A) E p, chance m E p -> 0 <= p <= 1.
Proof.
  intros A m E p H. split.
  - apply (average_pos _ _ _ _ H). intros o k _. destruct (fst (m o k)) as [a| |]; auto. destruct (E a); cbn; lra.
  - pose proof (mean_plus _ _ _ _ _ (mean_const _ _ _ _ 1 H) _ (mean_scal _ _ _ _ (-1) H)) as P.
    assert (0 <= 1 + -1 * p); [|lra]. apply (mean_pos_from _ _ _ _ P 0). intros o k _ _.
    destruct (fst (m o k)) as [a| |]; cbn; [destruct (E a); cbn; lra|lra|lra].
Qed.
Lemma chance_not : forall A (m : M A) E p, chance m E p -> total m (fun _ => True) -> chance m (fun a => negb (E a)) (1 - p).
Proof.
  intros A m E p H HT. unfold chance in *.
  pose proof (average_plus _ _ _ _ _ _ (average_const _ _ _ _ 1 H HT) (average_scal _ _ _ _ (-1) H)) as P.
  refine (average_ext _ _ _ _ _ _ (average_eq _ _ _ _ _ _ P)); [|ring]. intros a. destruct (E a); cbn; ring.
Qed.
