(** est_se inverts the information that Louis' identity gives. *)
From Coquelicot Require Import Rcomplements Hierarchy Derive AutoDerive.
From Coq Require Import Reals List Bool Arith Lra Lia FunctionalExtensionality.
From Verif Require Import Base Np Rng L_list L_rng M_mjp M_hit M_path SpecPath M_skel M_seed SpecSeed M_models M_inf M_sw M_adapt M_mcem SpecEm M_est SpecEst SpecLouis L_est3 L_redraw L_mat Mat.
Import ListNotations.
Local Open Scope R_scope.

Lemma touch_cons : forall l u v lb ub x, l = Fin v \/ u = Fin v \/ touches lb ub x -> touches (l :: lb) (u :: ub) (v :: x).
Proof.
  intros l u v lb ub x [-> |[-> |(i & w & H1 & H2)]].
  - exists 0%nat, v. split; [reflexivity|left; reflexivity].
  - exists 0%nat, v. split; [reflexivity|right; reflexivity].
  - exists (S i), w. split; [exact H1|exact H2].
Qed.
Lemma below_room : forall l v, ele l (Fin v) -> l <> Fin v -> exists e, 0 < e /\ forall y, Rabs (y - v) < e -> ele l (Fin y).
Proof.
  intros [|a|] v H N; cbn in *; [exists 1; split; [lra|auto]| |tauto].
  assert (a < v) by (destruct (Req_dec a v) as [-> |]; [congruence|lra]). exists (v - a). split; [lra|]. intros y Hy. apply Rabs_def2 in Hy. lra.
Qed.
Lemma above_room : forall u v, ele (Fin v) u -> u <> Fin v -> exists e, 0 < e /\ forall y, Rabs (y - v) < e -> ele (Fin y) u.
Proof.
  intros [|a|] v H N; cbn in *; [tauto| |exists 1; split; [lra|auto]].
  assert (v < a) by (destruct (Req_dec a v) as [-> |]; [congruence|lra]). exists (a - v). split; [lra|]. intros y Hy. apply Rabs_def2 in Hy. lra.
Qed.
Lemma room : forall x lb ub, length lb = length x -> length ub = length x -> in_box lb ub x -> ~ touches lb ub x ->
  exists e, 0 < e /\ forall y, near x e y -> in_box lb ub y.
Proof.
  induction x as [|v x IH]; intros [|l lb] [|u ub] H1 H2 HB HT; try discriminate.
  - exists 1. split; [lra|]. intros y Hy. inversion Hy. constructor.
  - unfold in_box in HB. cbn [combine] in HB. inversion HB as [|? ? ? ? [B1 B2] B3]; subst. cbn [fst snd] in B1, B2.
    destruct (IH lb ub ltac:(cbn in *; lia) ltac:(cbn in *; lia) B3) as (e0 & E0 & F0); [intros C; apply HT, touch_cons; auto|].
    destruct (below_room l v B1) as (e1 & E1 & F1); [intros C; apply HT, touch_cons; auto|].
    destruct (above_room u v B2) as (e2 & E2 & F2); [intros C; apply HT, touch_cons; auto|].
    exists (Rmin e0 (Rmin e1 e2)). split; [repeat apply Rmin_glb_lt; assumption|]. intros y Hy. inversion Hy as [|? w ? y' A1 A2]; subst.
    pose proof (Rmin_l e0 (Rmin e1 e2)). pose proof (Rmin_r e0 (Rmin e1 e2)). pose proof (Rmin_l e1 e2). pose proof (Rmin_r e1 e2).
    unfold in_box. cbn [combine]. constructor; [split; [apply F1|apply F2]; lra|].
    apply F0. assert (RM : Rmin e0 (Rmin e1 e2) <= e0) by assumption. clear - A2 RM. induction A2 as [|a b x y Hab A2 IA]; constructor; [lra|exact IA].
Qed.

Lemma avg_mean : forall n (a : nat -> R), np_mean (map a (seq 0 n)) = avg n a.
Proof. intros n a. unfold np_mean, avg. rewrite rsum_list, map_length, seq_length. reflexivity. Qed.
Lemma partial_avg : forall n (f : nat -> list R -> R) i x (d : nat -> R), (forall m, (m < n)%nat -> partial (f m) i x (d m)) ->
  partial (fun y => - avg n (fun m => f m y)) i x (- avg n d).
Proof.
  intros n f i x d H. unfold partial, avg, Rdiv.
  apply (is_derive_ext (fun s => - / INR n * rsum n (fun m => f m (with_at x i s)))); [intros s; match goal with |- ?a = ?b => change (@eq R a b) end; ring|].
  replace (- (rsum n d * / INR n)) with (- / INR n * rsum n d) by ring.
  apply (is_derive_scal (fun s => rsum n (fun m => f m (with_at x i s)))). apply is_derive_rsum. intros m Hm. apply H. exact Hm.
Qed.
Lemma near_length : forall x e y, near x e y -> length y = length x.
Proof. intros x e y H. induction H; cbn; auto. Qed.
Lemma msub_table : forall d A B, msub (table d A) (table d B) = table d (fun i j => A i j - B i j).
Proof.
  intros d A B. unfold msub, table. generalize (seq 0 d) at 2 4 6. intros l. revert l. generalize (seq 0 d). intros r l. induction l as [|i l IH]; [reflexivity|].
  cbn [map combine]. f_equal; [|exact IH]. cbn [fst snd]. clear. induction r as [|j r IH]; [reflexivity|]. cbn [map combine]. f_equal. exact IH.
Qed.
Lemma diag_pos_iff : forall A, (diag_pos A = true <-> forall i row, nth_error A i = Some row -> 0 < nth i row 0).
Proof.
  intros A. split; [intros H i row; exact (diag_pos_at A H i row)|]. intros H. unfold diag_pos. apply forallb_forall. intros [i row] Hp.
  cbn [fst snd]. apply Rltb_true. apply H. apply In_nth_error in Hp as [k Hk].
  assert (G : forall (r : list (list R)) a k, nth_error (combine (seq a (length r)) r) k = Some (i, row) -> i = (a + k)%nat /\ nth_error r k = Some row).
  { induction r as [|b r IH]; intros a [|j] E; cbn in E; try discriminate E; [injection E as <- <-; split; [lia|reflexivity]|].
    destruct (IH (S a) j E) as [-> E2]. split; [lia|exact E2]. }
  destruct (G A 0%nat k Hk) as [-> E]. exact E.
Qed.

Section Louis.
  Variables (hess : (list R -> M R) -> list R -> M (list (list R))) (grad : (list R -> M (list R)) -> list R -> M (list (list R))) (inv : list (list R) -> res (list (list R))).
  Variables (lb ub : list ext) (f : list R -> M (list R)) (thi : list R) (n : nat).
  Variables (l : nat -> list R -> R) (G : nat -> nat -> list R -> R) (H : nat -> nat -> nat -> R).
  Hypothesis Hbox : Forall2 interval lb ub.
  Hypothesis Hlb : length lb = length thi.
  Hypothesis Hne : thi <> [].
  Hypothesis Hin : in_box lb ub thi.
  Hypothesis Htouch : ~ touches lb ub thi.
  Hypothesis Hf : forall y, in_box lb ub y -> forall o k, f y o k = (Ok (map (fun m => l m y) (seq 0 n)), k).
  Hypothesis HG : exists e, 0 < e /\ forall m i y, (m < n)%nat -> (i < length thi)%nat -> near thi e y -> partial (l m) i y (G m i y).
  Hypothesis HH : forall m i j, (m < n)%nat -> (i < length thi)%nat -> (j < length thi)%nat -> partial (G m i) j thi (H m i j).
  Hypothesis EG : exact_grad grad (wrap lb ub f) thi.
  Hypothesis EH : exact_hess hess (fun x => do v <- wrap lb ub f x; ret (- np_mean v)) thi.

  Lemma ub_length : length ub = length thi.
  Proof. rewrite <- Hlb. clear - Hbox. induction Hbox; cbn; auto. Qed.
  Lemma wrap_near : computes (wrap lb ub f) (fun y => map (fun m => l m y) (seq 0 n)) thi.
  Proof.
    destruct (room thi lb ub Hlb ub_length Hin Htouch) as (e & E & F). exists e. split; [exact E|]. intros y Hy o k.
    destruct (wrap_run _ lb ub f y Hbox ltac:(rewrite (near_length _ _ _ Hy); symmetry; exact Hlb)) as (z & Z1 & Z2 & Z3).
    rewrite Z3, (Z2 (F y Hy)). apply Hf. exact (F y Hy).
  Qed.
  Lemma louis_run : forall o k, se_of hess grad inv lb ub f thi o k =
    (match inv (table (length thi) (louis n (fun m i => G m i thi) H)) with
     | Ok V => Ok (if diag_pos V then Some V else None) | Raise e => Raise e | NoFuel => NoFuel end, k).
  Proof.
    intros o k. unfold se_of, box_ok. rewrite Hlb, ub_length, Nat.eqb_refl. cbn [andb negb].
    destruct (distance_zero lb ub thi Hne Hlb ub_length) as (d & Ed & Dz). unfold bind at 1. rewrite Ed. cbn [lift].
    destruct (is_zero d) eqn:Ez; [exfalso; apply Htouch, Dz; reflexivity|].
    assert (QH : hess (fun x => do v <- wrap lb ub f x; ret (- np_mean v)) thi o k = (Ok (table (length thi) (fun i j => - avg n (fun m => H m i j))), k)).
    { apply (EH (fun y => - avg n (fun m => l m y))).
      - destruct wrap_near as (e & E & F). exists e. split; [exact E|]. intros y Hy o' k'. unfold bind. rewrite (F y Hy o' k'). rewrite avg_mean. reflexivity.
      - exists (fun i y => - avg n (fun m => G m i y)). destruct HG as (e & E & F). split.
        + exists e. split; [exact E|]. intros i y Hi Hy. apply (partial_avg n l i y (fun m => G m i y)). intros m Hm. apply F; assumption.
        + intros i j Hi Hj. apply (partial_avg n (fun m => G m i) j thi (fun m => H m i j)). intros m Hm. apply HH; assumption. }
    assert (QG : grad (wrap lb ub f) thi o k = (Ok (map (fun m => map (fun i => G m i thi) (seq 0 (length thi))) (seq 0 n)), k)).
    { apply (EG n l (fun m i => G m i thi) wrap_near). intros m i Hm Hi. destruct HG as (e & E & F). apply F; [exact Hm|exact Hi|].
      clear - E. induction thi as [|a x IH]; [constructor|]. constructor; [rewrite Rminus_eq_0, Rabs_R0; exact E|exact IH]. }
    unfold bind at 1. rewrite QH. unfold bind at 1. rewrite QG. unfold bind.
    assert (QC : np_cov (length thi) (map (fun m => map (fun i => G m i thi) (seq 0 (length thi))) (seq 0 n)) =
                 table (length thi) (fun i j => cov n (fun m => G m i thi) (fun m => G m j thi))).
    { unfold np_cov, table. apply map_ext_in. intros i Hi. apply map_ext_in. intros j Hj. apply in_seq in Hi. apply in_seq in Hj.
      assert (QN : forall i m, (i < length thi)%nat -> nth i (map (fun i => G m i thi) (seq 0 (length thi))) 0 = G m i thi).
      { intros i' m Hi'. rewrite (nth_indep _ 0 (G m 0%nat thi)) by (rewrite map_length, seq_length; exact Hi'). rewrite (map_nth (fun i => G m i thi) (seq 0 (length thi)) 0%nat). rewrite seq_nth by exact Hi'. reflexivity. }
      unfold cov, M_models.rsum. rewrite !map_map, map_length, seq_length.
      assert (QA : forall i, (i < length thi)%nat -> np_mean (map (fun x => nth i (map (fun i => G x i thi) (seq 0 (length thi))) 0) (seq 0 n)) = avg n (fun m => G m i thi)).
      { intros i' Hi'. rewrite <- avg_mean. f_equal. apply map_ext. intros m. apply QN. exact Hi'. }
      rewrite (QA i) by lia. rewrite (QA j) by lia. rewrite rsum_list. f_equal. apply rsum_ext. intros m _. rewrite !QN by lia. reflexivity. }
    rewrite QC, msub_table.
    assert (QT : table (length thi) (fun i j => - avg n (fun m => H m i j) - cov n (fun m => G m i thi) (fun m => G m j thi)) = table (length thi) (louis n (fun m i => G m i thi) H)).
    { unfold table. apply map_ext. intros i. apply map_ext. intros j. unfold louis. f_equal. unfold avg, Rdiv.
      rewrite (rsum_ext n (fun m => - H m i j) (fun m => -1 * H m i j)) by (intros; ring). rewrite rsum_scal_l. ring. }
    rewrite QT. destruct (inv (table (length thi) (louis n (fun m i => G m i thi) H))); reflexivity.
  Qed.
  Lemma louis_se : forall o k V, inv (table (length thi) (louis n (fun m i => G m i thi) H)) = Ok V ->
    ((forall i row, nth_error V i = Some row -> 0 < nth i row 0) -> se_of hess grad inv lb ub f thi o k = (Ok (Some V), k)) /\
    (~ (forall i row, nth_error V i = Some row -> 0 < nth i row 0) -> se_of hess grad inv lb ub f thi o k = (Ok None, k)).
  Proof.
    intros o k V HV. rewrite louis_run, HV. split; intros D.
    - rewrite (proj2 (diag_pos_iff V) D). reflexivity.
    - destruct (diag_pos V) eqn:E; [exfalso; apply D, diag_pos_iff; exact E|reflexivity].
  Qed.
End Louis.
