(** Occupation times as integrals. *)
From Coq Require Import Reals List ZArith Bool Arith Lia Lra Sorted.
From Coquelicot Require Import Hierarchy RInt.
From Verif Require Import Base Np Rng Mat M_mjp SpecMjp L_list L_path L_part L_path2.
Import ListNotations.
Local Open Scope R_scope.

(** ** Occupation times as integrals *)
Lemma occ_integral : forall t x fin st a,
  length t = length x -> StronglySorted Rlt (a :: t) -> (forall u, In u (a :: t) -> u < fin) ->
  forall i0 (f : R -> nat),
  (forall u, a <= u < fin -> look (Some i0) (combine t x) u = Some (f u)) ->
  is_RInt (fun u => if Nat.eqb (f u) st then 1 else 0) a fin
    (rdot (map (fun y => if Nat.eqb y st then 1 else 0) (i0 :: x)) (np_diff (a :: t) ++ [fin - last t a])).
Proof.
  intros t; induction t as [|b t IH]; intros x fin st a HL HS HB i0 f Hf.
  - destruct x; [|discriminate]. simpl. unfold rdot; simpl.
    replace ((if Nat.eqb i0 st then 1 else 0) * (fin - a) + 0)
      with ((fin - a) * (if Nat.eqb i0 st then 1 else 0)) by lra.
    apply (is_RInt_ext (V := R_NormedModule)) with (f := fun _ => if Nat.eqb i0 st then 1 else 0).
    + intros u Hu. assert (a < fin) by (apply HB; simpl; auto).
      rewrite Rmin_left, Rmax_right in Hu by lra.
      specialize (Hf u ltac:(lra)). simpl in Hf. inversion Hf; subst. reflexivity.
    + apply (is_RInt_const (V := R_NormedModule) a fin (if Nat.eqb i0 st then 1 else 0)).
  - destruct x as [|i1 x]; [discriminate|].
    inversion HS as [|? ? HS' F]; subst. inversion F as [|? ? Hab Fb]; subst.
    assert (Hbf : b < fin) by (apply HB; simpl; auto).
    replace (rdot (map (fun y => if Nat.eqb y st then 1 else 0) (i0 :: i1 :: x)) (np_diff (a :: b :: t) ++ [fin - last (b :: t) a]))
      with (Rplus ((b - a) * (if Nat.eqb i0 st then 1 else 0))
        (rdot (map (fun y => if Nat.eqb y st then 1 else 0) (i1 :: x)) (np_diff (b :: t) ++ [fin - last t b]))).
    2:{ rewrite last_cons'. destruct t; unfold rdot; simpl; lra. }
    apply (is_RInt_Chasles (V := R_NormedModule) _ a b fin).
    + apply (is_RInt_ext (V := R_NormedModule)) with (f := fun _ => if Nat.eqb i0 st then 1 else 0).
      * intros u Hu. rewrite Rmin_left, Rmax_right in Hu by lra.
        specialize (Hf u ltac:(lra)). simpl in Hf.
        destruct (Rleb_dec b u) as [[? ?]|[_ Q]]; [lra|]. rewrite Q in Hf. inversion Hf; subst. reflexivity.
      * apply (is_RInt_const (V := R_NormedModule) a b (if Nat.eqb i0 st then 1 else 0)).
    + apply IH; auto.
      * intros u Hu; apply HB; simpl; simpl in Hu; tauto.
      * intros u Hu. specialize (Hf u ltac:(lra)). simpl in Hf.
        destruct (Rleb_dec b u) as [[_ Q]|[? ?]]; [|lra]. rewrite Q in Hf. auto.
Qed.

Lemma est_stat_correct s states : wf_skel s ->
  exists v, est_stat s states = Ok v /\ length v = length states /\
   forall f : R -> nat, (forall u, 0 <= u < sk_fin s -> state_at s u (f u)) ->
   Forall2 (fun st p => is_RInt (fun u => if Nat.eqb (f u) st then 1 else 0) 0 (sk_fin s) (p * sk_fin s) /\ 0 <= p)
     states v.
Proof.
  intros [Hs Hn]. pose proof (timed_pos s Hs) as Hp. unfold est_stat.
  destruct (timed_len_t s Hs) as [HL HNE].
  destruct (exists_last HNE) as [t0 [tl_ Et]].
  rewrite Et, last_opt_app. rewrite <- Et.
  eexists; split; [reflexivity|]. split; [apply map_length|].
  intros f Hf.
  assert (KEY : forall st, is_RInt (fun u => if Nat.eqb (f u) st then 1 else 0) 0 (sk_fin s)
      (rdot (map (fun y => if Nat.eqb y st then 1 else 0) (sk_x s)) (ediff1d_end (sk_t s) (sk_fin s - tl_)))).
  { intros st. pose proof (td_first s Hs) as F0. pose proof (td_sorted s Hs) as SS. pose proof (td_below s Hs) as BB.
    assert (Hf' : forall u, 0 <= u < sk_fin s -> look None (jumps s) u = Some (f u)).
    { intros u Hu. apply state_at_look; auto. apply SS_lt_le; auto. }
    assert (EL : last (sk_t s) 0 = tl_) by (rewrite Et; apply last_last).
    unfold jumps in Hf'. destruct (sk_t s) as [|z t]; [discriminate|]. simpl in F0; inversion F0; subst z.
    destruct (sk_x s) as [|x0 x]; [discriminate|].
    rewrite last_cons' in EL. subst tl_. unfold ediff1d_end.
    apply occ_integral; auto.
    intros u Hu. rewrite <- (Hf' u Hu). simpl. destruct (Rleb_dec 0 u) as [[_ ->]|[? ?]]; auto; lra. }
  clear -KEY Hp. induction states as [|st states IH]; simpl; constructor; auto. split.
  - unfold Rdiv. rewrite Rmult_assoc, Rinv_l, Rmult_1_r by lra. apply KEY.
  - apply Rmult_le_pos; [|apply Rlt_le, Rinv_0_lt_compat; auto].
    specialize (KEY st). apply (is_RInt_ge_0 _ 0 (sk_fin s)) in KEY; [auto|lra|].
    intros u _. destruct (Nat.eqb (f u) st); lra.
Qed.

Lemma ind_sum states x : NoDup states -> In x states ->
  fold_right Rplus 0 (map (fun st => if Nat.eqb x st then 1 else 0) states) = 1.
Proof.
  induction 1 as [|a l Ha Hl IH]; simpl; [tauto|]. intros [->|Hx].
  - rewrite Nat.eqb_refl. assert (Z : fold_right Rplus 0 (map (fun st => if Nat.eqb x st then 1 else 0) l) = 0).
    { clear -Ha. induction l as [|b l IH]; simpl; auto. simpl in Ha.
      destruct (Nat.eqb_spec x b) as [->|N]; [tauto|]. rewrite IH by tauto. lra. }
    rewrite Z. lra.
  - destruct (Nat.eqb_spec x a) as [->|N]; [contradiction|]. rewrite IH by auto. lra.
Qed.
Lemma sum_map_plus {A} (f g : A -> R) l :
  fold_right Rplus 0 (map (fun a => f a + g a) l) = fold_right Rplus 0 (map f l) + fold_right Rplus 0 (map g l).
Proof. induction l as [|a l IH]; simpl; [lra|rewrite IH; lra]. Qed.
Lemma sum_map_scal {A} (f : A -> R) c l :
  fold_right Rplus 0 (map (fun a => f a * c) l) = fold_right Rplus 0 (map f l) * c.
Proof. induction l as [|a l IH]; simpl; [lra|rewrite IH; lra]. Qed.
Lemma occ_sum states x h : NoDup states -> (forall i, In i x -> In i states) -> length x = length h ->
  fold_right Rplus 0 (map (fun st => rdot (map (fun y => if Nat.eqb y st then 1 else 0) x) h) states)
  = fold_right Rplus 0 h.
Proof.
  intros ND. revert h; induction x as [|i x IH]; intros [|a h] HC HL; try discriminate.
  - unfold rdot; simpl. clear. induction states; simpl; lra.
  - unfold rdot. cbn [map combine fold_right fst snd].
    rewrite (sum_map_plus (fun st => (if Nat.eqb i st then 1 else 0) * a)
      (fun st => rdot (map (fun y => if Nat.eqb y st then 1 else 0) x) h)).
    rewrite sum_map_scal, ind_sum, IH; auto; [lra|intros; apply HC; simpl; auto|apply HC; simpl; auto].
Qed.
Lemma ediff_sum a t (fin : R) : fold_right Rplus 0 (np_diff (a :: t) ++ [fin - last t a]) = fin - a.
Proof.
  revert a; induction t as [|b t IH]; intros a; simpl; [lra|].
  rewrite <- (last_cons' t b a) in IH || idtac. specialize (IH b). simpl in IH.
  replace (match t with [] => b | _ :: _ => last t a end) with (last t b) by (destruct t; auto; rewrite !last_cons'; auto).
  rewrite IH. lra.
Qed.
Lemma np_diff_length (l : list R) : length (np_diff l) = (length l - 1)%nat.
Proof. induction l as [|a l IH]; auto. destruct l; auto. cbn [np_diff length] in *. rewrite IH. simpl; lia. Qed.
Lemma est_stat_sum s states v : wf_skel s -> NoDup states -> (forall i, In i (sk_x s) -> In i states) ->
  est_stat s states = Ok v -> fold_right Rplus 0 v = 1.
Proof.
  intros [Hs Hn] ND HC. pose proof (timed_pos s Hs) as Hp. unfold est_stat.
  destruct (timed_len_t s Hs) as [HL HNE].
  destruct (exists_last HNE) as [t0 [tl_ Et]]. rewrite Et, last_opt_app. rewrite <- Et.
  intros E; inversion E; subst v; clear E. unfold Rdiv. rewrite sum_map_scal.
  rewrite occ_sum; auto.
  - unfold ediff1d_end. pose proof (td_first s Hs) as F0.
    assert (EL : last (sk_t s) 0 = tl_) by (rewrite Et; apply last_last).
    destruct (sk_t s) as [|z t]; [discriminate|]. simpl in F0; inversion F0; subst z.
    rewrite last_cons' in EL. subst tl_. rewrite ediff_sum. field. lra.
  - unfold ediff1d_end. rewrite app_length, np_diff_length. cbn [length].
    assert (length (sk_t s) <> 0)%nat by (destruct (sk_t s); [congruence|simpl; lia]). lia.
Qed.
