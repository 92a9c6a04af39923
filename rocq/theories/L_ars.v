(** Lemmas about ctbayes/misc/ars.py: hulls. *)
From Coq Require Import Reals List ZArith Bool Arith Lia Lra Sorted.
From Verif Require Import Base Np Rng M_adapt M_ars SpecArs L_list L_path.
Import ListNotations.
Local Open Scope R_scope.

(** ** lists as functions of the index *)
Lemma list_seq {A} (l : list A) d : l = map (fun j => nth j l d) (seq 0 (length l)).
Proof.
  induction l as [|a l IH]; [reflexivity|]. cbn [length seq map nth]. f_equal. rewrite <- seq_shift, map_map. exact IH.
Qed.
Lemma map_seq_ext {A} (g h : nat -> A) n : (forall j, (j < n)%nat -> g j = h j) -> map g (seq 0 n) = map h (seq 0 n).
Proof. intros H. apply map_ext_in. intros j Hj. apply in_seq in Hj. apply H. lia. Qed.
Lemma nth_map_seq {A} (g : nat -> A) n j d : (j < n)%nat -> nth j (map g (seq 0 n)) d = g j.
Proof. intros H. rewrite (nth_indep _ d (g 0%nat)) by (rewrite map_length, seq_length; auto). rewrite map_nth, seq_nth by auto. auto. Qed.
Lemma map_as_seq {A B} (f : A -> B) (l : list A) d : map f l = map (fun j => f (nth j l d)) (seq 0 (length l)).
Proof. rewrite (list_seq l d) at 1. rewrite map_map. reflexivity. Qed.
Lemma combine_seq {A B} (l : list A) (m : list B) n d e : length l = n -> length m = n ->
  combine l m = map (fun j => (nth j l d, nth j m e)) (seq 0 n).
Proof.
  revert m n. induction l as [|a l IH]; intros [|b m] n H1 H2; simpl in H1, H2; subst n; try discriminate; auto.
  cbn [combine];  cbn [seq map]. f_equal. assert (H3 : length m = length l) by lia. rewrite (IH m (length l) eq_refl H3). rewrite <- seq_shift, map_map. reflexivity.
Qed.
Lemma map2_seq {A B C} (g : A -> B -> C) l m n d e : length l = n -> length m = n ->
  map2 g l m = map (fun j => g (nth j l d) (nth j m e)) (seq 0 n).
Proof. intros H1 H2. unfold map2. rewrite (combine_seq l m n d e H1 H2), map_map. reflexivity. Qed.
Lemma np_diff_seq (l : list R) : np_diff l = map (fun j => nth (S j) l 0 - nth j l 0) (seq 0 (length l - 1)).
Proof.
  induction l as [|a l IH]; [reflexivity|]. destruct l as [|b l]; [reflexivity|].
  change (np_diff (a :: b :: l)) with ((b - a) :: np_diff (b :: l)). rewrite IH. cbn [length]. replace (S (S (length l)) - 1)%nat with (S (length l)) by lia.
  replace (S (length l) - 1)%nat with (length l) by lia. cbn [seq map]. f_equal. rewrite <- seq_shift, map_map. reflexivity.
Qed.
Lemma removelast_seq {A} (l : list A) d : removelast l = map (fun j => nth j l d) (seq 0 (length l - 1)).
Proof.
  destruct l as [|a l] using rev_ind; [reflexivity|]. rewrite removelast_last, app_length. cbn [length]. replace (length l + 1 - 1)%nat with (length l) by lia.
  rewrite (list_seq l d) at 1. apply map_seq_ext. intros j Hj. rewrite app_nth1 by auto. auto.
Qed.
Lemma tl_seq {A} (l : list A) d : tl l = map (fun j => nth (S j) l d) (seq 0 (length l - 1)).
Proof. destruct l as [|a l]; [reflexivity|]. cbn [tl length]. replace (S (length l) - 1)%nat with (length l) by lia. apply (list_seq l d). Qed.
Lemma opt_list_seq {A} (g : nat -> option A) (h : nat -> A) n : (forall j, (j < n)%nat -> g j = Some (h j)) ->
  opt_list (map g (seq 0 n)) = Some (map h (seq 0 n)).
Proof.
  intros H. cut (forall l, (forall j, In j l -> g j = Some (h j)) -> opt_list (map g l) = Some (map h l)).
  { intros K. apply K. intros j Hj. apply in_seq in Hj. apply H. lia. }
  induction l as [|a l IH]; intros K; [reflexivity|]. cbn [map opt_list]. rewrite K by (left; auto). rewrite IH by (intros; apply K; right; auto). auto.
Qed.
Lemma count_spec {A} (p : A -> bool) (l : list A) d :
  (forall i j, (i < j < length l)%nat -> p (nth j l d) = true -> p (nth i l d) = true) ->
  forall j, (j < length l)%nat -> (p (nth j l d) = true <-> (j < length (filter p l))%nat).
Proof.
  induction l as [|a l IH]; intros H j Hj; [simpl in Hj; lia|].
  assert (H' : forall i j, (i < j < length l)%nat -> p (nth j l d) = true -> p (nth i l d) = true).
  { intros i k Hk E. apply (H (S i) (S k)); [simpl; lia|auto]. }
  cbn [filter]. destruct (p a) eqn:E.
  - cbn [length]. destruct j as [|j]; [simpl; rewrite E; intuition lia|]. cbn [nth]. rewrite (IH H' j) by (simpl in Hj; lia). lia.
  - assert (N : forall k, (k < length l)%nat -> p (nth k l d) = false).
    { intros k Hk. destruct (p (nth k l d)) eqn:E2; auto. rewrite <- E. symmetry. apply (H 0%nat (S k)); [simpl; lia|auto]. }
    assert (F : filter p l = []).
    { apply filter_none. intros b Hb. apply (In_nth _ _ d) in Hb. destruct Hb as (k & Hk & <-). auto. }
    rewrite F. cbn [length]. destruct j as [|j]; [simpl; rewrite E; intuition (discriminate || lia)|].
    cbn [nth]. rewrite N by (simpl in Hj; lia). intuition (discriminate || lia).
Qed.
Lemma count_le {A} (p : A -> bool) l : (length (filter p l) <= length l)%nat.
Proof. induction l as [|a l IH]; simpl; [lia|]. destruct (p a); simpl; lia. Qed.
Lemma get_nat {A} (l : list A) i d : (i < length l)%nat -> get l (Z.of_nat i) = Ok (nth i l d).
Proof. intros H. unfold get. rewrite pyget_nat. rewrite (nth_error_nth' l d H). auto. Qed.
Lemma sorted_nth_lt x i j : StronglySorted Rlt x -> (i < j < length x)%nat -> nth i x 0 < nth j x 0.
Proof.
  intros H Hij. eapply (StronglySorted_nth Rlt x i j); eauto; try lia; apply nth_error_nth'; lia.
Qed.
Lemma sorted_nth_le x i j : StronglySorted Rle x -> (i <= j < length x)%nat -> nth i x 0 <= nth j x 0.
Proof.
  intros H Hij. destruct (Nat.eq_dec i j) as [->|]; [lra|].
  eapply (StronglySorted_nth Rle x i j); eauto; try lia; apply nth_error_nth'; lia.
Qed.

(** ** concave functions *)
Lemma dom_between lb ub a b c : dom lb ub a -> dom lb ub c -> a <= b <= c -> dom lb ub b.
Proof. intros [H1 H2] [H3 H4] [H5 H6]. split; destruct lb, ub; simpl in *; auto; lra. Qed.
Lemma strictly_concave lb ub f df : strictly_concave_on lb ub f df -> concave_on lb ub f df.
Proof. intros [H1 H2]. split; auto. intros. left. auto. Qed.
Section Conc.
Context (lb ub : ext) (f df : R -> R).
Lemma mvt a b : (forall x, dom lb ub x -> derivable_pt_lim f x (df x)) -> dom lb ub a -> dom lb ub b -> a < b ->
  exists c, f b - f a = df c * (b - a) /\ a < c < b /\ dom lb ub c.
Proof.
  intros H Ha Hb L. destruct (MVT_cor2 f df a b L) as (c & E & Hc).
  - intros c Hc. apply H. eapply dom_between; [exact Ha|exact Hb|lra].
  - exists c. repeat split; try lra; eapply (dom_between lb ub a c b); eauto; lra.
Qed.
Lemma tangent_above a v : concave_on lb ub f df -> dom lb ub a -> dom lb ub v -> f v <= tangent f df a v.
Proof.
  intros [H1 H2] Ha Hv. unfold tangent. destruct (Rtotal_order a v) as [L|[->|L]]; [|lra|].
  - destruct (mvt a v H1 Ha Hv L) as (c & E & Hc & Dc). pose proof (H2 a c Ha Dc ltac:(lra)). nra.
  - destruct (mvt v a H1 Hv Ha L) as (c & E & Hc & Dc). pose proof (H2 c a Dc Ha ltac:(lra)). nra.
Qed.
Lemma tangent_strict a v : strictly_concave_on lb ub f df -> dom lb ub a -> dom lb ub v -> a <> v -> f v < tangent f df a v.
Proof.
  intros [H1 H2] Ha Hv N. unfold tangent. destruct (Rtotal_order a v) as [L|[E|L]]; [|contradiction|].
  - destruct (mvt a v H1 Ha Hv L) as (c & E & Hc & Dc). pose proof (H2 a c Ha Dc ltac:(lra)). nra.
  - destruct (mvt v a H1 Hv Ha L) as (c & E & Hc & Dc). pose proof (H2 c a Dc Ha ltac:(lra)). nra.
Qed.
Lemma chord_below a b c : concave_on lb ub f df -> dom lb ub a -> dom lb ub c -> a < b <= c ->
  ((c - b) * f a + (b - a) * f c) / (c - a) <= f b.
Proof.
  intros [H1 H2] Ha Hc [L1 L2]. destruct L2 as [L2| ->]; [|right; field; lra].
  assert (Hb : dom lb ub b) by (eapply dom_between; [exact Ha|exact Hc|lra]).
  destruct (mvt a b H1 Ha Hb L1) as (p & E1 & Hp & Dp). destruct (mvt b c H1 Hb Hc L2) as (q & E2 & Hq & Dq).
  pose proof (H2 p q Dp Dq ltac:(lra)) as M.
  apply (Rmult_le_reg_r (c - a)); [lra|]. unfold Rdiv. rewrite Rmult_assoc, Rinv_l, Rmult_1_r by lra.
  assert (0 <= (c - b) * (b - a) * (df p - df q)) by (repeat apply Rmult_le_pos; lra).
  replace (f c) with (f b + df q * (c - b)) by lra. replace (f a) with (f b - df p * (b - a)) by lra. nra.
Qed.
(** lower hull *)
Lemma eval_lower_ok x v : concave_on lb ub f df -> supports lb ub x -> dom lb ub v ->
  exists lo, eval_lower x (map f x) v = Ok lo /\ ele lo (Fin (f v)) /\
    ((exists i, (S i < length x)%nat /\ nth i x 0 < v <= nth (S i) x 0) -> is_fin lo = true).
Proof.
  intros HC (HS & HD & HN) Hv. unfold eval_lower. set (k := searchsorted_left x v).
  assert (MON : forall i j, (i < j < length x)%nat -> nltb (nth j x 0) v = true -> nltb (nth i x 0) v = true).
  { intros i j Hij E. cbn in *. apply Rltb_true. apply Rltb_true in E. pose proof (sorted_nth_lt x i j HS Hij). lra. }
  pose proof (count_spec (fun a => nltb a v) x 0 MON) as CS. cbv beta in CS. fold (searchsorted_left x v) in CS. fold k in CS.
  pose proof (count_le (fun a => nltb a v) x) as KL. fold (searchsorted_left x v) in KL. fold k in KL.
  rewrite Forall_forall in HD.
  assert (FF : (exists i, (S i < length x)%nat /\ nth i x 0 < v <= nth (S i) x 0) -> (0 < k < length x)%nat).
  { intros (i & Hi & L1 & L2). assert (i < k)%nat by (apply CS; [lia|apply Rltb_true; auto]).
    assert (~ (S i < k)%nat). { intros Q. apply CS in Q; [|lia]. apply Rltb_true in Q. lra. } lia. }
  destruct (Z.eqb_spec (Z.of_nat k - 1) (-1)) as [E|E].
  { cbn [orb]. exists NegInf. repeat split; auto. intros Q. apply FF in Q. lia. }
  destruct (Z.eqb_spec (Z.of_nat k - 1) (Z.of_nat (length x) - 1)) as [E2|E2].
  { cbn [orb]. exists NegInf. repeat split; auto. intros Q. apply FF in Q. lia. }
  cbn [orb]. destruct k as [|i]; [lia|]. replace (Z.of_nat (S i) - 1)%Z with (Z.of_nat i) by lia.
  replace (Z.of_nat i + 1)%Z with (Z.of_nat (S i)) by lia.
  rewrite (get_nat x i 0), (get_nat x (S i) 0) by lia. cbn [rbind].
  rewrite (get_nat (map f x) i (f 0)), (get_nat (map f x) (S i) (f 0)) by (rewrite map_length; lia). cbn [rbind].
  rewrite !map_nth. eexists. split; [reflexivity|]. split; [|auto]. simpl.
  assert (L1 : nth i x 0 < v) by (apply Rltb_true; apply CS; lia).
  assert (L2 : ~ nth (S i) x 0 < v). { intros Q. apply Rltb_true in Q. apply CS in Q; lia. }
  apply chord_below; auto; [apply HD, nth_In; lia|apply HD, nth_In; lia|lra].
Qed.

(** intersections *)
Definition inter (a b : R) : R := ((f b - b * df b) - (f a - a * df a)) / (df a - df b).
Lemma inter_between a b : strictly_concave_on lb ub f df -> dom lb ub a -> dom lb ub b -> a < b -> a < inter a b < b.
Proof.
  intros HC Ha Hb L. pose proof (proj2 HC a b Ha Hb L) as D.
  pose proof (tangent_strict b a HC Hb Ha ltac:(lra)) as T1. pose proof (tangent_strict a b HC Ha Hb ltac:(lra)) as T2.
  unfold tangent in *. unfold inter. split.
  - apply (Rmult_lt_reg_r (df a - df b)); [lra|]. unfold Rdiv. rewrite Rmult_assoc, Rinv_l, Rmult_1_r by lra. nra.
  - apply (Rmult_lt_reg_r (df a - df b)); [lra|]. unfold Rdiv. rewrite Rmult_assoc, Rinv_l, Rmult_1_r by lra. nra.
Qed.
Lemma inter_right a b v : df b < df a -> (inter a b <= v <-> tangent f df b v <= tangent f df a v).
Proof.
  intros D. unfold inter, tangent. split; intros H.
  - apply (Rmult_le_compat_r (df a - df b)) in H; [|lra]. unfold Rdiv in H. rewrite Rmult_assoc, Rinv_l, Rmult_1_r in H by lra. nra.
  - apply (Rmult_le_reg_r (df a - df b)); [lra|]. unfold Rdiv. rewrite Rmult_assoc, Rinv_l, Rmult_1_r by lra. nra.
Qed.
Lemma inter_left a b v : df b < df a -> v <= inter a b -> tangent f df a v <= tangent f df b v.
Proof.
  intros D H. unfold inter, tangent in *.
  apply (Rmult_le_compat_r (df a - df b)) in H; [|lra]. unfold Rdiv in H. rewrite Rmult_assoc, Rinv_l, Rmult_1_r in H by lra. nra.
Qed.
Lemma gen_upper_ok x : strictly_concave_on lb ub f df -> supports lb ub x ->
  gen_upper x (map f x) (map df x) = Some (map (fun j => inter (nth j x 0) (nth (S j) x 0)) (seq 0 (length x - 1))).
Proof.
  intros HC (HS & HD & HN). unfold gen_upper, but_last. rewrite Forall_forall in HD. set (n := length x).
  rewrite (map2_seq Rmult x (map df x) n 0 (df 0)) by (rewrite ?map_length; auto).
  rewrite (map2_seq Rminus (map f x) _ n (f 0) 0) by (rewrite !map_length, ?seq_length; auto).
  rewrite np_diff_seq, map_length, seq_length.
  rewrite (removelast_seq (map df x) (df 0)), (tl_seq (map df x) (df 0)). rewrite !map_length. fold n.
  rewrite (map2_seq Rminus _ _ (n - 1) (df 0) (df 0)) by (rewrite map_length, seq_length; auto).
  rewrite (map2_seq fdiv _ _ (n - 1) 0 0) by (rewrite map_length, seq_length; auto).
  apply opt_list_seq. intros j Hj. rewrite !nth_map_seq by lia. rewrite !map_nth. unfold fdiv, inter.
  pose proof (proj2 HC (nth j x 0) (nth (S j) x 0) ltac:(apply HD, nth_In; lia) ltac:(apply HD, nth_In; lia)
    ltac:(apply sorted_nth_lt; auto; lia)) as D.
  destruct (Reqb_dec (df (nth j x 0) - df (nth (S j) x 0)) 0) as [[Q _]|[_ ->]]; [lra|]. reflexivity.
Qed.

(** break points of the upper hull *)
Definition breaks (x : list R) : list ext := lb :: map Fin (map (fun j => inter (nth j x 0) (nth (S j) x 0)) (seq 0 (length x - 1))) ++ [ub].
Lemma hull_breaks_ok x : strictly_concave_on lb ub f df -> supports lb ub x ->
  hull_breaks lb ub x (map f x) (map df x) = Some (breaks x).
Proof. intros HC HS. unfold hull_breaks. rewrite gen_upper_ok by auto. reflexivity. Qed.
Lemma breaks_length x : x <> [] -> length (breaks x) = S (length x).
Proof. intros H. unfold breaks. cbn [length]. rewrite app_length, !map_length, seq_length. cbn [length]. destruct x; [contradiction|simpl; lia]. Qed.
Lemma breaks_0 x : nth 0 (breaks x) PosInf = lb.
Proof. reflexivity. Qed.
Lemma breaks_mid x j : (S j < length x)%nat -> nth (S j) (breaks x) PosInf = Fin (inter (nth j x 0) (nth (S j) x 0)).
Proof.
  intros H. unfold breaks. cbn [nth]. rewrite map_map. rewrite app_nth1 by (rewrite map_length, seq_length; lia).
  rewrite nth_map_seq by lia. auto.
Qed.
Lemma breaks_last x : x <> [] -> nth (length x) (breaks x) PosInf = ub.
Proof.
  intros H. unfold breaks. destruct x as [|a x]; [contradiction|]. cbn [length nth]. rewrite app_nth2; rewrite !map_length, seq_length.
  - replace (length x - (S (length x) - 1))%nat with 0%nat by lia. reflexivity.
  - lia.
Qed.
Lemma elt_trans a b c : elt a b -> elt b c -> elt a c.
Proof. destruct a, b, c; simpl; auto; try contradiction; lra. Qed.
Lemma breaks_around x j : strictly_concave_on lb ub f df -> supports lb ub x -> (j < length x)%nat ->
  elt (nth j (breaks x) PosInf) (Fin (nth j x 0)) /\ elt (Fin (nth j x 0)) (nth (S j) (breaks x) PosInf).
Proof.
  intros HC (HS & HD & HN) Hj. rewrite Forall_forall in HD.
  assert (D : forall j, (j < length x)%nat -> dom lb ub (nth j x 0)) by (intros; apply HD, nth_In; auto).
  split.
  - destruct j as [|j]; [rewrite breaks_0; apply D; auto|]. rewrite breaks_mid by auto. simpl.
    apply inter_between; auto; try (apply D; lia). apply sorted_nth_lt; auto; lia.
  - destruct (Nat.eq_dec (S j) (length x)) as [->|N]; [rewrite breaks_last by auto; apply D; auto|].
    rewrite breaks_mid by lia. simpl. apply inter_between; auto; try (apply D; lia). apply sorted_nth_lt; auto; lia.
Qed.
Lemma breaks_sorted x i j : strictly_concave_on lb ub f df -> supports lb ub x -> (i < j <= length x)%nat ->
  elt (nth i (breaks x) PosInf) (nth j (breaks x) PosInf).
Proof.
  intros HC HS H. induction j as [|j IH]; [lia|].
  destruct (breaks_around x j HC HS ltac:(lia)) as [B1 B2].
  destruct (Nat.eq_dec i j) as [->|N]; [eapply elt_trans; eauto|].
  eapply elt_trans; [apply IH; lia|]. eapply elt_trans; eauto.
Qed.
(** the segment that searchsorted finds *)
Lemma esearch_ok x v : strictly_concave_on lb ub f df -> supports lb ub x -> dom lb ub v ->
  exists i, (i < length x)%nat /\ esearch (breaks x) v = S i /\
    elt (nth i (breaks x) PosInf) (Fin v) /\ ~ elt (nth (S i) (breaks x) PosInf) (Fin v).
Proof.
  intros HC HS Hv. set (k := esearch (breaks x) v). assert (HN : x <> []) by apply HS.
  assert (MON : forall i j, (i < j < length (breaks x))%nat -> eltb (nth j (breaks x) PosInf) (Fin v) = true -> eltb (nth i (breaks x) PosInf) (Fin v) = true).
  { intros i j Hij E. rewrite breaks_length in Hij by auto. apply eltb_true in E. apply eltb_true. eapply elt_trans; [apply (breaks_sorted x i j); auto; lia|auto]. }
  pose proof (count_spec (fun a => eltb a (Fin v)) (breaks x) PosInf MON) as CS. cbv beta in CS. fold (esearch (breaks x) v) in CS. fold k in CS.
  rewrite breaks_length in CS by auto.
  assert (K0 : (0 < k)%nat) by (apply CS; [lia|rewrite breaks_0; apply eltb_true; apply Hv]).
  assert (K1 : ~ (length x < k)%nat).
  { intros Q. apply CS in Q; [|lia]. rewrite breaks_last in Q by auto. apply eltb_true in Q. destruct Hv as [_ Hv].
    destruct ub; simpl in *; try contradiction; lra. }
  destruct k as [|i]; [lia|]. exists i. split; [lia|]. split; [auto|]. split.
  - apply eltb_true. apply CS; lia.
  - intros Q. apply eltb_true in Q. apply CS in Q; lia.
Qed.
Lemma tangents_min x v i : strictly_concave_on lb ub f df -> supports lb ub x -> (i < length x)%nat ->
  ele (nth i (breaks x) PosInf) (Fin v) -> ele (Fin v) (nth (S i) (breaks x) PosInf) ->
  forall j, (j < length x)%nat -> tangent f df (nth i x 0) v <= tangent f df (nth j x 0) v.
Proof.
  intros HC HS Hi L U. destruct HS as (HS & HD & HN). pose proof HD as HD'. rewrite Forall_forall in HD.
  assert (HSup : supports lb ub x) by (repeat split; auto).
  assert (D : forall j, (S j < length x)%nat -> df (nth (S j) x 0) < df (nth j x 0)).
  { intros j Hj. apply (proj2 HC); [apply HD, nth_In; lia|apply HD, nth_In; lia|apply sorted_nth_lt; auto; lia]. }
  assert (UP : forall m j, (j = i + m)%nat -> (j < length x)%nat -> tangent f df (nth i x 0) v <= tangent f df (nth j x 0) v).
  { induction m as [|m IH]; intros j E Hj; [replace j with i by lia; lra|].
    eapply Rle_trans; [apply (IH (i + m)%nat); lia|]. replace j with (S (i + m)) by lia.
    apply inter_left; [apply D; lia|].
    assert (Q : ele (Fin v) (nth (S (i + m)) (breaks x) PosInf)).
    { destruct m as [|m]; [rewrite Nat.add_0_r; auto|].
      pose proof (breaks_sorted x (S i) (S (i + S m)) HC HSup ltac:(lia)) as B.
      destruct (nth (S i) (breaks x) PosInf), (nth (S (i + S m)) (breaks x) PosInf); simpl in *; auto; try contradiction; lra. }
    rewrite breaks_mid in Q by lia. exact Q. }
  assert (DN : forall m j, (j + m = i)%nat -> tangent f df (nth i x 0) v <= tangent f df (nth j x 0) v).
  { induction m as [|m IH]; intros j E; [replace j with i by lia; lra|].
    eapply Rle_trans; [apply (IH (S j)); lia|].
    apply inter_right; [apply D; lia|].
    assert (Q : ele (nth (S j) (breaks x) PosInf) (Fin v)).
    { destruct m as [|m]; [replace (S j) with i by lia; auto|].
      pose proof (breaks_sorted x (S j) i HC HSup ltac:(lia)) as B.
      destruct (nth (S j) (breaks x) PosInf), (nth i (breaks x) PosInf); simpl in *; auto; try contradiction; lra. }
    rewrite breaks_mid in Q by lia. exact Q. }
  intros j Hj. destruct (le_lt_dec i j) as [Q|Q]; [apply (UP (j - i)%nat); lia|apply (DN (i - j)%nat); lia].
Qed.
Lemma elt_ele a b : elt a b -> ele a b.
Proof. destruct a, b; simpl; auto; lra. Qed.
Lemma not_elt a b : ~ elt a b -> ele b a.
Proof. destruct a, b; simpl; auto; lra. Qed.
Lemma eval_upper_ok x v : strictly_concave_on lb ub f df -> supports lb ub x -> dom lb ub v ->
  exists up, eval_upper x (map f x) (map df x) (breaks x) v = Ok up /\ f v <= up /\
    (exists a, In a x /\ up = tangent f df a v) /\ (forall a, In a x -> up <= tangent f df a v).
Proof.
  intros HC HSup Hv. destruct (esearch_ok x v HC HSup Hv) as (i & Hi & E & L & U).
  unfold eval_upper. rewrite E. replace (Z.of_nat (S i) - 1)%Z with (Z.of_nat i) by lia.
  rewrite (get_nat (map f x) i (f 0)), (get_nat (map df x) i (df 0)), (get_nat x i 0) by (rewrite ?map_length; auto).
  cbn [rbind]. rewrite !map_nth. fold (tangent f df (nth i x 0) v). eexists. split; [reflexivity|].
  assert (Ia : In (nth i x 0) x) by (apply nth_In; auto).
  split; [apply tangent_above; auto; [apply strictly_concave; auto|]; destruct HSup as (_ & HD & _); rewrite Forall_forall in HD; auto|].
  split; [eauto|]. intros a Ha. apply (In_nth _ _ 0) in Ha. destruct Ha as (j & Hj & <-).
  apply tangents_min; auto; [apply elt_ele; auto|apply not_elt; auto].
Qed.
(** whatever index is used, the value is a tangent and so above the target *)
Lemma eval_upper_any x y v : concave_on lb ub f df -> Forall (dom lb ub) x -> dom lb ub v ->
  forall up, eval_upper x (map f x) (map df x) y v = Ok up -> f v <= up /\ exists a, In a x /\ up = tangent f df a v.
Proof.
  intros HC HD Hv up. unfold eval_upper. set (i := (_ - 1)%Z). clearbody i. unfold get.
  assert (PG : forall {B} (g : R -> B), pyget (map g x) i = option_map g (pyget x i)).
  { intros B g. unfold pyget. rewrite map_length. destruct (i <? 0)%Z; [destruct (_ <? 0)%Z; auto|]; rewrite nth_error_map; auto. }
  rewrite !PG. destruct (pyget x i) as [a|] eqn:E; cbn [option_map rbind]; [|discriminate].
  intros Q; inversion Q; subst.
  assert (Ia : In a x). { unfold pyget in E. destruct (i <? 0)%Z; [destruct (_ <? 0)%Z; [discriminate|]|]; eapply nth_error_In; eauto. }
  fold (tangent f df a v). rewrite Forall_forall in HD. split; [apply tangent_above; auto|eauto].
Qed.
End Conc.
