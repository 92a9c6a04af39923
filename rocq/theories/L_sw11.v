(** The restricted likelihood of switching/static.py. *)
From Coq Require Import Reals List Bool Arith ZArith Lia Lra.
From Verif Require Import Base Np Mat M_mjp M_models M_sw SpecSw L_occ L_mat L_sw.
Import ListNotations.
Local Open Scope R_scope.

Fixpoint wsum (f : nat -> bool) (l : list (nat * R * R)) : R :=
  match l with [] => 0 | (y, a, b) :: r => (if f y then a + b else 0) + wsum f r end.
Lemma sel_sum f ys : forall pd pv, length pd = length ys -> length pv = length ys ->
  M_models.rsum (map (fun p => fst p + snd p) (combine (select pd (map f ys)) (select pv (map f ys)))) = wsum f (zip3 ys pd pv).
Proof.
  induction ys as [|y ys IH]; intros [|a pd] [|b pv] H1 H2; try discriminate; [reflexivity|]. unfold select, zip3 in *. cbn [map combine filter snd wsum].
  specialize (IH pd pv ltac:(simpl in *; lia) ltac:(simpl in *; lia)). destruct (f y); cbn [map combine fst snd M_models.rsum fold_right].
  - unfold M_models.rsum in *. cbn [fold_right]. rewrite IH. reflexivity.
  - rewrite IH. ring.
Qed.
Lemma wsum_nth f ys : forall pd pv, length pd = length ys -> length pv = length ys ->
  wsum f (zip3 ys pd pv) = Mat.rsum (length ys) (fun k => if f (nth k ys 0%nat) then nth k pd 0 + nth k pv 0 else 0).
Proof.
  induction ys as [|y ys IH]; intros [|a pd] [|b pv] H1 H2; try discriminate; [reflexivity|]. unfold zip3 in *. cbn [combine wsum length]. rewrite rsum_shift. cbn [nth]. f_equal.
  apply IH; simpl in *; lia.
Qed.
Lemma nth_rl {A} (l : list A) k d : (k < length l - 1)%nat -> nth k (removelast l) d = nth k l d.
Proof.
  revert k; induction l as [|a l IH]; intros k H; simpl in H; [lia|]. destruct l as [|b l]; [simpl in H; lia|]. change (removelast (a :: b :: l)) with (a :: removelast (b :: l)). destruct k; auto. cbn [nth]. apply IH. simpl in *; lia.
Qed.
Lemma nth_tl {A} (l : list A) k d : nth k (tl l) d = nth (S k) l d.
Proof. destruct l; simpl; auto. destruct k; auto. Qed.
Lemma nth_diff (l : list R) k : (k < length l - 1)%nat -> nth k (np_diff l) 0 = nth (S k) l 0 - nth k l 0.
Proof.
  revert k; induction l as [|a l IH]; intros k H; simpl in H; [lia|]. destruct l as [|b l]; [simpl in H; lia|]. destruct k; [reflexivity|].
  change (nth (S k) (np_diff (a :: b :: l)) 0) with (nth k (np_diff (b :: l)) 0). rewrite IH by (simpl in *; lia). reflexivity.
Qed.
Lemma nth_map_d {A B} (g : A -> B) l k d d' : (k < length l)%nat -> nth k (map g l) d' = g (nth k l d).
Proof. intros H. rewrite (nth_indep _ d' (g d)) by (rewrite map_length; auto). apply map_nth. Qed.
Lemma tl_length {A} (l : list A) : length (tl l) = (length l - 1)%nat.
Proof. destruct l; simpl; lia. Qed.
Section Lik.
Context (vol : nat -> R) (dv : R -> R) (f : nat -> R -> R) (h : anchorage) (n : nat).
Hypothesis H1 : length (a_t h) = S n.
Hypothesis H2 : length (a_y h) = S n.
Hypothesis H3 : length (a_v h) = S n.
Lemma pd_nth k : (k < n)%nat -> nth k (p_del vol (pointwise f) (a_y h) (a_v h)) 0 =
  (f (nth k (a_y h) 0%nat) (nth (S k) (a_v h) 0) - f (nth k (a_y h) 0%nat) (nth k (a_v h) 0)) / vol (nth k (a_y h) 0%nat) ^ 2.
Proof.
  intros Hk. unfold p_del, pointwise, zip3. rewrite nth_map_d with (d := (0, 0, 0%nat)).
  2:{ rewrite !combine_length, !map_length, !combine_length, !removelast_len, !tl_length. lia. }
  rewrite combine_nth. 2:{ rewrite combine_length, !map_length, !combine_length, !removelast_len, !tl_length. lia. }
  rewrite combine_nth. 2:{ rewrite !map_length, !combine_length, !removelast_len, !tl_length. lia. }
  rewrite !nth_map_d with (d := (0%nat, 0)). 2,3: rewrite !combine_length, !removelast_len, ?tl_length; lia.
  rewrite !combine_nth by (rewrite !removelast_len, ?tl_length; lia). cbn [fst snd]. rewrite nth_tl, !nth_rl by lia. reflexivity.
Qed.
Lemma sig_len : length (sig_of vol (a_t h) (a_y h)) = n.
Proof. unfold sig_of. rewrite map_length, combine_length, np_diff_length, removelast_len. lia. Qed.
Lemma sig_nth k : (k < n)%nat -> nth k (sig_of vol (a_t h) (a_y h)) 0 = (nth (S k) (a_t h) 0 - nth k (a_t h) 0) * vol (nth k (a_y h) 0%nat) ^ 2.
Proof.
  intros Hk. unfold sig_of. rewrite nth_map_d with (d := (0, 0%nat)) by (rewrite combine_length, np_diff_length, removelast_len; lia).
  rewrite combine_nth by (rewrite np_diff_length, removelast_len; lia). cbn [fst snd]. rewrite nth_diff, nth_rl by lia. reflexivity.
Qed.
Lemma pv_nth k : (k < n)%nat -> nth k (p_vt vol dv (a_t h) (a_y h) (a_v h)) 0 =
  gauss dv (nth (S k) (a_v h) 0) ((nth (S k) (a_t h) 0 - nth k (a_t h) 0) * vol (nth k (a_y h) 0%nat) ^ 2) (nth (S k) (a_v h) 0 - nth k (a_v h) 0).
Proof.
  intros Hk. unfold p_vt, zip3. rewrite nth_map_d with (d := (0, 0, 0)) by (rewrite !combine_length, np_diff_length, sig_len, tl_length; lia).
  rewrite combine_nth by (rewrite combine_length, np_diff_length, sig_len, tl_length; lia). rewrite combine_nth by (rewrite sig_len, tl_length; lia).
  rewrite sig_nth, nth_tl, nth_diff by lia. reflexivity.
Qed.
Lemma lens : length (p_del vol (pointwise f) (a_y h) (a_v h)) = length (removelast (a_y h)) /\ length (p_vt vol dv (a_t h) (a_y h) (a_v h)) = length (removelast (a_y h)).
Proof.
  unfold p_del, p_vt, pointwise, zip3. rewrite !map_length, !combine_length, !map_length, !combine_length, !removelast_len, np_diff_length, sig_len, !tl_length. lia.
Qed.
Lemma lik_fst restrict : fst (eval_biased_log_lik vol dv (pointwise f) h restrict) =
  Mat.rsum n (fun k => if match restrict with Some r => Nat.eqb (nth k (a_y h) 0%nat) r | None => true end then term vol dv f h k else 0).
Proof.
  unfold eval_biased_log_lik. cbn [fst]. unfold is_selected. destruct lens as [L1 L2]. rewrite sel_sum, wsum_nth by auto.
  rewrite removelast_len, H2. replace (S n - 1)%nat with n by lia. apply rsum_ext. intros k Hk. rewrite nth_rl by lia. destruct (match restrict with Some _ => _ | None => _ end); auto.
  rewrite pd_nth, pv_nth by auto. reflexivity.
Qed.
Lemma lik_snd : fst (eval_biased_log_lik vol dv (pointwise f) h None) + snd (eval_biased_log_lik vol dv (pointwise f) h None) =
  Mat.rsum n (fun k => let y := nth k (a_y h) 0%nat in (f y (nth (S k) (a_v h) 0) - f y (nth k (a_v h) 0)) / vol y ^ 2) + p_vt_obs vol dv (a_t h) (a_y h) (a_v h).
Proof.
  rewrite lik_fst. unfold eval_biased_log_lik. cbn [snd]. unfold is_selected.
  assert (E : M_models.rsum (select (p_vt vol dv (a_t h) (a_y h) (a_v h)) (map (fun _ : nat => true) (removelast (a_y h)))) = Mat.rsum n (fun k => nth k (p_vt vol dv (a_t h) (a_y h) (a_v h)) 0)).
  { destruct lens as [_ L]. replace n with (length (removelast (a_y h))) by (rewrite removelast_len; lia). revert L. generalize (p_vt vol dv (a_t h) (a_y h) (a_v h)), (removelast (a_y h)).
    intros l m; revert m. induction l as [|a l IH]; intros [|y m] L; try discriminate; [reflexivity|]. unfold select in *. cbn [map combine filter snd fst length]. rewrite rsum_shift. unfold M_models.rsum in *. cbn [fold_right nth]. rewrite IH by (simpl in L; lia). reflexivity. }
  rewrite E.
  rewrite (rsum_ext n (fun k : nat => if true then term vol dv f h k else 0) (fun k => (f (nth k (a_y h) 0%nat) (nth (S k) (a_v h) 0) - f (nth k (a_y h) 0%nat) (nth k (a_v h) 0)) / vol (nth k (a_y h) 0%nat) ^ 2 + nth k (p_vt vol dv (a_t h) (a_y h) (a_v h)) 0)).
  - rewrite rsum_plus. cbv zeta. ring.
  - intros k Hk. rewrite pv_nth by auto. reflexivity.
Qed.
End Lik.
Lemma lik_decomposes vol dv f dim h n : length (a_t h) = S n -> length (a_y h) = S n -> length (a_v h) = S n -> Forall (fun y => (y < dim)%nat) (a_y h) ->
  Mat.rsum dim (fun r => fst (eval_biased_log_lik vol dv (pointwise f) h (Some r))) = fst (eval_biased_log_lik vol dv (pointwise f) h None).
Proof.
  intros H1 H2 H3 HD. rewrite (rsum_ext dim _ _ (fun r _ => lik_fst vol dv f h n H1 H2 H3 (Some r))). rewrite (lik_fst vol dv f h n H1 H2 H3 None). rewrite rsum_swap. apply rsum_ext. intros k Hk.
  rewrite Forall_forall in HD. specialize (HD (nth k (a_y h) 0%nat) ltac:(apply nth_In; lia)). apply (rsum_delta dim (fun _ => term vol dv f h k) (nth k (a_y h) 0%nat) HD).
Qed.
Lemma lik_local vol vol' dv f f' h n r : length (a_t h) = S n -> length (a_y h) = S n -> length (a_v h) = S n -> vol r = vol' r -> (forall x, f r x = f' r x) ->
  fst (eval_biased_log_lik vol dv (pointwise f) h (Some r)) = fst (eval_biased_log_lik vol' dv (pointwise f') h (Some r)).
Proof.
  intros H1 H2 H3 HV HF. rewrite !(lik_fst _ _ _ h n H1 H2 H3). apply rsum_ext. intros k Hk. destruct (Nat.eqb_spec (nth k (a_y h) 0%nat) r) as [E|]; auto. unfold term. rewrite E, HV, !HF. reflexivity.
Qed.
