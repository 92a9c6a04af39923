(** Lemmas: when the dual coin of a model can be flipped at all. *)
From Coq Require Import Reals List Bool Arith Lia Lra Psatz.
From Verif Require Import Base Np Rng L_rng M_mjp M_hit M_path M_skel M_seed SpecSkel SpecSeed L_skel6 L_seed L_seed4 M_models SpecModels L_models2.
Import ListNotations.
Local Open Scope R_scope.

Lemma dual_not_positive fuel mp n s C nn dn f np dp g up m o k t : hd_error (fst (dn [1] None)) = Some t -> C <= 0 ->
  fst (flip_dual_coin fuel mp n s C nn dn f np dp g up m o k) = Raise AssertionError.
Proof.
  intros H HC. unfold flip_dual_coin, bind, lift_opt, ret. rewrite H. assert (SR := start_run C t m o k).
  destruct (ppp_start 1 [C; t] m o k) as [[p|e|] k']; [lra| |contradiction]. destruct SR as (_ & -> & _). reflexivity.
Qed.
Lemma updating_zeros a b n : rsum (map Rabs (updating a b (repeat 0 n))) = 0.
Proof.
  unfold updating. generalize (combine a b) as l. intros l. revert n. induction l as [|p l IH]; intros [|n]; cbn [repeat combine filter map rsum fold_right]; auto.
  destruct (negb _); cbn [map rsum fold_right snd]; auto. fold (rsum (map Rabs (map snd (filter (fun p0 => negb (Reqb (fst (fst p0)) (snd (fst p0)))) (combine l (repeat 0 n)))))). rewrite IH, Rabs_R0. ring.
Qed.
Lemma cir_coin_fails fuel mp n thi thi' T v0 v1 s up m o k :
  fst (ito_param_coin fuel mp n cir_reduce cir_disc cir_bounds_grad thi thi' T v0 v1 s up m o k) = Raise AssertionError.
Proof.
  unfold ito_param_coin. cbv zeta. apply dual_not_positive with (t := 1 * (T - 0)); [reflexivity|]. unfold ito_intensity, cir_bounds_grad.
  change [0; 0; 0] with (repeat 0 3). rewrite updating_zeros, Rmult_0_r. lra.
Qed.
(** the intensity of the other models *)
Lemma sum_pos G a : 0 < G -> a <> 0 -> 0 < Rabs a * G.
Proof. intros. apply Rmult_lt_0_compat; auto. now apply Rabs_pos_lt. Qed.
Lemma av_pos v0 v1 : v0 <> 0 \/ v1 <> 0 -> 0 < Rmax (Rabs v0) (Rabs v1).
Proof. intros [H|H]; [eapply Rlt_le_trans; [|apply Rmax_l]|eapply Rlt_le_trans; [|apply Rmax_r]]; now apply Rabs_pos_lt. Qed.
Lemma mask_pos (f : list R -> list R -> list R -> R) a g a' g' G H :
  Rabs (a - a') * G + Rabs (g - g') * H <= f [a; g] [a'; g'] [G; H] -> 0 < G -> 0 <= H -> a <> a' \/ (g <> g' /\ 0 < H) -> 0 < f [a; g] [a'; g'] [G; H].
Proof.
  intros L HG HH [N|[N HP]].
  - assert (P := sum_pos G (a - a') HG ltac:(lra)). assert (Q := Rmult_le_pos _ _ (Rabs_pos (g - g')) HH). lra.
  - assert (P := sum_pos H (g - g') HP ltac:(lra)). assert (Q := Rmult_le_pos _ _ (Rabs_pos (a - a')) (Rlt_le _ _ HG)). lra.
Qed.
Section Pos.
Context (b g b' g' T v0 v1 lo hi : R) (Hb : 0 < b) (Hg : 0 < g) (Hb' : 0 < b') (Hg' : 0 < g') (HT : 0 < T).
Let az := Rmax (Rabs lo) (Rabs hi).
Let av := Rmax (Rabs v0) (Rabs v1).
Lemma az_nn : 0 <= az. Proof. unfold az. eapply Rle_trans; [|apply Rmax_l]. apply Rabs_pos. Qed.
Lemma av_nn : 0 <= av. Proof. unfold av. eapply Rle_trans; [|apply Rmax_l]. apply Rabs_pos. Qed.
Lemma max_pos x y : 0 < x -> 0 < Rmax x y. Proof. intros. eapply Rlt_le_trans; [|apply Rmax_l]; auto. Qed.
Ltac nn := repeat first [apply Rplus_le_le_0_compat | apply Rmult_le_pos | apply pow_le | apply Rlt_le, Rinv_0_lt_compat | apply sqrt_pos | apply az_nn | apply av_nn | (apply Rlt_le, max_pos; assumption) | (apply Rlt_le; assumption) | lra].
Lemma ou_positive : b <> b' \/ (g <> g' /\ (v0 <> 0 \/ v1 <> 0)) -> 0 < ito_intensity [b; g] [b'; g'] (ou_bounds_grad [b; g] [b'; g'] T v0 v1 lo hi).
Proof.
  intros N. unfold ou_bounds_grad, par. cbn [nth]. fold az av. assert (M : 0 < Rmin g g') by (apply Rmin_glb_lt; auto). set (ls := Rmin g g') in *.
  assert (G0 : 0 < Rmax b b' * (T * az ^ 2 + (av / ls) ^ 2 + 2 * sqrt T * az * av / ls) + 1 / 2).
  { assert (0 <= Rmax b b' * (T * az ^ 2 + (av / ls) ^ 2 + 2 * sqrt T * az * av / ls)); [|lra]. unfold Rdiv. nn. }
  assert (H0 : 0 <= Rmax b b' ^ 2 * (sqrt T * az * av / ls ^ 2 + av ^ 2 / ls ^ 3)) by (unfold Rdiv; nn; apply pow_lt; auto).
  apply mask_pos; auto. apply ito_mask; lra. destruct N as [N|[N V]]; auto. right. split; auto. apply av_pos in V. fold av in V.
  apply Rmult_lt_0_compat; [apply pow_lt, max_pos; auto|]. apply Rplus_le_lt_0_compat; [unfold Rdiv; nn; apply pow_lt; auto|]. apply Rdiv_lt_0_compat; apply pow_lt; auto.
Qed.
Lemma ou1_positive : b <> b' \/ (g <> g' /\ (v0 <> 0 \/ v1 <> 0)) -> 0 < sw_intensity [b; g] [b'; g'] (ou1_bounds_grad [b; g] [b'; g'] T v0 v1 lo hi).
Proof.
  intros N. unfold ou1_bounds_grad, par. cbn [nth]. fold az av.
  assert (G0 : 0 < Rmax b b' * (T * az ^ 2 + (av * Rmax g g') ^ 2 + 2 * sqrt T * az * av * Rmax g g') + 1 / 2).
  { assert (0 <= Rmax b b' * (T * az ^ 2 + (av * Rmax g g') ^ 2 + 2 * sqrt T * az * av * Rmax g g')); [|lra]. nn. }
  assert (H0 : 0 <= Rmax b b' ^ 2 * (sqrt T * az * av + av ^ 2 * Rmax g g')) by nn.
  apply mask_pos; auto. apply sw_mask; lra. destruct N as [N|[N V]]; auto. right. split; auto. apply av_pos in V. fold av in V.
  apply Rmult_lt_0_compat; [apply pow_lt, max_pos; auto|]. apply Rplus_le_lt_0_compat; [nn|]. apply Rmult_lt_0_compat; [apply pow_lt; auto|apply max_pos; auto].
Qed.
Lemma ou2_positive : b <> b' \/ (g <> g' /\ (v0 <> 0 \/ v1 <> 0)) -> 0 < sw_intensity [b; g] [b'; g'] (ou2_bounds_grad [b; g] [b'; g'] T v0 v1 lo hi).
Proof.
  intros N. unfold ou2_bounds_grad, par. cbn [nth]. fold az av.
  assert (G0 : 0 < Rmax b b' * T * az ^ 2 + Rmax g g' * sqrt T * az * av + 1 / 2).
  { assert (0 <= Rmax b b' * T * az ^ 2 + Rmax g g' * sqrt T * az * av); [|lra]. nn. }
  assert (H0 : 0 <= Rmax g g' * av ^ 2 + Rmax b b' * sqrt T * az * av) by nn.
  apply mask_pos; auto. apply sw_mask; lra. destruct N as [N|[N V]]; auto. right. split; auto. apply av_pos in V. fold av in V.
  rewrite Rplus_comm. apply Rplus_le_lt_0_compat; [nn|]. apply Rmult_lt_0_compat; [apply max_pos; auto|apply pow_lt; auto].
Qed.
Lemma ou3_positive : b <> b' \/ g <> g' -> 0 < sw_intensity [b; g] [b'; g'] (ou3_bounds_grad [b; g] [b'; g'] T v0 v1 lo hi).
Proof.
  intros N. unfold ou3_bounds_grad, par. cbn [nth]. fold az av. assert (M1 := max_pos b b' Hb). assert (M2 := max_pos g g' Hg).
  assert (G0 : 0 < Rmax g g' ^ 2 * (Rmax b b' * T * az ^ 2 + sqrt T * az * av) + Rmax g g' / 2).
  { assert (0 <= Rmax g g' ^ 2 * (Rmax b b' * T * az ^ 2 + sqrt T * az * av)); [|lra]. nn. }
  assert (H0 : 0 < Rmax g g' * (Rmax b b' ^ 2 * T * az ^ 2 + av ^ 2 + 2 * Rmax b b' * sqrt T * az * av) + Rmax b b' / 2).
  { assert (0 <= Rmax g g' * (Rmax b b' ^ 2 * T * az ^ 2 + av ^ 2 + 2 * Rmax b b' * sqrt T * az * av)); [|lra]. nn. }
  apply mask_pos; auto. apply sw_mask; lra. lra. destruct N as [N|N]; auto.
Qed.
End Pos.
(** both ends at zero and the same first parameter: the intensity is zero *)
Lemma zero_ends_mask_ito a g g' G : ito_intensity [a; g] [a; g'] [G; 0] = 0.
Proof.
  unfold ito_intensity, updating. cbn [combine map filter fst snd]. destruct (Reqb_dec a a) as [[_ ->]|[N _]]; [|now contradiction N].
  destruct (Reqb g g'); cbn; rewrite ?Rabs_R0; ring.
Qed.
Lemma zero_ends_mask_sw a g g' G : sw_intensity [a; g] [a; g'] [G; 0] = 0.
Proof.
  unfold sw_intensity, updating. cbn [combine map filter fst snd]. destruct (Reqb_dec a a) as [[_ ->]|[N _]]; [|now contradiction N].
  destruct (Reqb g g'); cbn; ring.
Qed.
Lemma max_00 : Rmax (Rabs 0) (Rabs 0) = 0.
Proof. rewrite Rabs_R0. apply Rmax_left. lra. Qed.
Lemma ou_zero_ends b g g' T lo hi : ito_intensity [b; g] [b; g'] (ou_bounds_grad [b; g] [b; g'] T 0 0 lo hi) = 0.
Proof.
  unfold ou_bounds_grad, par. cbn [nth]. rewrite max_00.
  match goal with |- ito_intensity _ _ [?G; ?H] = _ => replace H with 0 by (unfold Rdiv; ring) end. apply zero_ends_mask_ito.
Qed.
Lemma ou1_zero_ends b g g' T lo hi : sw_intensity [b; g] [b; g'] (ou1_bounds_grad [b; g] [b; g'] T 0 0 lo hi) = 0.
Proof.
  unfold ou1_bounds_grad, par. cbn [nth]. rewrite max_00.
  match goal with |- sw_intensity _ _ [?G; ?H] = _ => replace H with 0 by ring end. apply zero_ends_mask_sw.
Qed.
Lemma ou2_zero_ends b g g' T lo hi : sw_intensity [b; g] [b; g'] (ou2_bounds_grad [b; g] [b; g'] T 0 0 lo hi) = 0.
Proof.
  unfold ou2_bounds_grad, par. cbn [nth]. rewrite max_00.
  match goal with |- sw_intensity _ _ [?G; ?H] = _ => replace H with 0 by ring end. apply zero_ends_mask_sw.
Qed.
Lemma ou_coin_zero_ends fuel mp n b g g' T s up m o k :
  fst (ito_param_coin fuel mp n ou_reduce ou_disc ou_bounds_grad [b; g] [b; g'] T 0 0 s up m o k) = Raise AssertionError.
Proof. unfold ito_param_coin. cbv zeta. apply dual_not_positive with (t := 1 * (T - 0)); [reflexivity|]. rewrite ou_zero_ends. lra. Qed.
Lemma ou1_coin_zero_ends fuel mp n thi thi' y b g g' T s up m o k : row thi y = [b; g] -> row thi' y = [b; g'] ->
  fst (sw_param_coin fuel mp n ou1_vol ou1_disc ou1_bounds_grad thi thi' T y 0 0 s up m o k) = Raise AssertionError.
Proof. intros E F. unfold sw_param_coin. cbv zeta. apply dual_not_positive with (t := 1 * (T - 0)); [reflexivity|]. rewrite E, F, ou1_zero_ends. lra. Qed.
Lemma ou2_coin_zero_ends fuel mp n thi thi' y b g g' T s up m o k : row thi y = [b; g] -> row thi' y = [b; g'] ->
  fst (sw_param_coin fuel mp n ou2_vol ou2_disc ou2_bounds_grad thi thi' T y 0 0 s up m o k) = Raise AssertionError.
Proof. intros E F. unfold sw_param_coin. cbv zeta. apply dual_not_positive with (t := 1 * (T - 0)); [reflexivity|]. rewrite E, F, ou2_zero_ends. lra. Qed.
Lemma all_positive b g b' g' T v0 v1 lo hi : 0 < b -> 0 < g -> 0 < b' -> 0 < g' -> 0 < T ->
  (b <> b' \/ (g <> g' /\ (v0 <> 0 \/ v1 <> 0)) ->
    0 < ito_intensity [b; g] [b'; g'] (ou_bounds_grad [b; g] [b'; g'] T v0 v1 lo hi) /\
    0 < sw_intensity [b; g] [b'; g'] (ou1_bounds_grad [b; g] [b'; g'] T v0 v1 lo hi) /\
    0 < sw_intensity [b; g] [b'; g'] (ou2_bounds_grad [b; g] [b'; g'] T v0 v1 lo hi)) /\
  (b <> b' \/ g <> g' -> 0 < sw_intensity [b; g] [b'; g'] (ou3_bounds_grad [b; g] [b'; g'] T v0 v1 lo hi)).
Proof. intros. split; intros N; [split; [|split]|]; [apply ou_positive|apply ou1_positive|apply ou2_positive|apply ou3_positive]; auto. Qed.
