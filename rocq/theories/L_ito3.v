(** The end point density of sample_conv_endpt. *)
From Coq Require Import Reals List Bool Arith Lia Lra Psatz.
From Coquelicot Require Import Rbar Hierarchy Derive AutoDerive.
From Verif Require Import Base M_models M_ito SpecModels SpecArs L_models.
Import ListNotations.
Local Open Scope R_scope.

Lemma endpt_derive D b sx dx phi T x0 : coherent D b sx dx phi 1 -> 0 < T -> forall x, D x -> derivable_pt_lim (endpt_f sx T x0) x (endpt_df b T x0 x).
Proof.
  intros [HS _ _] HT x Hx. apply is_derive_Reals. unfold endpt_f, endpt_df.
  assert (E : is_derive (K := R_AbsRing) (V := R_NormedModule) (fun x => (x - x0) ^ 2 / (2 * T)) x ((x - x0) / T)) by (auto_derive; [lra|field; lra]).
  exact (is_derive_minus _ _ _ _ _ (HS x Hx) E).
Qed.
Lemma endpt_ou b sg T x0 : 0 < T -> - b < / T -> strictly_concave_on NegInf PosInf (endpt_f (ou_sx [b; sg]) T x0) (endpt_df (ou_drift [b; sg]) T x0).
Proof.
  intros HT HB. split; [intros x _; apply (endpt_derive _ _ _ _ _ _ _ (ou_coherent _) HT); exact Logic.I|].
  intros x y _ _ H. unfold endpt_df, ou_drift, par. cbn [nth]. assert (0 < / T + b) by lra. unfold Rdiv. nra.
Qed.
Lemma endpt_cir k mu s T x0 : 0 < T -> 0 <= k -> 0 < s -> s ^ 2 <= 4 * k * mu -> strictly_concave_on (Fin 0) PosInf (endpt_f (cir_sx [k; mu; s]) T x0) (endpt_df (cir_drift [k; mu; s]) T x0).
Proof.
  intros HT Hk Hs HF. split; [intros x [Hx _]; apply (endpt_derive _ _ _ _ _ _ _ (cir_coherent _) HT); exact Hx|].
  intros x y [Hx _] [Hy _] H. cbn in Hx, Hy. unfold endpt_df, cir_drift, par. cbn [nth]. set (c := 2 * k * mu / s ^ 2 - 1 / 2).
  assert (0 < s ^ 2) by (apply pow_lt; auto).
  assert (HC : 0 <= c). { unfold c. assert (1 / 2 <= 2 * k * mu / s ^ 2); [|lra]. apply (Rmult_le_reg_r (s ^ 2)); auto. replace (2 * k * mu / s ^ 2 * s ^ 2) with (2 * k * mu) by (field; lra). lra. }
  assert (HI : / y < / x) by (apply Rinv_lt_contravar; auto; apply Rmult_lt_0_compat; auto). assert (0 < / T) by (apply Rinv_0_lt_compat; auto). unfold Rdiv. nra.
Qed.
Lemma endpt_cir_not k mu s T x0 : 0 < T -> 0 <= k -> 0 < s -> 4 * k * mu < s ^ 2 -> ~ concave_on (Fin 0) PosInf (endpt_f (cir_sx [k; mu; s]) T x0) (endpt_df (cir_drift [k; mu; s]) T x0).
Proof.
  intros HT Hk Hs HF [_ HD]. unfold endpt_df, cir_drift, par in HD. cbn [nth] in HD. set (c := 2 * k * mu / s ^ 2 - 1 / 2) in *.
  assert (0 < s ^ 2) by (apply pow_lt; auto).
  assert (HC : c < 0). { unfold c. assert (2 * k * mu / s ^ 2 < 1 / 2); [|lra]. apply (Rmult_lt_reg_r (s ^ 2)); auto. replace (2 * k * mu / s ^ 2 * s ^ 2) with (2 * k * mu) by (field; lra). lra. }
  assert (HI : 0 < / T) by (apply Rinv_0_lt_compat; auto). set (m := - c + k / 2 + / T + 1). assert (Hm : - c < m) by (unfold m; lra).
  assert (X0 : 0 < - c / m) by (apply Rdiv_lt_0_compat; lra). assert (X1 : - c / m < 1) by (apply (Rmult_lt_reg_r m); [lra|]; unfold Rdiv; rewrite Rmult_assoc, Rinv_l by lra; lra).
  specialize (HD (- c / m) 1). cbn in HD. specialize (HD (conj X0 Logic.I) (conj Rlt_0_1 Logic.I) X1).
  replace (c / (- c / m)) with (- m) in HD by (field; split; lra). unfold m in HD at 1. unfold Rdiv in *. set (x := - c * / m) in *. nra.
Qed.
