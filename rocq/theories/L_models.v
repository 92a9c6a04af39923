(** Lemmas: bounds of the discrepancy, coherence of the models. *)
From Coq Require Import Reals List Bool Arith Lia Lra Psatz.
From Coquelicot Require Import Rbar Hierarchy Continuity Derive AutoDerive.
From Verif Require Import Base Np Rng L_rng M_mjp M_hit M_path M_skel M_seed SpecSkel SpecSeed M_models SpecModels.
Import ListNotations.
Local Open Scope R_scope.

(** ** even quadratics *)
Lemma quad_bounds (f : R -> R) (k m inf l u : R) : (forall x, f x = k * (x * x) + m) -> 0 <= k -> inf <= m -> l <= u ->
  tight_bounds f l u (inf, (if Rltb l 0 && Rltb 0 u then f 0 else f (Rmin (Rabs l) (Rabs u))), f (Rmax (Rabs l) (Rabs u))).
Proof.
  intros F K I LU. unfold tight_bounds.
  assert (MX : exists x, (x = l \/ x = u) /\ f x = f (Rmax (Rabs l) (Rabs u)) /\ Rmax (Rabs l) (Rabs u) * Rmax (Rabs l) (Rabs u) = x * x).
  { unfold Rmax. destruct (Rle_dec (Rabs l) (Rabs u)); [exists u|exists l]; rewrite !F; rewrite <- Rabs_mult, (Rabs_right (_ * _)) by nra; auto. }
  destruct MX as (xm & XM & EM & SM).
  assert (INC : forall p q, p * p <= q * q -> f p <= f q) by (intros p q Hpq; rewrite !F; apply Rplus_le_compat_r, Rmult_le_compat_l; auto).
  assert (LOW : forall p, m <= f p) by (intros p; rewrite F; assert (0 <= k * (p * p)) by (apply Rmult_le_pos; nra); lra).
  assert (UB : forall x, l <= x <= u -> x * x <= Rmax (Rabs l) (Rabs u) * Rmax (Rabs l) (Rabs u)).
  { intros x Hx. assert (A : Rabs x <= Rmax (Rabs l) (Rabs u)).
    { unfold Rabs. destruct (Rcase_abs x), (Rcase_abs l), (Rcase_abs u); unfold Rmax; destruct (Rle_dec _ _); lra. }
    rewrite <- (Rabs_right (x * x)) by nra. rewrite Rabs_mult. assert (B := Rabs_pos x). nra. }
  destruct (Rltb_dec l 0) as [[L1 ->]|[L1 ->]]; cbn [andb]; [destruct (Rltb_dec 0 u) as [[L2 ->]|[L2 ->]]|].
  - split; [specialize (LOW 0); lra|]. split; [intros x Hx; specialize (UB x Hx); split; apply INC; nra|]. split; [exists 0; lra|]. exists xm. split; auto. destruct XM; subst; lra.
  - rewrite (Rabs_left l), (Rabs_left1 u) in * by lra. rewrite Rmin_right by lra.
    split; [specialize (LOW (- u)); lra|]. split; [intros x Hx; specialize (UB x Hx); split; apply INC; nra|]. split; [exists u; split; [lra|]; rewrite !F; ring|]. exists xm. split; auto. destruct XM; subst; lra.
  - rewrite (Rabs_right l), (Rabs_right u) in * by lra. rewrite Rmin_left by lra.
    split; [specialize (LOW l); lra|]. split; [intros x Hx; specialize (UB x Hx); split; apply INC; nra|]. split; [exists l; split; [lra|]; reflexivity|]. exists xm. split; auto. destruct XM; subst; lra.
Qed.
Lemma tight_encloses (f : R -> R) b : (forall l u, l <= u -> tight_bounds f l u (b l u)) -> encloses (as_bounds b) f.
Proof.
  intros H l u LU. unfold as_bounds. specialize (H l u LU). destruct (b l u) as [[i lo] hi]. destruct H as (_ & H & _). intros x Hx. apply H in Hx. cbn. lra.
Qed.
Lemma ou_bounds thi l u : l <= u -> tight_bounds (ou_disc thi) l u (ou_bounds_disc thi l u).
Proof.
  intros LU. apply (quad_bounds (ou_disc thi) (par thi 0 ^ 2 / 2) (- par thi 0 / 2)); auto; unfold ou_inf; try lra; [|nra].
  intros x. unfold ou_disc, ito_disc, ou_drift, ou_dx. field.
Qed.
Lemma ou1_bounds thi y l u : par2 thi y 1 <> 0 -> l <= u -> tight_bounds (ou1_disc thi y) l u (ou1_bounds_disc thi y l u).
Proof.
  intros NZ LU. apply (quad_bounds (ou1_disc thi y) ((par2 thi y 0 * par2 thi y 1) ^ 2 / 2) (- par2 thi y 0 / 2)); auto; unfold ou1_inf; try lra; [|nra].
  intros x. unfold ou1_disc, sw_disc, ou1_drift, ou1_dx, ou1_vol. field. auto.
Qed.
Lemma ou2_bounds thi y l u : par2 thi y 0 <> 0 -> par2 thi y 1 <> 0 -> l <= u -> tight_bounds (ou2_disc thi y) l u (ou2_bounds_disc thi y l u).
Proof.
  intros N0 N1 LU. apply (quad_bounds (ou2_disc thi y) (par2 thi y 1 ^ 2 / 2) (- par2 thi y 0 / 2)); auto; unfold ou2_inf; try lra; [|nra].
  intros x. unfold ou2_disc, sw_disc, ou2_drift, ou2_dx, ou2_vol. field. auto.
Qed.
Lemma prod_two thi y a b : row thi y = [a; b] -> prod_row thi y = a * b /\ par2 thi y 0 = a /\ par2 thi y 1 = b.
Proof. unfold prod_row, par2. intros ->. unfold np_prod. cbn. split; [simpl; ring|auto]. Qed.
Lemma ou3_bounds thi y r la l u : row thi y = [r; la] -> 0 < r -> 0 < la -> l <= u -> tight_bounds (ou3_disc thi y) l u (ou3_bounds_disc thi y l u).
Proof.
  intros E Hr Hl LU. destruct (prod_two thi y r la E) as (P & A & B).
  apply (quad_bounds (ou3_disc thi y) (la ^ 2 / 2) (- (r * la) / 4)); auto; unfold ou3_inf; rewrite ?P; try nra.
  intros x. unfold ou3_disc, sw_disc, ou3_drift, ou3_dx, ou3_vol. rewrite P, A. field. lra.
Qed.

(** ** the first component *)
Lemma ou_smallest thi l u : smallest (ou_disc thi) (fst (fst (ou_bounds_disc thi l u))).
Proof.
  assert (E : forall x, ou_disc thi x = par thi 0 ^ 2 / 2 * (x * x) - par thi 0 / 2) by (intros x; unfold ou_disc, ito_disc, ou_drift, ou_dx; field).
  cbn [ou_bounds_disc fst]. split; [exists 0|intros x]; rewrite E; unfold ou_inf; nra.
Qed.
Lemma ou1_smallest thi y l u : par2 thi y 1 <> 0 -> smallest (ou1_disc thi y) (fst (fst (ou1_bounds_disc thi y l u))).
Proof.
  intros NZ. assert (E : forall x, ou1_disc thi y x = (par2 thi y 0 * par2 thi y 1) ^ 2 / 2 * (x * x) - par2 thi y 0 / 2)
    by (intros x; unfold ou1_disc, sw_disc, ou1_drift, ou1_dx, ou1_vol; field; auto).
  change (fst (fst (ou1_bounds_disc thi y l u))) with (ou1_inf thi y). split; [exists 0|intros x]; rewrite E; unfold ou1_inf; nra.
Qed.
Lemma ou2_smallest thi y l u : par2 thi y 0 <> 0 -> par2 thi y 1 <> 0 -> smallest (ou2_disc thi y) (fst (fst (ou2_bounds_disc thi y l u))).
Proof.
  intros N0 N1. assert (E : forall x, ou2_disc thi y x = par2 thi y 1 ^ 2 / 2 * (x * x) - par2 thi y 0 / 2)
    by (intros x; unfold ou2_disc, sw_disc, ou2_drift, ou2_dx, ou2_vol; field; auto).
  change (fst (fst (ou2_bounds_disc thi y l u))) with (ou2_inf thi y). split; [exists 0|intros x]; rewrite E; unfold ou2_inf; nra.
Qed.
(** the third model returns twice its smallest value, a negative number *)
Lemma ou3_smallest thi y r la l u : row thi y = [r; la] -> 0 < r -> 0 < la ->
  smallest (ou3_disc thi y) (fst (fst (ou3_bounds_disc thi y l u)) / 2) /\ fst (fst (ou3_bounds_disc thi y l u)) < 0.
Proof.
  intros E Hr Hl. destruct (prod_two thi y r la E) as (P & A & B).
  assert (F : forall x, ou3_disc thi y x = la ^ 2 / 2 * (x * x) - r * la / 4)
    by (intros x; unfold ou3_disc, sw_disc, ou3_drift, ou3_dx, ou3_vol; rewrite P, A; field; lra).
  change (fst (fst (ou3_bounds_disc thi y l u))) with (ou3_inf thi y). unfold ou3_inf. rewrite P.
  repeat split; [exists 0; rewrite F; nra|intros x; rewrite F; nra|nra].
Qed.

(** ** CIR *)
Section Cir.
Context (k mu s : R) (Hk : 0 < k) (Hs : 0 < s).
Let thi := [k; mu; s].
Let c := 2 * k * mu / s ^ 2 - 1 / 2.
Lemma cir_phi x : x <> 0 -> cir_disc thi x = (c * c - c) / (2 * (x * x)) + k ^ 2 / 8 * (x * x) - c * k / 2 - k / 4.
Proof. intros NZ. unfold cir_disc, ito_disc, cir_drift, cir_dx, par, thi, c. cbn [nth]. field. lra. Qed.
Lemma c_small : 4 * k * mu < s ^ 2 <-> c < 0.
Proof.
  assert (S2 : 0 < s ^ 2) by nra. assert (I := Rinv_0_lt_compat _ S2). assert (E : s ^ 2 * / s ^ 2 = 1) by (field; lra). unfold c, Rdiv. split; intros H; [nra|].
  apply Rmult_lt_compat_r with (r := s ^ 2) in H; auto. replace ((2 * k * mu * / s ^ 2 - 1 * / 2) * s ^ 2) with (2 * k * mu - s ^ 2 / 2) in H by (field; lra). lra.
Qed.
Lemma c_large : 3 * s ^ 2 <= 4 * k * mu <-> 1 <= c.
Proof.
  assert (S2 : 0 < s ^ 2) by nra. assert (E : c * s ^ 2 = 2 * k * mu - s ^ 2 / 2) by (unfold c; field; lra). split; intros H.
  - apply Rmult_le_reg_r with (s ^ 2); auto. lra.
  - apply Rmult_le_compat_r with (r := s ^ 2) in H; lra.
Qed.
Lemma argmin_pow : 0 <= c * c - c -> cir_argmin thi ^ 4 = 4 * (c * c - c) / k ^ 2 /\ 0 <= cir_argmin thi.
Proof.
  intros H. unfold cir_argmin, par, thi. cbn [nth].
  replace ((4 * mu / s ^ 2 - 2 / k) ^ 2 - 1 / k ^ 2) with (4 * (c * c - c) / k ^ 2) by (unfold c; field; lra).
  set (q := 4 * (c * c - c) / k ^ 2). assert (Q : 0 <= q). { unfold q. apply Rmult_le_pos; [lra|]. apply Rlt_le, Rinv_0_lt_compat. nra. }
  split; [|apply sqrt_pos]. replace (sqrt (sqrt q) ^ 4) with ((sqrt (sqrt q) * sqrt (sqrt q)) * (sqrt (sqrt q) * sqrt (sqrt q))) by ring.
  rewrite sqrt_sqrt by apply sqrt_pos. now rewrite sqrt_sqrt.
Qed.
(** phi(y) - phi(x) *)
Lemma phi_diff x y : x <> 0 -> y <> 0 -> cir_disc thi y - cir_disc thi x = (y * y - x * x) * (k ^ 2 / 8 - (c * c - c) / (2 * (x * x) * (y * y))).
Proof. intros X Y. rewrite !cir_phi by auto. field. lra. Qed.
Lemma phi_diff2 x y m : x <> 0 -> y <> 0 -> m ^ 4 = 4 * (c * c - c) / k ^ 2 ->
  cir_disc thi y - cir_disc thi x = k ^ 2 / 8 * (y * y - x * x) * (x * x * (y * y) - m ^ 4) / (x * x * (y * y)).
Proof. intros X Y E. rewrite phi_diff by auto. rewrite E. field. lra. Qed.
Lemma pos_div a b : 0 <= a -> 0 < b -> 0 <= a / b.
Proof. intros. apply Rmult_le_pos; auto. now apply Rlt_le, Rinv_0_lt_compat. Qed.
(** increasing above the minimum *)
Lemma phi_up m x y : 0 <= m -> m ^ 4 = 4 * (c * c - c) / k ^ 2 -> 0 < x -> m <= x -> x <= y -> cir_disc thi x <= cir_disc thi y.
Proof.
  intros M0 ME X MX XY. assert (D := phi_diff2 x y m ltac:(lra) ltac:(lra) ME).
  assert (0 <= k ^ 2 / 8 * (y * y - x * x) * (x * x * (y * y) - m ^ 4) / (x * x * (y * y))).
  { apply pos_div; [|apply Rmult_lt_0_compat; nra]. apply Rmult_le_pos; [apply Rmult_le_pos; [nra|nra]|]. assert (m * m <= x * x) by nra. assert (m * m <= y * y) by nra.
    assert (m * m * (m * m) <= x * x * (y * y)) by (apply Rmult_le_compat; nra). nra. }
  lra.
Qed.
Lemma phi_down m x y : 0 <= m -> m ^ 4 = 4 * (c * c - c) / k ^ 2 -> 0 < x -> x <= y -> y <= m -> cir_disc thi y <= cir_disc thi x.
Proof.
  intros M0 ME X XY YM. assert (D := phi_diff2 x y m ltac:(lra) ltac:(lra) ME).
  assert (0 <= k ^ 2 / 8 * (y * y - x * x) * (m ^ 4 - x * x * (y * y)) / (x * x * (y * y))).
  { apply pos_div; [|apply Rmult_lt_0_compat; nra]. apply Rmult_le_pos; [apply Rmult_le_pos; [nra|nra]|]. assert (x * x <= m * m) by nra. assert (y * y <= m * m) by nra.
    assert (x * x * (y * y) <= m * m * (m * m)) by (apply Rmult_le_compat; nra). nra. }
  assert (Z : k ^ 2 / 8 * (y * y - x * x) * (x * x * (y * y) - m ^ 4) / (x * x * (y * y)) = - (k ^ 2 / 8 * (y * y - x * x) * (m ^ 4 - x * x * (y * y)) / (x * x * (y * y)))) by (field; lra).
  lra.
Qed.
(** increasing everywhere *)
Lemma phi_mono x y : c * c - c <= 0 -> 0 < x -> x <= y -> cir_disc thi x <= cir_disc thi y.
Proof.
  intros C X XY. assert (D := phi_diff x y ltac:(lra) ltac:(lra)).
  assert (P : 0 < 2 * (x * x) * (y * y)) by (apply Rmult_lt_0_compat; nra).
  assert ((c * c - c) / (2 * (x * x) * (y * y)) <= 0). { unfold Rdiv. assert (0 < / (2 * (x * x) * (y * y))) by now apply Rinv_0_lt_compat. nra. }
  assert (0 <= (y * y - x * x) * (k ^ 2 / 8 - (c * c - c) / (2 * (x * x) * (y * y)))) by (apply Rmult_le_pos; nra). lra.
Qed.
Lemma cir_sound l u : s ^ 2 <= 4 * k * mu -> l <= u -> l <> 0 -> (l < 0 -> 3 * s ^ 2 < 4 * k * mu) ->
  exists inf lo hi, cir_bounds_disc thi l u = (inf, Some lo, hi) /\
  (forall x, 0 < x -> l <= x <= u -> lo <= cir_disc thi x /\ ele (Fin (cir_disc thi x)) hi) /\ (forall i, inf = Some i -> i <= lo /\ forall x, 0 < x -> i <= cir_disc thi x) /\
  (inf = None <-> 4 * k * mu <= 3 * s ^ 2) /\ (hi = PosInf <-> l < 0).
Proof.
  intros C0 LU LN LC. assert (CP : ~ c < 0) by (rewrite <- c_small; lra).
  unfold cir_bounds_disc. replace (par thi 0) with k by reflexivity. replace (par thi 1) with mu by reflexivity. replace (par thi 2) with s by reflexivity.
  destruct (Rltb_dec (4 * k * mu) (3 * s ^ 2)) as [[H ->]|[H ->]].
  - assert (L0 : 0 < l) by (destruct (Rlt_le_dec l 0) as [Z|Z]; [specialize (LC Z); lra|lra]).
    assert (C1 : c < 1) by (apply Rnot_le_lt; rewrite <- c_large; lra).
    eexists None, _, _. split; [reflexivity|]. split; [|split; [discriminate|split; [split; auto; lra|split; [discriminate|lra]]]]. intros x X Hx. assert (A := phi_mono l x ltac:(nra) L0 ltac:(lra)). assert (B := phi_mono x u ltac:(nra) X ltac:(lra)).
    rewrite Rmin_left, Rmax_right by lra. cbn. lra.
  - assert (C1 : 1 <= c) by (apply c_large; lra). assert (CC : 0 <= c * c - c) by nra. destruct (argmin_pow CC) as [ME M0]. set (m := cir_argmin thi) in *.
    assert (K2 : 0 < k ^ 2) by nra. assert (E : 4 * (c * c - c) / k ^ 2 * k ^ 2 = 4 * (c * c - c)) by (field; lra).
    assert (ES : c * s ^ 2 = 2 * k * mu - s ^ 2 / 2) by (unfold c; field; lra). assert (S2 : 0 < s ^ 2) by nra.
    destruct (Reqb_dec m 0) as [[Z ->]|[Z ->]].
    + assert (CZ : c = 1) by (rewrite <- ME, Z in E; nra). assert (L0 : 0 < l) by (destruct (Rlt_le_dec l 0) as [Q|Q]; [specialize (LC Q); rewrite CZ in ES; lra|lra]).
      rewrite (proj2 (Rltb_false l 0)) by lra. rewrite (proj2 (Rleb_true m l)) by lra. eexists None, _, _. split; [reflexivity|].
      split; [|split; [discriminate|split; [split; auto; intros _; rewrite CZ in ES; lra|split; [discriminate|lra]]]].
      intros x X Hx. cbn. split; apply (phi_up m); auto; lra.
    + assert (CZ : c <> 1) by (intros CZ; apply Z; rewrite CZ in ME; assert (m ^ 4 = 0) by (rewrite ME; field; lra); destruct M0 as [M0|M0]; auto; assert (Q := pow_lt m 4 M0); lra).
      assert (BIG : 3 * s ^ 2 < 4 * k * mu) by nra.
      assert (MIN : forall x, 0 < x -> cir_disc thi m <= cir_disc thi x) by (intros x X; destruct (Rle_dec x m); [apply (phi_down m); auto; lra|apply (phi_up m); auto; lra]).
      destruct (Rltb_dec l 0) as [[H1 ->]|[H1 ->]]; [|destruct (Rleb_dec m l) as [[H2 ->]|[H2 ->]]; [|destruct (Rleb_dec u m) as [[H3 ->]|[H3 ->]]]];
        (eexists _, _, _; split; [reflexivity|]; split; [|split; [intros i [= <-]; split; [try apply Rle_refl; apply MIN; lra|apply MIN]|split; [split; [discriminate|lra]|split; [intros Q; try discriminate Q; lra|intros; try reflexivity; lra]]]]); intros x X Hx; cbn [ele].
      * split; auto.
      * split; apply (phi_up m); auto; lra.
      * split; apply (phi_down m); auto; lra.
      * split; auto. destruct (Rle_dec x m).
        -- apply Rle_trans with (cir_disc thi l); [apply (phi_down m); auto; lra|apply Rmax_l].
        -- apply Rle_trans with (cir_disc thi u); [apply (phi_up m); auto; lra|apply Rmax_r].
Qed.
(** below sigma^2 / 4 there are intervals on which the lower bound is wrong *)
Lemma cir_unsound : 4 * k * mu < s ^ 2 -> exists l u x lo hi inf, 0 < l <= u /\ l <= x <= u /\ cir_bounds_disc thi l u = (inf, Some lo, hi) /\ cir_disc thi x < lo.
Proof.
  intros C0. assert (C1 := proj1 c_small C0). assert (CC : 0 < c * c - c) by nra. destruct (argmin_pow (Rlt_le _ _ CC)) as [ME M0]. set (m := cir_argmin thi) in *.
  assert (MP : 0 < m). { destruct M0 as [M0|M0]; auto. rewrite <- M0 in ME. assert (0 < 4 * (c * c - c) / k ^ 2) by (apply Rdiv_lt_0_compat; nra). lra. }
  exists (m / 2), (2 * m), m, (Rmin (cir_disc thi (m / 2)) (cir_disc thi (2 * m))), (Fin (Rmax (cir_disc thi (m / 2)) (cir_disc thi (2 * m)))), None.
  split; [lra|]. split; [lra|]. split.
  - unfold cir_bounds_disc. replace (par thi 0) with k by reflexivity. replace (par thi 1) with mu by reflexivity. replace (par thi 2) with s by reflexivity.
    rewrite (proj2 (Rltb_true (4 * k * mu) (3 * s ^ 2))); auto. nra.
  - assert (K : 0 < k ^ 2 / 8) by nra. assert (MM : 0 < m * m) by nra.
    assert (D1 := phi_diff2 m (m / 2) m ltac:(lra) ltac:(lra) ME). assert (D2 := phi_diff2 m (2 * m) m ltac:(lra) ltac:(lra) ME).
    replace (k ^ 2 / 8 * (m / 2 * (m / 2) - m * m) * (m * m * (m / 2 * (m / 2)) - m ^ 4) / (m * m * (m / 2 * (m / 2)))) with (k ^ 2 / 8 * (m * m) * (9 / 4)) in D1 by (field; lra).
    replace (k ^ 2 / 8 * (2 * m * (2 * m) - m * m) * (m * m * (2 * m * (2 * m)) - m ^ 4) / (m * m * (2 * m * (2 * m)))) with (k ^ 2 / 8 * (m * m) * (9 / 4)) in D2 by (field; lra).
    assert (0 < k ^ 2 / 8 * (m * m)) by now apply Rmult_lt_0_compat. apply Rmin_glb_lt; lra.
Qed.
End Cir.

(** ** coherence *)
Lemma ou_coherent thi : coherent (fun _ => True) (ou_drift thi) (ou_sx thi) (ou_dx thi) (ou_disc thi) 1.
Proof.
  unfold ou_drift, ou_sx, ou_dx, ou_disc, ito_disc. split; intros x _.
  - auto_derive; auto. field.
  - auto_derive; auto. ring.
  - unfold ou_drift, ou_dx. field.
Qed.
Lemma ou_lamperti thi : 0 < par thi 1 ->
  lamperti (fun _ => True) (fun _ => True) (fun v => - par thi 0 * v) (fun _ => par thi 1) (fun _ => 0) (ou_reduce thi) (ou_dv thi) (ou_dereduce thi) (ou_drift thi).
Proof.
  intros H. unfold ou_reduce, ou_dv, ou_dereduce, ou_drift. split; auto; intros v _.
  - field. lra.
  - field. lra.
  - auto_derive; auto.
  - rewrite pow_O. field. lra.
  - change 0 with (@zero R_NormedModule). apply (is_derive_const (K := R_AbsRing) (V := R_NormedModule)).
  - field. lra.
Qed.
Lemma cir_coherent thi : coherent (fun x => 0 < x) (cir_drift thi) (cir_sx thi) (cir_dx thi) (cir_disc thi) 1.
Proof.
  set (a := 2 * par thi 0 * par thi 1 / par thi 2 ^ 2). split; intros x X.
  - unfold cir_drift, cir_sx. fold a. auto_derive; auto. field. lra.
  - unfold cir_drift, cir_dx. fold a. auto_derive; [lra|]. field. lra.
  - unfold cir_disc, ito_disc, cir_drift, cir_dx. fold a. field. lra.
Qed.
Lemma cir_lamperti k mu s : 0 < s -> let thi := [k; mu; s] in
  lamperti (fun v => 0 < v) (fun x => 0 < x) (fun v => k * (mu - v)) (fun v => s * sqrt v) (fun v => s / (2 * sqrt v)) (cir_reduce thi) (cir_dv thi) (cir_dereduce thi) (cir_drift thi).
Proof.
  intros H thi. unfold cir_reduce, cir_dv, cir_dereduce, cir_drift, par, thi. cbn [nth]. split; intros v V; assert (Q := sqrt_lt_R0 v V).
  - apply Rdiv_lt_0_compat; lra.
  - apply Rmult_lt_0_compat; nra.
  - replace (2 * sqrt v / s * s / 2) with (sqrt v) by (field; lra). apply sqrt_sqrt. lra.
  - rewrite sqrt_square by nra. field. lra.
  - auto_derive; auto. field. lra.
  - field. lra.
  - auto_derive; auto. field. lra.
  - assert (E := sqrt_sqrt v ltac:(lra)). set (q := sqrt v) in *. replace v with (q * q). field. lra.
Qed.
Lemma ou1_coherent thi y : par2 thi y 1 <> 0 -> coherent (fun _ => True) (ou1_drift thi y) (ou1_sx thi y) (ou1_dx thi y) (ou1_disc thi y) (ou1_vol thi y).
Proof.
  intros NZ. unfold ou1_drift, ou1_sx, ou1_dx, ou1_disc, sw_disc, ou1_vol. split; intros x _.
  - auto_derive; auto. field.
  - auto_derive; auto. ring.
  - unfold ou1_drift, ou1_dx, ou1_vol. field. auto.
Qed.
Lemma ou2_coherent thi y : par2 thi y 0 <> 0 -> par2 thi y 1 <> 0 -> coherent (fun _ => True) (ou2_drift thi y) (ou2_sx thi y) (ou2_dx thi y) (ou2_disc thi y) (ou2_vol thi y).
Proof.
  intros N0 N1. unfold ou2_drift, ou2_sx, ou2_dx, ou2_disc, sw_disc, ou2_vol. split; intros x _.
  - auto_derive; auto. field.
  - auto_derive; auto. ring.
  - unfold ou2_drift, ou2_dx, ou2_vol. field. auto.
Qed.
Lemma ou3_incoherent thi y : prod_row thi y <> 0 ->
  (forall x, is_derive (K := R_AbsRing) (V := R_NormedModule) (ou3_sx thi y) x (ou3_drift thi y x / 2)) /\
  (forall x, x <> 0 -> ~ is_derive (K := R_AbsRing) (V := R_NormedModule) (ou3_sx thi y) x (ou3_drift thi y x)) /\
  (forall x, is_derive (K := R_AbsRing) (V := R_NormedModule) (ou3_drift thi y) x (2 * ou3_dx thi y x)) /\
  (forall x, ~ is_derive (K := R_AbsRing) (V := R_NormedModule) (ou3_drift thi y) x (ou3_dx thi y x)).
Proof.
  intros NZ. assert (D1 : forall x, is_derive (K := R_AbsRing) (V := R_NormedModule) (ou3_sx thi y) x (ou3_drift thi y x / 2)).
  { intros x. unfold ou3_sx, ou3_drift. auto_derive; auto. field. }
  assert (D2 : forall x, is_derive (K := R_AbsRing) (V := R_NormedModule) (ou3_drift thi y) x (2 * ou3_dx thi y x)).
  { intros x. unfold ou3_dx, ou3_drift. auto_derive; auto. field. }
  split; auto. split; [|split; auto].
  - intros x NX H. specialize (D1 x). apply is_derive_unique in D1. apply is_derive_unique in H. rewrite D1 in H. unfold ou3_drift in H.
    assert (E : prod_row thi y * x = 0) by lra. apply Rmult_integral in E as [E|E]; auto.
  - intros x H. specialize (D2 x). apply is_derive_unique in D2. apply is_derive_unique in H. rewrite D2 in H. unfold ou3_dx in H. lra.
Qed.
(** on arrays: the summand of an interval depends on the regimes of the other intervals *)
Lemma ou3_array_mixes : exists thi y z x, ou3_sx_array thi [y; z] [x; x] <> pointwise_sx ou3_sx thi [y; z] [x; x] /\
  ou3_sx_array thi [y; z] [x; x] <> map (fun i => ou3_sx thi i x) [y; z].
Proof.
  exists [[1; 2]; [1; 3]], 0%nat, 1%nat, 2. unfold ou3_sx_array, pointwise_sx, ou3_sx, prod_row, row, np_prod. cbn.
  split; intros E; injection E as E1 E2; simpl in *; lra.
Qed.
