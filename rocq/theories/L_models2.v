(** Lemmas: the intensity of the dual coin dominates the difference of the discrepancies. *)
From Coq Require Import Reals List Bool Arith Lia Lra Psatz.
From Verif Require Import Base Np Rng L_rng M_mjp M_hit M_path M_skel M_seed SpecSkel SpecSeed L_seed L_seed4 M_models SpecModels.
Import ListNotations.
Local Open Scope R_scope.

(** ** the masked sums *)
Lemma ito_mask a g a' g' G H : 0 <= G -> 0 <= H -> Rabs (a - a') * G + Rabs (g - g') * H <= ito_intensity [a; g] [a'; g'] [G; H].
Proof.
  intros HG HH. unfold ito_intensity, updating. cbn [combine map filter fst snd].
  assert (A := Rabs_pos (a - a')). assert (B := Rabs_pos (g - g')).
  assert (P1 := Rmult_le_pos _ _ A HH). assert (P2 := Rmult_le_pos _ _ B HG).
  destruct (Reqb_dec a a') as [[E ->]|[E ->]], (Reqb_dec g g') as [[F ->]|[F ->]]; cbn [negb map filter snd fst rsum fold_right];
    rewrite ?(Rabs_right G), ?(Rabs_right H) by lra; subst; rewrite ?Rminus_eq_0, ?Rabs_R0 in *; nra.
Qed.
Lemma sw_mask a g a' g' G H : 0 <= G -> 0 <= H -> Rabs (a - a') * G + Rabs (g - g') * H <= sw_intensity [a; g] [a'; g'] [G; H].
Proof.
  intros HG HH. unfold sw_intensity, updating. cbn [combine map filter fst snd].
  assert (A := Rabs_pos (a - a')). assert (B := Rabs_pos (g - g')).
  assert (P1 := Rmult_le_pos _ _ A HH). assert (P2 := Rmult_le_pos _ _ B HG).
  destruct (Reqb_dec a a') as [[E ->]|[E ->]], (Reqb_dec g g') as [[F ->]|[F ->]]; cbn [negb map filter snd fst rsum fold_right];
    subst; rewrite ?Rminus_eq_0, ?Rabs_R0 in *; nra.
Qed.
(** ** bounding products *)
Lemma abs_prod x y X Y : Rabs x <= X -> Rabs y <= Y -> Rabs (x * y) <= X * Y.
Proof. intros. rewrite Rabs_mult. apply Rmult_le_compat; auto; apply Rabs_pos. Qed.
Lemma abs_sum x y X Y : Rabs x <= X -> Rabs y <= Y -> Rabs (x + y) <= X + Y.
Proof. intros. apply Rle_trans with (Rabs x + Rabs y); [apply Rabs_triang|lra]. Qed.
Lemma abs_le_pos x X : Rabs x <= X -> 0 <= X.
Proof. intros. assert (B := Rabs_pos x). lra. Qed.
Lemma square_diff A A' e D Sm E : Rabs (A - A') <= D -> Rabs (A + A') <= 2 * Sm -> Rabs e <= E -> Rabs ((A * A - A' * A') / 2 + e) <= D * Sm + E.
Proof.
  intros H1 H2 H3. apply abs_sum; auto. replace ((A * A - A' * A') / 2) with ((A - A') * ((A + A') / 2)) by field.
  apply abs_prod; auto. unfold Rdiv. rewrite Rabs_mult, (Rabs_right (/ 2)) by lra. lra.
Qed.
Lemma path_abs v0 v1 u : 0 <= u <= 1 -> Rabs (v0 + u * (v1 - v0)) <= Rmax (Rabs v0) (Rabs v1).
Proof.
  intros U. assert (A := Rmax_l (Rabs v0) (Rabs v1)). assert (B := Rmax_r (Rabs v0) (Rabs v1)). set (m := Rmax _ _) in *.
  replace (v0 + u * (v1 - v0)) with ((1 - u) * v0 + u * v1) by ring. replace m with ((1 - u) * m + u * m) by ring.
  apply abs_sum; apply abs_prod; auto; rewrite Rabs_right; lra.
Qed.
Lemma seed_abs s z : low_z s <= z <= high_z s -> Rabs z <= Rmax (Rabs (k_loose s)) (Rabs (k_tight s)).
Proof.
  unfold low_z, high_z. intros [A B]. unfold Rabs. destruct (Rcase_abs z), (Rcase_abs (k_loose s)), (Rcase_abs (k_tight s)); revert A B; unfold Rmin, Rmax; repeat destruct (Rle_dec _ _); lra.
Qed.
Lemma seed_scaled T s z : 0 <= T -> low_z s <= z <= high_z s -> Rabs (z * sqrt T) <= sqrt T * Rmax (Rabs (k_loose s)) (Rabs (k_tight s)).
Proof. intros HT Z. rewrite (Rmult_comm (sqrt T)). apply abs_prod; [now apply seed_abs|]. rewrite Rabs_right; [lra|]. apply Rle_ge, sqrt_pos. Qed.
Lemma max_bounds x y : 0 < x -> 0 < y -> Rabs x <= Rmax x y /\ Rabs y <= Rmax x y /\ 0 < Rmax x y.
Proof. intros. rewrite !Rabs_right by lra. assert (A := Rmax_l x y). assert (B := Rmax_r x y). lra. Qed.

(** ** differences of the discrepancies *)
Section Diff.
Context (w v W V : R) (Hw : Rabs w <= W) (Hv : Rabs v <= V).
Let W0 : 0 <= W := abs_le_pos _ _ Hw.
Let V0 : 0 <= V := abs_le_pos _ _ Hv.
(** A = b (w + g v) *)
Lemma diff1 b b' g g' B G dg : Rabs b <= B -> Rabs b' <= B -> Rabs g <= G -> Rabs g' <= G -> Rabs (g - g') <= dg ->
  Rabs (((b * (w + g * v)) * (b * (w + g * v)) - b) / 2 - ((b' * (w + g' * v)) * (b' * (w + g' * v)) - b') / 2) <=
  Rabs (b - b') * (B * (W + G * V) ^ 2 + 1 / 2) + dg * (B ^ 2 * V * (W + G * V)).
Proof.
  intros Hb Hb' Hg Hg' Hd. assert (Q : Rabs (w + g * v) <= W + G * V) by (apply abs_sum; auto; now apply abs_prod).
  assert (Q' : Rabs (w + g' * v) <= W + G * V) by (apply abs_sum; auto; now apply abs_prod).
  match goal with |- Rabs ?x <= _ => replace x with (((b * (w + g * v)) * (b * (w + g * v)) - (b' * (w + g' * v)) * (b' * (w + g' * v))) / 2 + (- (1 / 2)) * (b - b')) by field end.
  eapply Rle_trans.
  - apply square_diff with (D := Rabs (b - b') * (W + G * V) + B * dg * V) (Sm := B * (W + G * V)) (E := 1 / 2 * Rabs (b - b')).
    + replace (b * (w + g * v) - b' * (w + g' * v)) with ((b - b') * (w + g * v) + b' * (g - g') * v) by ring.
      apply abs_sum; apply abs_prod; auto; [apply Rle_refl|]. now apply abs_prod.
    + replace (2 * (B * (W + G * V))) with (B * (W + G * V) + B * (W + G * V)) by ring. apply abs_sum; now apply abs_prod.
    + apply abs_prod; [|apply Rle_refl]. rewrite Rabs_left; lra.
  - right. field.
Qed.
(** A = w b + l v *)
Lemma diff2 b b' l l' B L : Rabs b <= B -> Rabs b' <= B -> Rabs l <= L -> Rabs l' <= L ->
  Rabs (((w * b + l * v) * (w * b + l * v) - b) / 2 - ((w * b' + l' * v) * (w * b' + l' * v) - b') / 2) <=
  Rabs (b - b') * (W * (B * W + L * V) + 1 / 2) + Rabs (l - l') * (V * (B * W + L * V)).
Proof.
  intros Hb Hb' Hl Hl'. assert (Q : Rabs (w * b + l * v) <= W * B + L * V) by (apply abs_sum; now apply abs_prod).
  assert (Q' : Rabs (w * b' + l' * v) <= W * B + L * V) by (apply abs_sum; now apply abs_prod).
  match goal with |- Rabs ?x <= _ => replace x with (((w * b + l * v) * (w * b + l * v) - (w * b' + l' * v) * (w * b' + l' * v)) / 2 + (- (1 / 2)) * (b - b')) by field end.
  eapply Rle_trans.
  - apply square_diff with (D := W * Rabs (b - b') + Rabs (l - l') * V) (Sm := W * B + L * V) (E := 1 / 2 * Rabs (b - b')).
    + replace (w * b + l * v - (w * b' + l' * v)) with (w * (b - b') + (l - l') * v) by ring. apply abs_sum; apply abs_prod; auto; apply Rle_refl.
    + replace (2 * (W * B + L * V)) with (W * B + L * V + (W * B + L * V)) by ring. now apply abs_sum.
    + apply abs_prod; [|apply Rle_refl]. rewrite Rabs_left; lra.
  - right. field.
Qed.
(** A = l (w r + v) *)
Lemma diff3 r r' l l' B L : Rabs r <= B -> Rabs r' <= B -> Rabs l <= L -> Rabs l' <= L ->
  Rabs (((l * (w * r + v)) * (l * (w * r + v)) - r * l / 2) / 2 - ((l' * (w * r' + v)) * (l' * (w * r' + v)) - r' * l' / 2) / 2) <=
  Rabs (r - r') * (L ^ 2 * W * (B * W + V) + L / 4) + Rabs (l - l') * (L * (B * W + V) ^ 2 + B / 4).
Proof.
  intros Hr Hr' Hl Hl'. assert (Q : Rabs (w * r + v) <= W * B + V) by (apply abs_sum; auto; now apply abs_prod).
  assert (Q' : Rabs (w * r' + v) <= W * B + V) by (apply abs_sum; auto; now apply abs_prod).
  match goal with |- Rabs ?x <= _ => replace x with (((l * (w * r + v)) * (l * (w * r + v)) - (l' * (w * r' + v)) * (l' * (w * r' + v))) / 2 + (- (1 / 4)) * ((r - r') * l + (l - l') * r')) by field end.
  eapply Rle_trans.
  - apply square_diff with (D := L * W * Rabs (r - r') + Rabs (l - l') * (W * B + V)) (Sm := L * (W * B + V)) (E := 1 / 4 * (Rabs (r - r') * L + Rabs (l - l') * B)).
    + replace (l * (w * r + v) - l' * (w * r' + v)) with (l * w * (r - r') + (l - l') * (w * r' + v)) by ring.
      apply abs_sum; apply abs_prod; auto; try apply Rle_refl. now apply abs_prod.
    + replace (2 * (L * (W * B + V))) with (L * (W * B + V) + L * (W * B + V)) by ring. apply abs_sum; now apply abs_prod.
    + apply abs_prod; [rewrite Rabs_left; lra|]. apply abs_sum; apply abs_prod; auto; apply Rle_refl.
  - right. field.
Qed.
End Diff.

(** a bound on the absolute difference dominates either way *)
Lemma dominated_abs c x0 x1 c' y0 y1 s f g up C : (forall u z, 0 <= u <= 1 -> low_z s <= z <= high_z s -> Rabs (f (path_at c x0 x1 u z) - g (path_at c' y0 y1 u z)) <= C) ->
  dominated c x0 x1 c' y0 y1 s f g up C.
Proof.
  intros H u z U Z. specialize (H u z U Z). destruct up; [|eapply Rle_trans; [apply Rle_abs|auto]].
  rewrite Rabs_minus_sym in H. eapply Rle_trans; [apply Rle_abs|auto].
Qed.
Lemma sqrt_sq T x : 0 <= T -> T * x = sqrt T * sqrt T * x.
Proof. intros. now rewrite sqrt_sqrt. Qed.

(** the Ornstein-Uhlenbeck process *)
Lemma ou_diff b sg b' sg' T v0 v1 s u z : 0 < b -> 0 < sg -> 0 < b' -> 0 < sg' -> 0 < T -> 0 <= u <= 1 -> low_z s <= z <= high_z s ->
  Rabs (ou_disc [b; sg] (path_at (sqrt T) (ou_reduce [b; sg] v0) (ou_reduce [b; sg] v1) u z) - ou_disc [b'; sg'] (path_at (sqrt T) (ou_reduce [b'; sg'] v0) (ou_reduce [b'; sg'] v1) u z)) <=
  ito_intensity [b; sg] [b'; sg'] (ou_bounds_grad [b; sg] [b'; sg'] T v0 v1 (k_loose s) (k_tight s)).
Proof.
  intros Hb Hs Hb' Hs' HT U Z. unfold ou_bounds_grad, par. cbn [nth].
  assert (Hw := seed_scaled T s z ltac:(lra) Z). assert (Hv := path_abs v0 v1 u U). assert (V0 := abs_le_pos _ _ Hv).
  set (az := Rmax (Rabs (k_loose s)) (Rabs (k_tight s))) in *. set (av := Rmax (Rabs v0) (Rabs v1)) in *. set (W := sqrt T * az) in *. set (w := z * sqrt T) in *. set (v := v0 + u * (v1 - v0)) in *.
  assert (W0 := abs_le_pos _ _ Hw). destruct (max_bounds b b' Hb Hb') as (B1 & B2 & B3). set (ub := Rmax b b') in *.
  assert (LS : 0 < Rmin sg sg') by (apply Rmin_glb_lt; auto). assert (L1 := Rmin_l sg sg'). assert (L2 := Rmin_r sg sg'). set (ls := Rmin sg sg') in *.
  assert (I0 := Rinv_0_lt_compat ls LS).
  assert (G1 : Rabs (/ sg) <= / ls) by (rewrite Rabs_right by (apply Rle_ge, Rlt_le, Rinv_0_lt_compat; auto); now apply Rinv_le_contravar).
  assert (G2 : Rabs (/ sg') <= / ls) by (rewrite Rabs_right by (apply Rle_ge, Rlt_le, Rinv_0_lt_compat; auto); now apply Rinv_le_contravar).
  assert (DG : Rabs (/ sg - / sg') <= Rabs (sg - sg') * (/ ls * / ls)).
  { replace (/ sg - / sg') with ((sg' - sg) * (/ sg * / sg')) by (field; lra). apply abs_prod; [rewrite Rabs_minus_sym; apply Rle_refl|now apply abs_prod]. }
  assert (D := diff1 w v W av Hw Hv b b' (/ sg) (/ sg') ub (/ ls) _ B1 B2 G1 G2 DG).
  replace (ou_disc [b; sg] (path_at (sqrt T) (ou_reduce [b; sg] v0) (ou_reduce [b; sg] v1) u z)) with (((b * (w + / sg * v)) * (b * (w + / sg * v)) - b) / 2)
    by (unfold ou_disc, ito_disc, ou_drift, ou_dx, ou_reduce, par, path_at, w, v; cbn [nth]; field; lra).
  replace (ou_disc [b'; sg'] (path_at (sqrt T) (ou_reduce [b'; sg'] v0) (ou_reduce [b'; sg'] v1) u z)) with (((b' * (w + / sg' * v)) * (b' * (w + / sg' * v)) - b') / 2)
    by (unfold ou_disc, ito_disc, ou_drift, ou_dx, ou_reduce, par, path_at, w, v; cbn [nth]; field; lra).
  eapply Rle_trans; [exact D|]. eapply Rle_trans; [|apply ito_mask].
  - rewrite (sqrt_sq T) by lra. right. unfold W. field. lra.
  - rewrite (sqrt_sq T) by lra. replace (sqrt T * sqrt T * az ^ 2 + (av / ls) ^ 2 + 2 * sqrt T * az * av / ls) with ((W + av * / ls) ^ 2) by (unfold W; field; lra). assert (X := pow2_ge_0 (W + av * / ls)). nra.
  - unfold W. replace (sqrt T * az * av / ls ^ 2 + av ^ 2 / ls ^ 3) with (av * (W + / ls * av) * (/ ls * / ls)) by (unfold W; field; lra).
    apply Rmult_le_pos; [apply pow2_ge_0|]. apply Rmult_le_pos; [apply Rmult_le_pos; auto; assert (0 <= / ls * av) by (apply Rmult_le_pos; lra); lra|apply Rmult_le_pos; lra].
Qed.
Lemma ou1_diff thi thi' y b g b' g' T v0 v1 s u z : row thi y = [b; g] -> row thi' y = [b'; g'] -> 0 < b -> 0 < g -> 0 < b' -> 0 < g' -> 0 < T -> 0 <= u <= 1 -> low_z s <= z <= high_z s ->
  Rabs (ou1_disc thi y (path_at (sqrt T * ou1_vol thi y) v0 v1 u z) - ou1_disc thi' y (path_at (sqrt T * ou1_vol thi' y) v0 v1 u z)) <=
  sw_intensity [b; g] [b'; g'] (ou1_bounds_grad [b; g] [b'; g'] T v0 v1 (k_loose s) (k_tight s)).
Proof.
  intros R1 R2 Hb Hs Hb' Hs' HT U Z. unfold ou1_bounds_grad, par. cbn [nth].
  assert (Hw := seed_scaled T s z ltac:(lra) Z). assert (Hv := path_abs v0 v1 u U). assert (V0 := abs_le_pos _ _ Hv).
  set (az := Rmax (Rabs (k_loose s)) (Rabs (k_tight s))) in *. set (av := Rmax (Rabs v0) (Rabs v1)) in *. set (W := sqrt T * az) in *. set (w := z * sqrt T) in *. set (v := v0 + u * (v1 - v0)) in *.
  assert (W0 := abs_le_pos _ _ Hw). destruct (max_bounds b b' Hb Hb') as (B1 & B2 & B3). set (ub := Rmax b b') in *.
  destruct (max_bounds g g' Hs Hs') as (G1 & G2 & G3). set (ug := Rmax g g') in *.
  assert (D := diff1 w v W av Hw Hv b b' g g' ub ug _ B1 B2 G1 G2 (Rle_refl _)).
  replace (ou1_disc thi y (path_at (sqrt T * ou1_vol thi y) v0 v1 u z)) with (((b * (w + g * v)) * (b * (w + g * v)) - b) / 2)
    by (unfold ou1_disc, sw_disc, ou1_drift, ou1_dx, ou1_vol, par2, par, path_at, w, v; rewrite R1; cbn [nth]; field; lra).
  replace (ou1_disc thi' y (path_at (sqrt T * ou1_vol thi' y) v0 v1 u z)) with (((b' * (w + g' * v)) * (b' * (w + g' * v)) - b') / 2)
    by (unfold ou1_disc, sw_disc, ou1_drift, ou1_dx, ou1_vol, par2, par, path_at, w, v; rewrite R2; cbn [nth]; field; lra).
  assert (P : 0 <= ug * av) by (apply Rmult_le_pos; lra).
  eapply Rle_trans; [exact D|]. eapply Rle_trans; [|apply sw_mask].
  - rewrite (sqrt_sq T) by lra. right. unfold W. field.
  - rewrite (sqrt_sq T) by lra. replace (sqrt T * sqrt T * az ^ 2 + (av * ug) ^ 2 + 2 * sqrt T * az * av * ug) with ((W + ug * av) ^ 2) by (unfold W; ring). assert (X := pow2_ge_0 (W + ug * av)). nra.
  - unfold W. replace (sqrt T * az * av + av ^ 2 * ug) with (av * (W + ug * av)) by (unfold W; ring). apply Rmult_le_pos; [apply pow2_ge_0|]. apply Rmult_le_pos; lra.
Qed.
Lemma ou2_diff thi thi' y b g b' g' T v0 v1 s u z : row thi y = [b; g] -> row thi' y = [b'; g'] -> 0 < b -> 0 < g -> 0 < b' -> 0 < g' -> 0 < T -> 0 <= u <= 1 -> low_z s <= z <= high_z s ->
  Rabs (ou2_disc thi y (path_at (sqrt T * ou2_vol thi y) v0 v1 u z) - ou2_disc thi' y (path_at (sqrt T * ou2_vol thi' y) v0 v1 u z)) <=
  sw_intensity [b; g] [b'; g'] (ou2_bounds_grad [b; g] [b'; g'] T v0 v1 (k_loose s) (k_tight s)).
Proof.
  intros R1 R2 Hb Hs Hb' Hs' HT U Z. unfold ou2_bounds_grad, par. cbn [nth].
  assert (Hw := seed_scaled T s z ltac:(lra) Z). assert (Hv := path_abs v0 v1 u U). assert (V0 := abs_le_pos _ _ Hv).
  set (az := Rmax (Rabs (k_loose s)) (Rabs (k_tight s))) in *. set (av := Rmax (Rabs v0) (Rabs v1)) in *. set (W := sqrt T * az) in *. set (w := z * sqrt T) in *. set (v := v0 + u * (v1 - v0)) in *.
  assert (W0 := abs_le_pos _ _ Hw). destruct (max_bounds b b' Hb Hb') as (B1 & B2 & B3). set (ub := Rmax b b') in *.
  destruct (max_bounds g g' Hs Hs') as (G1 & G2 & G3). set (ug := Rmax g g') in *.
  assert (D := diff2 w v W av Hw Hv b b' g g' ub ug B1 B2 G1 G2).
  replace (ou2_disc thi y (path_at (sqrt T * ou2_vol thi y) v0 v1 u z)) with (((w * b + g * v) * (w * b + g * v) - b) / 2)
    by (unfold ou2_disc, sw_disc, ou2_drift, ou2_dx, ou2_vol, par2, par, path_at, w, v; rewrite R1; cbn [nth]; field; lra).
  replace (ou2_disc thi' y (path_at (sqrt T * ou2_vol thi' y) v0 v1 u z)) with (((w * b' + g' * v) * (w * b' + g' * v) - b') / 2)
    by (unfold ou2_disc, sw_disc, ou2_drift, ou2_dx, ou2_vol, par2, par, path_at, w, v; rewrite R2; cbn [nth]; field; lra).
  assert (P : 0 <= ug * av) by (apply Rmult_le_pos; lra). assert (P' : 0 <= ub * W) by (apply Rmult_le_pos; lra).
  eapply Rle_trans; [exact D|]. eapply Rle_trans; [|apply sw_mask].
  - replace (ub * T) with (T * ub) by ring. rewrite (sqrt_sq T) by lra. right. unfold W. field.
  - replace (ub * T) with (T * ub) by ring. rewrite (sqrt_sq T) by lra. replace (sqrt T * sqrt T * ub * az ^ 2 + ug * sqrt T * az * av) with (W * (ub * W + ug * av)) by (unfold W; ring).
    assert (0 <= W * (ub * W + ug * av)) by (apply Rmult_le_pos; lra). lra.
  - unfold W. replace (ug * av ^ 2 + ub * sqrt T * az * av) with (av * (ub * W + ug * av)) by (unfold W; ring). apply Rmult_le_pos; lra.
Qed.
Lemma ou3_diff thi thi' y b g b' g' T v0 v1 s u z : row thi y = [b; g] -> row thi' y = [b'; g'] -> 0 < b -> 0 < g -> 0 < b' -> 0 < g' -> 0 < T -> 0 <= u <= 1 -> low_z s <= z <= high_z s ->
  Rabs (ou3_disc thi y (path_at (sqrt T * ou3_vol thi y) v0 v1 u z) - ou3_disc thi' y (path_at (sqrt T * ou3_vol thi' y) v0 v1 u z)) <=
  sw_intensity [b; g] [b'; g'] (ou3_bounds_grad [b; g] [b'; g'] T v0 v1 (k_loose s) (k_tight s)).
Proof.
  intros R1 R2 Hb Hs Hb' Hs' HT U Z. unfold ou3_bounds_grad, par. cbn [nth].
  assert (Hw := seed_scaled T s z ltac:(lra) Z). assert (Hv := path_abs v0 v1 u U). assert (V0 := abs_le_pos _ _ Hv).
  set (az := Rmax (Rabs (k_loose s)) (Rabs (k_tight s))) in *. set (av := Rmax (Rabs v0) (Rabs v1)) in *. set (W := sqrt T * az) in *. set (w := z * sqrt T) in *. set (v := v0 + u * (v1 - v0)) in *.
  assert (W0 := abs_le_pos _ _ Hw). destruct (max_bounds b b' Hb Hb') as (B1 & B2 & B3). set (ub := Rmax b b') in *.
  destruct (max_bounds g g' Hs Hs') as (G1 & G2 & G3). set (ug := Rmax g g') in *.
  assert (D := diff3 w v W av Hw Hv b b' g g' ub ug B1 B2 G1 G2).
  replace (ou3_disc thi y (path_at (sqrt T * ou3_vol thi y) v0 v1 u z)) with (((g * (w * b + v)) * (g * (w * b + v)) - b * g / 2) / 2)
    by (unfold ou3_disc, sw_disc, ou3_drift, ou3_dx, ou3_vol, prod_row, np_prod, par2, par, path_at, w, v; rewrite R1; simpl; field; lra).
  replace (ou3_disc thi' y (path_at (sqrt T * ou3_vol thi' y) v0 v1 u z)) with (((g' * (w * b' + v)) * (g' * (w * b' + v)) - b' * g' / 2) / 2)
    by (unfold ou3_disc, sw_disc, ou3_drift, ou3_dx, ou3_vol, prod_row, np_prod, par2, par, path_at, w, v; rewrite R2; simpl; field; lra).
  assert (P' : 0 <= ub * W) by (apply Rmult_le_pos; lra). assert (G4 := pow2_ge_0 ug).
  assert (E1 : ug ^ 2 * (ub * T * az ^ 2 + sqrt T * az * av) + ug / 2 = ug ^ 2 * W * (ub * W + av) + ug / 2).
  { unfold W. replace (ub * T) with (T * ub) by ring. rewrite (sqrt_sq T) by lra. unfold W. field. }
  assert (E2 : ug * (ub ^ 2 * T * az ^ 2 + av ^ 2 + 2 * ub * sqrt T * az * av) + ub / 2 = ug * (ub * W + av) ^ 2 + ub / 2).
  { replace (ub ^ 2 * T) with (T * ub ^ 2) by ring. rewrite (sqrt_sq T) by lra. unfold W. field. }
  fold W in E1. rewrite E1, E2. assert (P1 : 0 <= ug ^ 2 * W * (ub * W + av)) by (apply Rmult_le_pos; [apply Rmult_le_pos; lra|lra]).
  assert (P2 : 0 <= ug * (ub * W + av) ^ 2) by (apply Rmult_le_pos; [lra|apply pow2_ge_0]).
  assert (A1 := Rabs_pos (b - b')). assert (A2 := Rabs_pos (g - g')).
  eapply Rle_trans; [exact D|]. eapply Rle_trans; [|apply sw_mask]; try lra.
  apply Rplus_le_compat; apply Rmult_le_compat_l; lra.
Qed.

(** ** the coins *)
Lemma minus_0 x : x - 0 = x. Proof. ring. Qed.
Lemma ou_coin b sg b' sg' T v0 v1 fuel mp n s up m o k : 0 < b -> 0 < sg -> 0 < b' -> 0 < sg' -> 0 < T -> standard s -> valid o -> generic o ->
  let C := ito_intensity [b; sg] [b'; sg'] (ou_bounds_grad [b; sg] [b'; sg'] T v0 v1 (k_loose s) (k_tight s)) in
  dominated (sqrt T) (v0 / sg) (v1 / sg) (sqrt T) (v0 / sg') (v1 / sg') s (ou_disc [b; sg]) (ou_disc [b'; sg']) up C /\
  ito_param_coin fuel mp n ou_reduce ou_disc ou_bounds_grad [b; sg] [b'; sg'] T v0 v1 s up m o k =
  (do r <- logged_dual_coin fuel mp n s C (ito_norm T (v0 / sg) (v1 / sg)) (ito_denorm T (v0 / sg) (v1 / sg)) (ou_disc [b; sg])
     (ito_norm T (v0 / sg') (v1 / sg')) (ito_denorm T (v0 / sg') (v1 / sg')) (ou_disc [b'; sg']) up m; ret (fst r)) o k.
Proof.
  intros Hb Hs Hb' Hs' HT St V G C.
  assert (D : dominated (sqrt T) (v0 / sg) (v1 / sg) (sqrt T) (v0 / sg') (v1 / sg') s (ou_disc [b; sg]) (ou_disc [b'; sg']) up C).
  { apply dominated_abs. intros u z U Z. now apply ou_diff. }
  split; auto. unfold ito_param_coin. cbv zeta. rewrite minus_0. unfold ou_reduce at 1 2 3 4 5 6 7 8. unfold par. cbn [nth]. fold C.
  eapply dual_never_asserts; eauto using ito_operators.
Qed.
Section Sw.
Context (vol : list (list R) -> nat -> R) (disc : list (list R) -> nat -> R -> R) (grad : list R -> list R -> R -> R -> R -> R -> R -> list R).
Definition sw_bounded := forall thi thi' y b g b' g' T v0 v1 s u z, row thi y = [b; g] -> row thi' y = [b'; g'] -> 0 < b -> 0 < g -> 0 < b' -> 0 < g' -> 0 < T -> 0 <= u <= 1 -> low_z s <= z <= high_z s ->
  Rabs (disc thi y (path_at (sqrt T * vol thi y) v0 v1 u z) - disc thi' y (path_at (sqrt T * vol thi' y) v0 v1 u z)) <=
  sw_intensity [b; g] [b'; g'] (grad [b; g] [b'; g'] T v0 v1 (k_loose s) (k_tight s)).
Lemma sw_coin : sw_bounded -> forall thi thi' y b g b' g' T v0 v1 fuel mp n s up m o k, row thi y = [b; g] -> row thi' y = [b'; g'] -> 0 < b -> 0 < g -> 0 < b' -> 0 < g' -> 0 < T -> standard s -> valid o -> generic o ->
  let C := sw_intensity [b; g] [b'; g'] (grad [b; g] [b'; g'] T v0 v1 (k_loose s) (k_tight s)) in
  dominated (sqrt T * vol thi y) v0 v1 (sqrt T * vol thi' y) v0 v1 s (disc thi y) (disc thi' y) up C /\
  sw_param_coin fuel mp n vol disc grad thi thi' T y v0 v1 s up m o k =
  (do r <- logged_dual_coin fuel mp n s C (sw_norm (vol thi y) T v0 v1) (sw_denorm (vol thi y) T v0 v1) (disc thi y)
     (sw_norm (vol thi' y) T v0 v1) (sw_denorm (vol thi' y) T v0 v1) (disc thi' y) up m; ret (fst r)) o k.
Proof.
  intros B thi thi' y b g b' g' T v0 v1 fuel mp n s up m o k R1 R2 Hb Hs Hb' Hs' HT St V G C.
  assert (D : dominated (sqrt T * vol thi y) v0 v1 (sqrt T * vol thi' y) v0 v1 s (disc thi y) (disc thi' y) up C).
  { apply dominated_abs. intros u z U Z. now apply B. }
  split; auto. unfold sw_param_coin. cbv zeta. rewrite minus_0, R1, R2. fold C.
  eapply dual_never_asserts; eauto using sw_operators.
Qed.
End Sw.
