(** Property theorems C49 to C54: the diffusion models. *)
From Coq Require Import Reals List Bool Arith Lia Lra Psatz.
From Coquelicot Require Import Hierarchy Derive.
From Verif Require Import Base Np Rng L_rng M_hit M_path M_skel M_seed SpecSkel SpecSeed M_models SpecModels L_models L_models2 L_models3 P_seed.
Import ListNotations.
Local Open Scope R_scope.

(** C49 *)
Theorem C49_ou : forall thi l u, l <= u -> tight_bounds (ou_disc thi) l u (ou_bounds_disc thi l u).
Proof. exact ou_bounds. Qed.
Print Assumptions C49_ou.
Theorem C49_ou1 : forall thi y l u, par2 thi y 1 <> 0 -> l <= u -> tight_bounds (ou1_disc thi y) l u (ou1_bounds_disc thi y l u).
Proof. exact ou1_bounds. Qed.
Print Assumptions C49_ou1.
Theorem C49_ou2 : forall thi y l u, par2 thi y 0 <> 0 -> par2 thi y 1 <> 0 -> l <= u -> tight_bounds (ou2_disc thi y) l u (ou2_bounds_disc thi y l u).
Proof. exact ou2_bounds. Qed.
Print Assumptions C49_ou2.
Theorem C49_ou3 : forall thi y r la l u, row thi y = [r; la] -> 0 < r -> 0 < la -> l <= u -> tight_bounds (ou3_disc thi y) l u (ou3_bounds_disc thi y l u).
Proof. exact ou3_bounds. Qed.
Print Assumptions C49_ou3.
(** the first component is the global infimum, and it is attained ... *)
Theorem C49_infimum : forall thi l u, smallest (ou_disc thi) (fst (fst (ou_bounds_disc thi l u))).
Proof. exact ou_smallest. Qed.
Print Assumptions C49_infimum.
Theorem C49_infimum1 : forall thi y l u, par2 thi y 1 <> 0 -> smallest (ou1_disc thi y) (fst (fst (ou1_bounds_disc thi y l u))).
Proof. exact ou1_smallest. Qed.
Print Assumptions C49_infimum1.
Theorem C49_infimum2 : forall thi y l u, par2 thi y 0 <> 0 -> par2 thi y 1 <> 0 -> smallest (ou2_disc thi y) (fst (fst (ou2_bounds_disc thi y l u))).
Proof. exact ou2_smallest. Qed.
Print Assumptions C49_infimum2.
(** ... but not for the third switching model, which returns twice the infimum, a negative number *)
Theorem C49_infimum3_refuted : forall thi y r la l u, row thi y = [r; la] -> 0 < r -> 0 < la ->
  smallest (ou3_disc thi y) (fst (fst (ou3_bounds_disc thi y l u)) / 2) /\ fst (fst (ou3_bounds_disc thi y l u)) < 0.
Proof. exact ou3_smallest. Qed.
Print Assumptions C49_infimum3_refuted.
(** hence the bounds can be used by the seed coins *)
Theorem C49_encloses : forall thi, encloses (as_bounds (ou_bounds_disc thi)) (ou_disc thi).
Proof. exact (fun thi => tight_encloses _ _ (ou_bounds thi)). Qed.
Print Assumptions C49_encloses.
Example C49_example : ou_bounds_disc [1; 2] (-1) 2 = (- 1 / 2, - 1 / 2, 3 / 2) /\ row [[1; 2]; [3; 4]] 1 = [3; 4].
Proof.
  split; auto. unfold ou_bounds_disc, ou_inf, ou_disc, ito_disc, ou_drift, ou_dx, par. cbn [nth]. rewrite (Rabs_left (-1)), (Rabs_right 2), Rmax_right by lra.
  rewrite (proj2 (Rltb_true (-1) 0)), (proj2 (Rltb_true 0 2)) by lra. cbn [andb pow]. f_equal; [f_equal|]; lra.
Qed.

(** C50: the bounds of the Cox-Ingersoll-Ross process hold when sigma^2 <= 4 kappa mu; the infimum is
    not a number unless 3 sigma^2 < 4 kappa mu *)
Theorem C50_sound : forall k mu s, 0 < k -> 0 < s -> forall l u, s ^ 2 <= 4 * k * mu -> l <= u -> l <> 0 -> (l < 0 -> 3 * s ^ 2 < 4 * k * mu) ->
  exists inf lo hi, cir_bounds_disc [k; mu; s] l u = (inf, Some lo, hi) /\
  (forall x, 0 < x -> l <= x <= u -> lo <= cir_disc [k; mu; s] x /\ ele (Fin (cir_disc [k; mu; s] x)) hi) /\
  (forall i, inf = Some i -> i <= lo /\ forall x, 0 < x -> i <= cir_disc [k; mu; s] x) /\
  (inf = None <-> 4 * k * mu <= 3 * s ^ 2) /\ (hi = PosInf <-> l < 0).
Proof. exact cir_sound. Qed.
Print Assumptions C50_sound.
(** ... and below that there always are intervals on which the lower bound is wrong *)
Theorem C50_refuted : forall k mu s, 0 < k -> 0 < s -> 4 * k * mu < s ^ 2 ->
  exists l u x lo hi inf, 0 < l <= u /\ l <= x <= u /\ cir_bounds_disc [k; mu; s] l u = (inf, Some lo, hi) /\ cir_disc [k; mu; s] x < lo.
Proof. exact cir_unsound. Qed.
Print Assumptions C50_refuted.
Example C50_example : 1 ^ 2 <= 4 * 1 * 1 /\ 4 * 1 * 1 < 3 ^ 2.
Proof. lra. Qed.

(** C51: the intensity dominates the difference of the discrepancies at every admissible value of the
    seed, and the coin is the one without the assertion *)
Theorem C51_ou : forall b sg b' sg' T v0 v1 fuel mp n s up m o k, 0 < b -> 0 < sg -> 0 < b' -> 0 < sg' -> 0 < T -> standard s -> valid o -> generic o ->
  let C := ito_intensity [b; sg] [b'; sg'] (ou_bounds_grad [b; sg] [b'; sg'] T v0 v1 (k_loose s) (k_tight s)) in
  dominated (sqrt T) (v0 / sg) (v1 / sg) (sqrt T) (v0 / sg') (v1 / sg') s (ou_disc [b; sg]) (ou_disc [b'; sg']) up C /\
  ito_param_coin fuel mp n ou_reduce ou_disc ou_bounds_grad [b; sg] [b'; sg'] T v0 v1 s up m o k =
  (do r <- logged_dual_coin fuel mp n s C (ito_norm T (v0 / sg) (v1 / sg)) (ito_denorm T (v0 / sg) (v1 / sg)) (ou_disc [b; sg])
     (ito_norm T (v0 / sg') (v1 / sg')) (ito_denorm T (v0 / sg') (v1 / sg')) (ou_disc [b'; sg']) up m; ret (fst r)) o k.
Proof. exact ou_coin. Qed.
Print Assumptions C51_ou.
Definition sw_dominates (vol : list (list R) -> nat -> R) (disc : list (list R) -> nat -> R -> R) (grad : list R -> list R -> R -> R -> R -> R -> R -> list R) : Prop :=
  forall thi thi' y b g b' g' T v0 v1 fuel mp n s up m o k, row thi y = [b; g] -> row thi' y = [b'; g'] -> 0 < b -> 0 < g -> 0 < b' -> 0 < g' -> 0 < T -> standard s -> valid o -> generic o ->
  let C := sw_intensity [b; g] [b'; g'] (grad [b; g] [b'; g'] T v0 v1 (k_loose s) (k_tight s)) in
  dominated (sqrt T * vol thi y) v0 v1 (sqrt T * vol thi' y) v0 v1 s (disc thi y) (disc thi' y) up C /\
  sw_param_coin fuel mp n vol disc grad thi thi' T y v0 v1 s up m o k =
  (do r <- logged_dual_coin fuel mp n s C (sw_norm (vol thi y) T v0 v1) (sw_denorm (vol thi y) T v0 v1) (disc thi y)
     (sw_norm (vol thi' y) T v0 v1) (sw_denorm (vol thi' y) T v0 v1) (disc thi' y) up m; ret (fst r)) o k.
Theorem C51_ou1 : sw_dominates ou1_vol ou1_disc ou1_bounds_grad.
Proof. exact (sw_coin _ _ _ ou1_diff). Qed.
Print Assumptions C51_ou1.
Theorem C51_ou2 : sw_dominates ou2_vol ou2_disc ou2_bounds_grad.
Proof. exact (sw_coin _ _ _ ou2_diff). Qed.
Print Assumptions C51_ou2.
Theorem C51_ou3 : sw_dominates ou3_vol ou3_disc ou3_bounds_grad.
Proof. exact (sw_coin _ _ _ ou3_diff). Qed.
Print Assumptions C51_ou3.
(** the intensity is positive when the parameters differ, unless both ends are zero *)
Theorem C51_positive : forall b g b' g' T v0 v1 lo hi, 0 < b -> 0 < g -> 0 < b' -> 0 < g' -> 0 < T ->
  (b <> b' \/ (g <> g' /\ (v0 <> 0 \/ v1 <> 0)) ->
    0 < ito_intensity [b; g] [b'; g'] (ou_bounds_grad [b; g] [b'; g'] T v0 v1 lo hi) /\
    0 < sw_intensity [b; g] [b'; g'] (ou1_bounds_grad [b; g] [b'; g'] T v0 v1 lo hi) /\
    0 < sw_intensity [b; g] [b'; g'] (ou2_bounds_grad [b; g] [b'; g'] T v0 v1 lo hi)) /\
  (b <> b' \/ g <> g' -> 0 < sw_intensity [b; g] [b'; g'] (ou3_bounds_grad [b; g] [b'; g'] T v0 v1 lo hi)).
Proof. exact all_positive. Qed.
Print Assumptions C51_positive.
(** between two zeros an update of the second parameter alone fails *)
Theorem C51_zero_ends_refuted : forall fuel mp n b g g' T s up m o k thi thi' y, row thi y = [b; g] -> row thi' y = [b; g'] ->
  fst (ito_param_coin fuel mp n ou_reduce ou_disc ou_bounds_grad [b; g] [b; g'] T 0 0 s up m o k) = Raise AssertionError /\
  fst (sw_param_coin fuel mp n ou1_vol ou1_disc ou1_bounds_grad thi thi' T y 0 0 s up m o k) = Raise AssertionError /\
  fst (sw_param_coin fuel mp n ou2_vol ou2_disc ou2_bounds_grad thi thi' T y 0 0 s up m o k) = Raise AssertionError.
Proof.
  exact (fun fuel mp n b g g' T s up m o k thi thi' y E F => conj (ou_coin_zero_ends fuel mp n b g g' T s up m o k)
    (conj (ou1_coin_zero_ends fuel mp n thi thi' y b g g' T s up m o k E F) (ou2_coin_zero_ends fuel mp n thi thi' y b g g' T s up m o k E F))).
Qed.
Print Assumptions C51_zero_ends_refuted.
Example C51_example : standard demo_seed /\ row [[1; 2]; [3; 4]] 1 = [3; 4] /\ row [[1; 2]; [5; 4]] 1 = [5; 4] /\ 3 <> 5.
Proof. split; [exact demo_standard|]. repeat split; lra. Qed.

(** C52: posterior sampling of the Cox-Ingersoll-Ross process always fails *)
Theorem C52_refuted : forall fuel mp n thi thi' T v0 v1 s up m o k,
  fst (ito_param_coin fuel mp n cir_reduce cir_disc cir_bounds_grad thi thi' T v0 v1 s up m o k) = Raise AssertionError.
Proof. exact cir_coin_fails. Qed.
Print Assumptions C52_refuted.

(** C53 *)
Theorem C53_ou : forall thi, coherent (fun _ => True) (ou_drift thi) (ou_sx thi) (ou_dx thi) (ou_disc thi) 1.
Proof. exact ou_coherent. Qed.
Print Assumptions C53_ou.
Theorem C53_cir : forall thi, coherent (fun x => 0 < x) (cir_drift thi) (cir_sx thi) (cir_dx thi) (cir_disc thi) 1.
Proof. exact cir_coherent. Qed.
Print Assumptions C53_cir.
Theorem C53_ou1 : forall thi y, par2 thi y 1 <> 0 -> coherent (fun _ => True) (ou1_drift thi y) (ou1_sx thi y) (ou1_dx thi y) (ou1_disc thi y) (ou1_vol thi y).
Proof. exact ou1_coherent. Qed.
Print Assumptions C53_ou1.
Theorem C53_ou2 : forall thi y, par2 thi y 0 <> 0 -> par2 thi y 1 <> 0 -> coherent (fun _ => True) (ou2_drift thi y) (ou2_sx thi y) (ou2_dx thi y) (ou2_disc thi y) (ou2_vol thi y).
Proof. exact ou2_coherent. Qed.
Print Assumptions C53_ou2.
(** dV = - beta V dt + sigma dW *)
Theorem C53_ou_lamperti : forall thi, 0 < par thi 1 ->
  lamperti (fun _ => True) (fun _ => True) (fun v => - par thi 0 * v) (fun _ => par thi 1) (fun _ => 0) (ou_reduce thi) (ou_dv thi) (ou_dereduce thi) (ou_drift thi).
Proof. exact ou_lamperti. Qed.
Print Assumptions C53_ou_lamperti.
(** dV = kappa (mu - V) dt + sigma sqrt(V) dW *)
Theorem C53_cir_lamperti : forall k mu s, 0 < s -> let thi := [k; mu; s] in
  lamperti (fun v => 0 < v) (fun x => 0 < x) (fun v => k * (mu - v)) (fun v => s * sqrt v) (fun v => s / (2 * sqrt v)) (cir_reduce thi) (cir_dv thi) (cir_dereduce thi) (cir_drift thi).
Proof. exact cir_lamperti. Qed.
Print Assumptions C53_cir_lamperti.
Example C53_example : par2 [[1; 2]; [3; 4]] 1 0 <> 0 /\ par2 [[1; 2]; [3; 4]] 1 1 <> 0 /\ 0 < par [1; 2] 1.
Proof. cbv; lra. Qed.

(** C54: the functions of the third switching model do not belong to one diffusion *)
Theorem C54_refuted : forall thi y, prod_row thi y <> 0 ->
  (forall x, is_derive (K := R_AbsRing) (V := R_NormedModule) (ou3_sx thi y) x (ou3_drift thi y x / 2)) /\
  (forall x, x <> 0 -> ~ is_derive (K := R_AbsRing) (V := R_NormedModule) (ou3_sx thi y) x (ou3_drift thi y x)) /\
  (forall x, is_derive (K := R_AbsRing) (V := R_NormedModule) (ou3_drift thi y) x (2 * ou3_dx thi y x)) /\
  (forall x, ~ is_derive (K := R_AbsRing) (V := R_NormedModule) (ou3_drift thi y) x (ou3_dx thi y x)).
Proof. exact ou3_incoherent. Qed.
Print Assumptions C54_refuted.
Theorem C54_arrays_refuted : exists thi y z x, ou3_sx_array thi [y; z] [x; x] <> pointwise_sx ou3_sx thi [y; z] [x; x] /\
  ou3_sx_array thi [y; z] [x; x] <> map (fun i => ou3_sx thi i x) [y; z].
Proof. exact ou3_array_mixes. Qed.
Print Assumptions C54_arrays_refuted.
Example C54_example : prod_row [[1; 2]; [3; 4]] 1 <> 0.
Proof. unfold prod_row, row, M_mjp.np_prod. simpl. lra. Qed.
