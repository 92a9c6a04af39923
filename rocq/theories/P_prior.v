(** Property theorems C91. *)
From Coquelicot Require Import Hierarchy Derive.
From Coq Require Import Reals List Bool Arith Lia Lra.
From Verif Require Import Base M_prior L_prior.
Import ListNotations.
Local Open Scope R_scope.

(** C91: the log prior of the Ornstein-Uhlenbeck model is minus infinity at negative parameters
    and a number, bounded from above, at positive ones; at a zero parameter it is NaN. *)
Theorem C91_ou : forall sb sr thi,
  (fst thi < 0 \/ snd thi < 0 -> ou_log_prior sb sr thi = Some NegInf) /\
  (0 <= fst thi -> 0 <= snd thi -> fst thi = 0 \/ snd thi = 0 -> ou_log_prior sb sr thi = None) /\
  (0 < fst thi -> 0 < snd thi -> sb <> 0 -> sr <> 0 -> exists v, ou_log_prior sb sr thi = Some (Fin v) /\ v <= sb ^ 2 / 2 + sr ^ 2 / 8).
Proof. exact ou_prior_cases. Qed.
Print Assumptions C91_ou.

(** C91: under it the logarithms of the mean reversion and of the squared volatility are
    independent centred normals with the two scales as standard deviations: the density times the
    Jacobian of (y, w) -> (exp y, exp (w / 2)) is the product of the two kernels. *)
Theorem C91_ou_normal : forall sb sr y w, sb <> 0 -> sr <> 0 ->
  exists v, ou_log_prior sb sr (exp y, exp (w / 2)) = Some (Fin v) /\
    exp v * exp y * exp (w / 2) = exp (- (y ^ 2 / (2 * sb ^ 2))) * exp (- (w ^ 2 / (2 * sr ^ 2))).
Proof. exact ou_prior_normal. Qed.
Print Assumptions C91_ou_normal.

(** C91: with regimes the rows are independent. *)
Theorem C91_switching : forall sb sr thi,
  (Exists (fun r => fst r < 0 \/ snd r < 0) thi -> sw_log_prior sb sr thi = Some NegInf) /\
  (Forall (fun r => 0 <= fst r /\ 0 <= snd r) thi -> Exists (fun r => fst r = 0 \/ snd r = 0) thi -> sw_log_prior sb sr thi = None) /\
  (Forall (fun r => 0 < fst r /\ 0 < snd r) thi -> exists vs, Forall2 (fun r v => ou_log_prior sb sr r = Some (Fin v)) thi vs /\
     sw_log_prior sb sr thi = Some (Fin (fold_right Rplus 0 vs))).
Proof. exact sw_prior_cases. Qed.
Print Assumptions C91_switching.

(** C91: for the Cox-Ingersoll-Ross model the density is a product of two exponential densities
    and of the density with distribution function exp (-1 / sig^2), up to a factor. *)
Theorem C91_cir : forall bet mu sig,
  (bet < 0 \/ mu < 0 \/ sig < 0 -> cir_log_prior bet mu sig = Some NegInf) /\
  (0 <= bet -> 0 <= mu -> sig = 0 -> cir_log_prior bet mu sig = None) /\
  (0 <= bet -> 0 <= mu -> 0 < sig -> exists v, cir_log_prior bet mu sig = Some (Fin v) /\
     exp v = exp (- bet) * exp (- mu) * (exp (- (1 / sig ^ 2)) / sig ^ 3) /\
     is_derive (fun s => exp (- (1 / s ^ 2)) / 2) sig (exp (- (1 / sig ^ 2)) / sig ^ 3)).
Proof. exact cir_prior_cases. Qed.
Print Assumptions C91_cir.

(** C91: "the log prior is a number or minus infinity" is false for each model. *)
Theorem C91_nan_refuted : forall sb sr,
  ou_log_prior sb sr (0, 1) = None /\ sw_log_prior sb sr [(1, 1); (1, 0)] = None /\ cir_log_prior 1 1 0 = None.
Proof. exact prior_nan. Qed.
Print Assumptions C91_nan_refuted.

Example C91_example : ou_log_prior 1 1 (1, 1) = Some (Fin 0) /\ sw_log_prior 1 1 [(1, 1); (1, 1)] = Some (Fin 0) /\
  sw_log_prior 1 1 [(1, 1); (-1, 1)] = Some NegInf /\ cir_log_prior 1 1 1 = Some (Fin (-3)).
Proof. exact prior_demo. Qed.
