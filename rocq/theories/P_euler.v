(** Property theorems C92, C93. *)
From Coquelicot Require Import Hierarchy Derive.
From Coq Require Import Reals List Bool Arith Lia Lra.
From Verif Require Import Base Np Rng M_mjp M_models M_euler SpecLaw L_euler L_euler2 Mat.
Import ListNotations.
Local Open Scope R_scope.

(** C92: euler_simulate always returns; each trajectory starts at the given point and follows the
    Euler-Maruyama recursion with one fresh standard normal per step and trajectory, for as many
    steps as fit into the horizon; the reported times are the multiples of the step before it. *)
Theorem C92_recursion : forall ndraws fin_t init_x d v res o k, 0 <= fin_t -> 0 < res ->
  exists ts xs n, fst (euler_simulate ndraws fin_t init_x d v res o k) = Ok (ts, xs) /\
    INR n * res <= fin_t < (INR n + 1) * res /\
    (forall j u, nth_error ts j = Some u -> u = INR j * res /\ 0 <= u < fin_t) /\
    length xs = ndraws /\
    forall i x, nth_error xs i = Some x -> length x = S n /\ nth 0 x 0 = init_x /\
      forall j, (j < n)%nat -> nth (S j) x 0 = nth j x 0 + d (nth j x 0) * res + v (nth j x 0) * (sqrt res * ora_r o (k + j * ndraws + i) DNormal).
Proof. exact euler_spec. Qed.
Print Assumptions C92_recursion.

(** C92: "there is one value per time" holds exactly when the horizon is not a multiple of the
    step. *)
Theorem C92_lengths_iff : forall ndraws fin_t init_x d v res o k ts xs, 0 <= fin_t -> 0 < res -> (0 < ndraws)%nat ->
  fst (euler_simulate ndraws fin_t init_x d v res o k) = Ok (ts, xs) ->
  (Forall (fun x => length x = length ts) xs <-> forall m, fin_t <> INR m * res).
Proof. exact euler_lengths. Qed.
Print Assumptions C92_lengths_iff.

(** C92: whatever the coefficients, the increments less their drift, divided by the volatility at the
    point they leave from, are independent normals with variance [res], over all steps and trajectories *)
Theorem C92_law : forall ndraws fin_t init_x d v res n (th : nat -> nat -> R), 0 <= fin_t -> 0 < res -> (forall x, v x <> 0) ->
  INR n * res <= fin_t < (INR n + 1) * res ->
  average (euler_simulate ndraws fin_t init_x d v res)
    (fun r => exp (rsum ndraws (fun i => rsum n (fun j => let x := nth i (snd r) [] in
       th i j * ((nth (S j) x 0 - nth j x 0 - d (nth j x 0) * res) / v (nth j x 0))))))
    (exp (res / 2 * rsum ndraws (fun i => rsum n (fun j => th i j ^ 2)))).
Proof. exact euler_law. Qed.
Print Assumptions C92_law.
Example C92_example_law : 0 <= 1 /\ 0 < 1 / 2 /\ (forall x : R, exp x <> 0) /\ INR 2 * (1 / 2) <= 1 < (INR 2 + 1) * (1 / 2).
Proof. repeat split; try lra; cbn; try lra. intros x. pose proof (exp_pos x). lra. Qed.

Example C92_example : forall o, exists ts xs, fst (euler_simulate 1 1 0 (fun x => - x) (fun _ => 1) (1 / 2) o 0%nat) = Ok (ts, xs) /\
  ts = [0; 1 / 2] /\ exists x, xs = [x] /\ length x = 3%nat /\ nth 0 x 0 = 0 /\ nth 1 x 0 = sqrt (1 / 2) * ora_r o 0%nat DNormal.
Proof. exact euler_demo. Qed.

(** C93: the second entry of eval_grad of the Ornstein-Uhlenbeck model is the derivative of the
    discrepancy, taken at the denormalised point, in the volatility. *)
Theorem C93_sig : forall fin_t init_v fin_v t z bet sig, 0 <= fin_t -> sig <> 0 ->
  is_derive (fun s => ou_disc [bet; s] (sqrt fin_t * z + ((1 - t / fin_t) * init_v + t / fin_t * fin_v) / s)) sig
    (snd (ou_eval_grad [bet; sig] fin_t init_v fin_v t z)).
Proof. exact ou_grad_sig. Qed.
Print Assumptions C93_sig.

(** C93: the first entry is never the derivative in the mean reversion: it is 1/2 too small. *)
Theorem C93_bet_refuted : forall fin_t init_v fin_v t z bet sig, 0 <= fin_t -> sig <> 0 ->
  ~ is_derive (fun b => ou_disc [b; sig] (sqrt fin_t * z + ((1 - t / fin_t) * init_v + t / fin_t * fin_v) / sig)) bet
      (fst (ou_eval_grad [bet; sig] fin_t init_v fin_v t z)).
Proof. exact ou_grad_bet_refuted. Qed.
Print Assumptions C93_bet_refuted.
Theorem C93_bet_shifted : forall fin_t init_v fin_v t z bet sig, 0 <= fin_t -> sig <> 0 ->
  is_derive (fun b => ou_disc [b; sig] (sqrt fin_t * z + ((1 - t / fin_t) * init_v + t / fin_t * fin_v) / sig)) bet
    (fst (ou_eval_grad [bet; sig] fin_t init_v fin_v t z) + 1 / 2).
Proof. exact ou_grad_bet. Qed.
Print Assumptions C93_bet_shifted.

(** C93: "eval_bounds_grad bounds eval_grad" is false on the zero path for all parameters. *)
Theorem C93_bound_refuted : forall thi thi' fin_t t,
  nth 0 (ou_bounds_grad thi thi' fin_t 0 0 0 0) 0 < Rabs (fst (ou_eval_grad thi fin_t 0 0 t 0)).
Proof. exact ou_grad_bound_refuted. Qed.
Print Assumptions C93_bound_refuted.
(** at the parameters (1, 1) the gradient of the zero path is -1 and its bound one half *)
Example C93_example : fst (ou_eval_grad [1; 1] 1 0 0 0 0) = -1 /\ nth 0 (ou_bounds_grad [1; 1] [1; 1] 1 0 0 0 0) 0 = 1 / 2.
Proof.
  split; unfold ou_eval_grad, ou_bounds_grad, par; cbn [nth fst].
  - rewrite ?sqrt_1. field.
  - rewrite ?Rabs_R0, ?sqrt_1, !Rmax_left, ?Rmin_left by lra. field.
Qed.
