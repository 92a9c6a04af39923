(** Property theorems C100: laws of the Bessel samplers. *)
From Coq Require Import Reals List Bool Arith Lra Lia Sorted.
From Verif Require Import Base Rng M_path SpecPath SpecLaw SpecBess SpecGauss L_bess2 L_bess3 Mat.
Import ListNotations.
Local Open Scope R_scope.

(** at every time the squared value has the law of the squared length of a Gaussian vector with
    independent coordinates: its Laplace transform is the one of that law *)
Theorem C100_bessel : forall t init dim mu lam i, time_grid t -> 0 <= init -> (0 < dim)%nat -> 0 <= lam -> (i < length t)%nat ->
  average (sample_bessel t init dim mu) (fun xs => exp (- lam * nth i xs 0 ^ 2))
    (radius_laplace dim (init + match mu with Some m => m | None => 0 end * nth i t 0) (nth i t 0) lam).
Proof. exact bessel_law. Qed.
Print Assumptions C100_bessel.
(** the bridge from 0 to x: the mean runs linearly to x and the variance is that of a Brownian bridge *)
Theorem C100_bridge : forall t T x dim lam i, time_grid t -> Forall (fun s => s < T) t -> (0 < dim)%nat -> 0 <= lam -> (i < length t)%nat ->
  average (sample_besselbr t T x dim) (fun xs => exp (- lam * nth i xs 0 ^ 2))
    (radius_laplace dim (x * nth i t 0 / T) (nth i t 0 * (T - nth i t 0) / T) lam).
Proof. exact besselbr_law. Qed.
Print Assumptions C100_bridge.
(** all times together: whatever is true on average of the lengths of a vector of independent Brownian
    motions (C95_wiener), one of them with the given start and drift, is true of the path *)
Theorem C100_joint : forall t init dim mu F v, time_grid t -> 0 <= init -> (0 < dim)%nat ->
  average (sample_wiener t (repeat 0 (dim - 1) ++ [init]) (repeat 0 (dim - 1) ++ [match mu with Some m => m | None => 0 end])) (fun w => F (lengths (length t) w)) v ->
  average (sample_bessel t init dim mu) F v.
Proof. exact bessel_joint. Qed.
Print Assumptions C100_joint.
(** the same for the bridge and a vector of Brownian bridges from 0, one of them to x ... *)
Theorem C100_joint_bridge : forall t T x dim F v, time_grid t -> Forall (fun s => s < T) t -> (0 < dim)%nat ->
  average (map_m (fun b => sample_brownbr t T 0 b) (repeat 0 (dim - 1) ++ [x])) (fun w => F (lengths (length t) w)) v ->
  average (sample_besselbr t T x dim) F v.
Proof. exact besselbr_joint. Qed.
Print Assumptions C100_joint_bridge.
(** ... which are independent and jointly Gaussian *)
Theorem C100_bridges_independent : forall t T, time_grid t -> Forall (fun s => s < T) t -> forall ends (th : nat -> nat -> R),
  average (map_m (fun b => sample_brownbr t T 0 b) ends) (fun w => exp (rsum (length ends) (fun j => rsum (length t) (fun i => th j i * nth i (nth j w []) 0))))
    (rprod (length ends) (fun j => gaussian_mgf (length t) (fun i => 0 + (nth j ends 0 - 0) * nth i t 0 / T) (fun i i' => Rmin (nth i t 0) (nth i' t 0) * (T - Rmax (nth i t 0) (nth i' t 0)) / T) (th j))).
Proof. exact bridges_mgf. Qed.
Print Assumptions C100_bridges_independent.
Example C100_example : time_grid [1/4; 3/4] /\ Forall (fun s => s < 1) [1/4; 3/4] /\ (1 < length [1/4; 3/4])%nat.
Proof. repeat split; try easy; try (repeat constructor; lra). Qed.
(** the Laplace transform written out for the three-dimensional bridge from 0 to 0 over one unit of time,
    at its middle: (1 + lam/2)^(-3/2) *)
Example C100_example_middle : forall lam, 0 <= lam ->
  average (sample_besselbr [1/2] 1 0 3) (fun xs => exp (- lam * nth 0 xs 0 ^ 2)) (/ (sqrt (1 + lam / 2) * sqrt (1 + lam / 2) * sqrt (1 + lam / 2))).
Proof. exact bridge_middle. Qed.
