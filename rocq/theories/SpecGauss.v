(** Vocabulary for the laws of Gaussian vectors and of sampled generators. *)
From Coq Require Import Reals List.
From Verif Require Import Base Mat.
Local Open Scope R_scope.

(** product_{i<n} f i *)
Fixpoint rprod (n : nat) (f : nat -> R) : R := match n with O => 1 | S m => rprod m f * f m end.
(** the moment generating function, at th, of the Gaussian vector with n coordinates, mean m
    and covariance c *)
Definition gaussian_mgf (n : nat) (m : nat -> R) (c : nat -> nat -> R) (th : nat -> R) : R :=
  exp (rsum n (fun i => th i * m i) + / 2 * rsum n (fun i => rsum n (fun i' => th i * th i' * c i i'))).
