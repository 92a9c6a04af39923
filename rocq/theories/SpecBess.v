(** Vocabulary for the laws of the Bessel samplers. *)
From Coq Require Import Reals List.
Import ListNotations.
Local Open Scope R_scope.

(** the mean of exp(- lam R^2), where R is the length of a Gaussian vector with [dim] independent
    coordinates of variance v, one of mean m and the others of mean 0 *)
Definition radius_laplace (dim : nat) (m v lam : R) : R := exp (- lam * m ^ 2 / (1 + 2 * lam * v)) / sqrt (1 + 2 * lam * v) ^ dim.
(** the length of a vector of paths at each of the first n times *)
Definition lengths (n : nat) (paths : list (list R)) : list R :=
  map (fun i => sqrt (fold_right Rplus 0 (map (fun path => nth i path 0 ^ 2) paths))) (seq 0 n).
