(** Vocabulary for statements involving matrices: generators, stochastic matrices and
    the matrix exponential, independent of the functions of the model. *)
From Coq Require Import Reals.
From Verif Require Import Base Mat.
Local Open Scope R_scope.

Definition stochastic (dim : nat) (P : mat) : Prop :=
  (forall i j, (i < dim)%nat -> (j < dim)%nat -> 0 <= P i j) /\
  (forall i, (i < dim)%nat -> rsum dim (P i) = 1).

(** intensity matrices of jump processes *)
Definition generator (dim : nat) (Q : mat) : Prop :=
  (forall i j, (i < dim)%nat -> (j < dim)%nat -> i <> j -> 0 <= Q i j) /\
  (forall i, (i < dim)%nat -> rsum dim (Q i) = 0).

(** E is the matrix exponential of A: entrywise limit of sum_n A^n / n! *)
Definition is_expm (dim : nat) (A E : mat) : Prop :=
  forall i j, (i < dim)%nat -> (j < dim)%nat ->
    infinite_sum (fun n => mpow dim A n i j / INR (fact n)) (E i j).
(** Assumption about scipy.linalg.expm: it returns the matrix exponential. *)
Definition expm_exact (L : linalg) : Prop := forall dim A, is_expm dim A (la_expm L dim A).

(** x is a stationary vector of Q: x Q = 0 *)
Definition stationary (dim : nat) (Q : mat) (x : vec) : Prop :=
  forall j, (j < dim)%nat -> rsum dim (fun i => x i * Q i j) = 0.
(** A x = b *)
Definition solves (dim : nat) (A : mat) (x b : vec) : Prop :=
  forall i, (i < dim)%nat -> rsum dim (fun j => A i j * x j) = b i.
Definition nonsingular (dim : nat) (A : mat) : Prop :=
  forall y, solves dim A y (fun _ => 0) -> forall i, (i < dim)%nat -> y i = 0.
(** Assumption about one call of numpy.linalg.solve: it returns a solution and raises
    LinAlgError (None) only if the matrix is singular. *)
Definition solve_ok (L : linalg) (dim : nat) (A : mat) (b : vec) : Prop :=
  match la_solve L dim A b with Some x => solves dim A x b | None => ~ nonsingular dim A end.
(** all transitions are possible *)
Definition pos_off (dim : nat) (Q : mat) : Prop :=
  forall i j, (i < dim)%nat -> (j < dim)%nat -> i <> j -> 0 < Q i j.
