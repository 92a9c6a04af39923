(** Finite sums and square matrices as index functions.  Definitions only. *)
From Coq Require Import Reals List.
Local Open Scope R_scope.

(** sum_{i<n} f i *)
Fixpoint rsum (n : nat) (f : nat -> R) : R :=
  match n with O => 0 | S m => rsum m f + f m end.

Definition vec := nat -> R.
Definition mat := nat -> nat -> R.
(** np.identity(dim) *)
Definition mident : mat := fun i j => if Nat.eqb i j then 1 else 0.
(** A @ B for dim x dim matrices *)
Definition mmul (dim : nat) (A B : mat) : mat := fun i j => rsum dim (fun k => A i k * B k j).
(** k-fold product, multiplying on the right as the code does *)
Fixpoint mpow (dim : nat) (A : mat) (k : nat) : mat :=
  match k with O => mident | S k' => mmul dim (mpow dim A k') A end.
(** the list form of a row *)
Definition row_list (dim : nat) (A : mat) (i : nat) : list R := map (A i) (seq 0 dim).
Definition vec_list (dim : nat) (v : vec) : list R := map v (seq 0 dim).

(** numpy.linalg / scipy.linalg routines: external code, not modelled.  [la_expm dim A]
    stands for scipy.linalg.expm, [la_solve dim A b] for numpy.linalg.solve (None =
    LinAlgError).  Theorems say explicitly what they assume about them, if anything. *)
Record linalg : Type := { la_expm : nat -> mat -> mat; la_solve : nat -> mat -> vec -> option vec }.
