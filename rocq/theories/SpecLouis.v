(** Derivatives of functions of a parameter vector, exact differentiation, and the information
    in the observations by Louis' identity. *)
From Coquelicot Require Import Hierarchy Derive.
From Coq Require Import Reals List Arith.
From Verif Require Import Base Rng Mat.
Import ListNotations.
Local Open Scope R_scope.

(** x with coordinate i set to s *)
Definition with_at (x : list R) (i : nat) (s : R) : list R := map (fun j => if Nat.eqb j i then s else nth j x 0) (seq 0 (length x)).
(** d is the partial derivative of f with respect to coordinate i at x *)
Definition partial (f : list R -> R) (i : nat) (x : list R) (d : R) : Prop := is_derive (fun s => f (with_at x i s)) (nth i x 0) d.
(** y is closer than e to x in every coordinate *)
Definition near (x : list R) (e : R) (y : list R) : Prop := Forall2 (fun a b => Rabs (b - a) < e) x y.
(** F computes f close to x, without drawing anything *)
Definition computes {A} (F : list R -> M A) (f : list R -> A) (x : list R) : Prop :=
  exists e, 0 < e /\ forall y, near x e y -> forall o k, F y o k = (Ok (f y), k).
(** a d by d table *)
Definition table (d : nat) (f : nat -> nat -> R) : list (list R) := map (fun i => map (f i) (seq 0 d)) (seq 0 d).
(** the differentiation rule is exact for F at x: it returns the partial derivatives of the n values
    of F, one row for each value *)
Definition exact_grad (grad : (list R -> M (list R)) -> list R -> M (list (list R))) (F : list R -> M (list R)) (x : list R) : Prop :=
  forall n (f : nat -> list R -> R) (g : nat -> nat -> R), computes F (fun y => map (fun m => f m y) (seq 0 n)) x ->
  (forall m i, (m < n)%nat -> (i < length x)%nat -> partial (f m) i x (g m i)) ->
  forall o k, grad F x o k = (Ok (map (fun m => map (g m) (seq 0 (length x))) (seq 0 n)), k).
(** H i j are the second partial derivatives of f at x *)
Definition second (f : list R -> R) (x : list R) (H : nat -> nat -> R) : Prop :=
  exists G : nat -> list R -> R, (exists e, 0 < e /\ forall i y, (i < length x)%nat -> near x e y -> partial f i y (G i y)) /\
    forall i j, (i < length x)%nat -> (j < length x)%nat -> partial (G i) j x (H i j).
(** the same for second derivatives *)
Definition exact_hess (hess : (list R -> M R) -> list R -> M (list (list R))) (F : list R -> M R) (x : list R) : Prop :=
  forall f H, computes F f x -> second f x H -> forall o k, hess F x o k = (Ok (table (length x) H), k).
(** average and sample covariance over the particles 0, ..., n - 1 *)
Definition avg (n : nat) (a : nat -> R) : R := rsum n a / INR n.
Definition cov (n : nat) (a b : nat -> R) : R := rsum n (fun m => (a m - avg n a) * (b m - avg n b)) / (INR n - 1).
(** Louis' identity for complete-data log-likelihoods with scores G and second derivatives H: the
    information of the complete data less the covariance of the scores *)
Definition louis (n : nat) (G : nat -> nat -> R) (H : nat -> nat -> nat -> R) (i j : nat) : R :=
  avg n (fun m => - H m i j) - cov n (fun m => G m i) (fun m => G m j).
