(** The law of jobs that run in parallel, each with a generator of its own, and sums and products
    over the ways in which a number of parts can move.  See DESIGN.md, section 4. *)
From Coq Require Import Reals List Bool Arith.
From Verif Require Import Base Rng SpecLaw.
Import ListNotations.
Local Open Scope R_scope.

(** the average of F over the lists of results of jobs whose generators are independent: the first
    job is averaged over, and for each of its results the others; a list with a failing job counts 0 *)
Fixpoint independently {A} (jobs : list (M A)) (F : list A -> R) (v : R) : Prop :=
  match jobs with
  | [] => v = F []
  | j :: r => exists h, average j h v /\ forall a, independently r (fun l => F (a :: l)) (h a)
  end.
(** all lists of n booleans, what such a list says of part j, and the sum and the product of numbers *)
Fixpoint patterns (n : nat) : list (list bool) :=
  match n with O => [[]] | S m => map (cons true) (patterns m) ++ map (cons false) (patterns m) end.
Definition of_part (c : list bool) (j : nat) : bool := nth j c false.
Definition sum_over {A} (l : list A) (f : A -> R) : R := fold_right Rplus 0 (map f l).
Definition product (n : nat) (f : nat -> R) : R := fold_right Rmult 1 (map f (seq 0 n)).
