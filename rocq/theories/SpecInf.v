(** Vocabulary for the statements about posterior updates. *)
From Coq Require Import Reals List Bool Arith.
From Verif Require Import Base Mat M_mjp M_inf.
Import ListNotations.
Local Open Scope R_scope.

(** hyper-parameter arrays as the package builds them: NaN on the diagonal, numbers with
    property [P] elsewhere *)
Definition hyper (dim : nat) (P : R -> Prop) (A : omat) : Prop :=
  (forall i, (i < dim)%nat -> A i i = None) /\
  (forall i j, (i < dim)%nat -> (j < dim)%nat -> i <> j -> exists a, A i j = Some a /\ P a).

(** number of jumps from i to j *)
Fixpoint n_jumps (x : list nat) (i j : nat) : nat :=
  match x with
  | a :: ((b :: _) as r) => (if Nat.eqb a i && Nat.eqb b j then 1 else 0) + n_jumps r i j
  | _ => 0
  end.
(** time of the last jump (0 if none) *)
Definition last_jump (s : skel R) (t : R) : Prop := exists l, sk_t s = l ++ [t].
