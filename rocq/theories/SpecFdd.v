(** Finite-dimensional laws of Markov jump processes, and the event that a path is seen in
    given states at given times. *)
From Coq Require Import Reals List Bool Arith.
From Verif Require Import Base M_mjp.
Import ListNotations.
Local Open Scope R_scope.

(** the state entered last at or before u, for entries in order of time ([cur] if there is none) *)
Fixpoint seen (cur : nat) (entries : list (R * nat)) (u : R) : nat :=
  match entries with
  | [] => cur
  | (t, x) :: r => if Rle_dec t u then seen x r u else cur
  end.
(** the path is in state y at time u, for every (u, y) of obs *)
Definition visits (obs : list (R * nat)) (s : skel R) : bool :=
  match combine (sk_t s) (sk_x s) with
  | [] => false
  | (t0, x0) :: r => forallb (fun p => Nat.eqb (seen x0 r (fst p)) (snd p)) obs
  end.
(** observation times in order, between lo and hi *)
Fixpoint in_order (lo : R) (obs : list (R * nat)) (hi : R) : Prop :=
  match obs with
  | [] => lo <= hi
  | (u, _) :: r => lo <= u /\ in_order u r hi
  end.
(** the Markov property: the probability of seeing the states of obs after x at time u0, for
    the transition probabilities P *)
Fixpoint markov (P : R -> nat -> nat -> R) (u0 : R) (x : nat) (obs : list (R * nat)) : R :=
  match obs with
  | [] => 1
  | (u, y) :: r => P (u - u0) x y * markov P u y r
  end.
(** every piece of a partition is seen in the states asked of it *)
Definition all_visit (obss : list (list (R * nat))) (pieces : list (skel R)) : bool :=
  forallb (fun c => visits (fst c) (snd c)) (combine obss pieces).
(** the states a piece starts and ends in *)
Definition first_of (s : skel R) : nat := hd 0%nat (sk_x s).
Definition final_of (s : skel R) : nat := last (sk_x s) 0%nat.
(** the law of a Markov process between states a at time 0 and b at time T *)
Definition pinned (P : R -> nat -> nat -> R) (T : R) (a b : nat) (obs : list (R * nat)) : R :=
  markov P 0 a (obs ++ [(T, b)]) / P T a b.
(** a piece has a duration and states below dim, and obs asks for states at times within it *)
Definition asked (dim : nat) (obs : list (R * nat)) (s : skel R) : Prop :=
  0 < sk_fin s /\ sk_x s <> [] /\ Forall (fun i => (i < dim)%nat) (sk_x s) /\
  in_order 0 obs (sk_fin s) /\ Forall (fun p => (snd p < dim)%nat) obs.
