(** Vocabulary for the Bernoulli factory properties. *)
From Coq Require Import Reals List Bool Arith.
From Verif Require Import Base Rng M_bf.
Import ListNotations.
Local Open Scope R_scope.

(** a finite probability distribution *)
Definition proper {A} (d : dist A) : Prop := Forall (fun p => 0 <= fst p) d /\ pr d (fun _ => true) = 1.
(** success probability of a coin, and its probability to succeed with a payload in E *)
Definition heads {A} (c : dist (bool * A)) : R := pr c fst.
Definition heads_with {A} (c : dist (bool * A)) (E : A -> bool) : R := pr c (fun r => fst r && E (snd r)).

(** events about an outcome (first component None: budget exhausted) *)
Definition returned {A} (r : option (bool * bool * A) * unit) : bool :=
  match fst r with Some _ => true | None => false end.
Definition wins1 {A} (E : A -> bool) (r : option (bool * bool * A) * unit) : bool :=
  match fst r with Some (true, false, a) => E a | _ => false end.
Definition wins2 {A} (E : A -> bool) (r : option (bool * bool * A) * unit) : bool :=
  match fst r with Some (false, false, a) => E a | _ => false end.
Definition escaped {A} (r : option (bool * bool * A) * unit) : bool :=
  match fst r with Some (false, true, _) => true | _ => false end.
Definition says_true {A} (r : option (bool * bool * A) * unit) : bool :=
  match fst r with Some (true, _, _) => true | _ => false end.
(** the same for an update with an optional pre-coin *)
Definition accepts {A} (r : option (option (bool * bool * A)) * unit) : bool :=
  match fst r with Some (Some (true, _, _)) => true | _ => false end.

(** A history-dependent coin with a log of all its flips (which coin, success, payload). *)
Definition flips (A : Type) : Type := list (bool * (bool * A)).
Definition logged {A} (f : bool -> flips A -> M (bool * A)) (b : bool) (s : flips A) : M ((bool * A) * flips A) :=
  do r <- f b s; ret (r, s ++ [(b, r)]).
Definition failed {A} (x : bool * (bool * A)) : Prop := fst (snd x) = false.
(** the probability exp w1 / (exp w1 + exp w2) with which Barker's rule accepts *)
Definition barker_ratio (w1 w2 : R) : R := exp w1 / (exp w1 + exp w2).
