(** Successive states of a Markov chain. *)
From Coq Require Import List.
Import ListNotations.

(** [l] lists the states after the inputs [ins], starting in [s]; each follows from the one
    before by a step with its input *)
Fixpoint trail {S I : Type} (step : I -> S -> S -> Prop) (s : S) (ins : list I) (l : list S) : Prop :=
  match ins, l with
  | [], [] => True
  | i :: ins', s' :: l' => step i s s' /\ trail step s' ins' l'
  | _, _ => False
  end.
