(** Bernoulli factories fed with coins that are computations of their own. *)
From Coq Require Import Reals List Bool Arith.
From Verif Require Import Base Rng.
Import ListNotations.
Local Open Scope R_scope.

(** a memoryless pair of coins *)
Definition memoryless {A} (c1 c2 : M (bool * A)) (first : bool) (s : unit) : M ((bool * A) * unit) :=
  do r <- (if first then c1 else c2); ret (r, s).
(** won b E: coin b answered, not the escape, with a payload in E; [total_mass]: anything was
    returned *)
Definition won {A} (b : bool) (E : A -> bool) (x : (bool * bool * A) * unit) : bool :=
  let '((first, esc, a), _) := x in Bool.eqb first b && negb esc && E a.
Definition total_mass {A} (x : (bool * bool * A) * unit) : bool := true.

