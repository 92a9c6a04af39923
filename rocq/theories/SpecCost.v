(** The two-coin factories with memoryless coins, counting the flips. *)
From Coq Require Import Reals List Bool Arith.
From Verif Require Import Base Rng M_bf SpecBf.
Import ListNotations.
Local Open Scope R_scope.

(** memoryless coins whose state is the number of flips so far *)
Definition counted {A} (c1 c2 : dist (bool * A)) (first : bool) (s : nat) : dist ((bool * A) * nat) :=
  dbind (if first then c1 else c2) (fun r => dret (r, S s)).
(** sample_twocoin and sample_twocoin_joint with these coins: the outcome and the number of flips *)
Definition twocoin_flips {A} (c1 c2 : dist (bool * A)) (w1 w2 pr_portkey : R) (prop0 : A) (max_props : nat)
    : dist (option (bool * bool * A) * nat) :=
  twocoin (m := dist) (@dret) (@dbind) d_ulog_lt d_u_lt (counted c1 c2) w1 w2 pr_portkey prop0 max_props 0%nat.
Definition twocoin_joint_flips {A} (c1 c2 : dist (bool * A)) (w1 w2 pr_portkey : R) (max_props : nat)
    : dist (option (bool * bool * A) * nat) :=
  twocoin_joint (m := dist) (@dret) (@dbind) d_ulog_lt d_u_lt (counted c1 c2) (@dret nat) w1 w2 pr_portkey max_props 0%nat.
(** expectation under a finite distribution *)
Definition expect {A} (d : dist A) (f : A -> R) : R := fold_right Rplus 0 (map (fun p => fst p * f (snd p)) d).
(** the probability that a flip fails and the portkey is not taken *)
Definition goes_on (w1 w2 e h1 h2 : R) : R :=
  (1 - e) * ((exp w1 * (1 - h1) + exp w2 * (1 - h2)) / (exp w1 + exp w2)).
(** any two coins, which may be computations of their own, with the number of flips as state, and
    the loop of sample_twocoin run with them *)
Definition counting {A} (c1 c2 : M (bool * A)) (first : bool) (s : nat) : M ((bool * A) * nat) :=
  do r <- (if first then c1 else c2); ret (r, S s).
Definition counting_twocoin {A} (c1 c2 : M (bool * A)) (w1 w2 pr_portkey : R) (prop0 : A) (max_props : nat) : M (option (bool * bool * A) * nat) :=
  twocoin (m := M) (@ret) (@bind) o_ulog_lt o_u_lt (counting c1 c2) w1 w2 pr_portkey prop0 max_props 0%nat.
