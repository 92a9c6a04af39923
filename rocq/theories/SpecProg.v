(** Whole paths asked of the pieces of a partition, and their probabilities. *)
From Coq Require Import Reals List Bool Arith.
From Verif Require Import Base Mat M_mjp SpecFdd SpecJumps.
Import ListNotations.
Local Open Scope R_scope.

(** the states to go through and bounds on the times of the jumps *)
Definition route : Type := nat * list nat * list R.
Definition from_of (r : route) : nat := fst (fst r).
Definition to_of (r : route) : nat := last (snd (fst r)) (fst (fst r)).
Definition follows (r : route) (s : skel R) : bool := goes (from_of r :: snd (fst r)) (snd r) s.
(** every piece of a partition follows the route asked of it *)
Definition all_follow (rs : list route) (pieces : list (skel R)) : bool :=
  forallb (fun c => follows (fst c) (snd c)) (combine rs pieces).
(** the probability that the process started in the first state of the route follows it up to T *)
Definition route_prob (gen : mat) (T : R) (r : route) : R :=
  over_times T (snd r) 0 (fun ts => path_density gen T 0 (from_of r) ts (snd (fst r))).
(** a route over states below dim, one bound for each jump, the bounds in order between 0 and T *)
Definition sound_route (dim : nat) (T : R) (r : route) : Prop :=
  (from_of r < dim)%nat /\ Forall (fun y => (y < dim)%nat) (snd (fst r)) /\ moves_on (from_of r) (snd (fst r)) /\
  length (snd r) = length (snd (fst r)) /\ in_order 0 (combine (snd r) (snd (fst r))) T.
(** a piece with a duration, and states below dim *)
Definition sound_piece (dim : nat) (s : skel R) : Prop :=
  0 < sk_fin s /\ sk_x s <> [] /\ Forall (fun i => (i < dim)%nat) (sk_x s).
(** routes that can be asked of the redrawn pieces p, mids, q: they go through the states at the cuts *)
Definition fits (dim : nat) (p : skel R) (mids : list (skel R)) (q : skel R) (r0 : route) (rs : list route) (rq : route) : Prop :=
  sound_piece dim p /\ sound_route dim (sk_fin p) r0 /\ to_of r0 = final_of p /\
  Forall2 (fun r s => sound_piece dim s /\ sound_route dim (sk_fin s) r /\ from_of r = first_of s /\ to_of r = final_of s) rs mids /\
  sound_piece dim q /\ sound_route dim (sk_fin q) rq /\ from_of rq = first_of q.
(** the probability that the process started in the first state of the first route follows them all, one after the other *)
Definition routes_prob (gen : mat) (Ts : list R) (rs : list route) : R :=
  fold_right Rmult 1 (map (fun c => route_prob gen (fst c) (snd c)) (combine Ts rs)).
