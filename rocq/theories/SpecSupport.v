(** Paths a Markov jump process can take. *)
From Coq Require Import Reals List Arith.
From Verif Require Import Base Np Mat M_mjp.
Import ListNotations.
Local Open Scope R_scope.

(** from state [x] at time [u]: later jumps (time, state) before [fin_t], to other states, at positive rates *)
Fixpoint jumping (dim : nat) (gen : mat) (fin_t u : R) (x : nat) (js : list (R * nat)) : Prop :=
  match js with
  | [] => True
  | (v, y) :: r => u < v < fin_t /\ (y < dim)%nat /\ y <> x /\ 0 < gen x y /\ jumping dim gen fin_t v y r
  end.
(** the skeleton that starts in [x] at time 0 and jumps as listed *)
Definition path (fin_t : R) (x : nat) (js : list (R * nat)) : skel R :=
  mk_skel (0 :: map fst js) (x :: map snd js) fin_t.
(** same states, jump times less than [eps] apart *)
Definition near (eps : R) (s s' : skel R) : Prop :=
  sk_fin s' = sk_fin s /\ sk_x s' = sk_x s /\ Forall2 (fun a b => Rabs (a - b) < eps) (sk_t s) (sk_t s').
(** the last state of such a path *)
Definition last_state (x : nat) (js : list (R * nat)) : nat := last (map snd js) x.
(** a path (initial state, jumps) over the time span of a piece, with the piece's states at both ends *)
Definition replaces (dim : nat) (gen : mat) (p : skel R) (tgt : nat * list (R * nat)) : Prop :=
  (fst tgt < dim)%nat /\ jumping dim gen (sk_fin p) 0 (fst tgt) (snd tgt) /\
  hd_error (sk_x p) = Some (fst tgt) /\ exists l, sk_x p = l ++ [last_state (fst tgt) (snd tgt)].
