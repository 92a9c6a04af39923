(** Vocabulary for the statements about where the switching sampler can go. *)
From Coq Require Import Reals List Arith.
From Verif Require Import Base Np Rng Mat M_mjp M_adapt M_models M_sw M_chain SpecMjp SpecLin.
Import ListNotations.
Local Open Scope R_scope.

(** the Poisson coins of a move from the parameters [r] of a regime to [r'] have a positive rate,
    on every interval and for every seed of positive height *)
Definition alive (grad : list R -> list R -> R -> R -> R -> R -> R -> list R) (r r' : list R) : Prop :=
  forall dt v0 v1 l u, 0 < dt -> l <> u -> 0 < sw_intensity r r' (grad r r' dt v0 v1 l u).
(** what is asked of one iteration: the parameters, a generator and a regime path *)
Record stop : Type := mk_stop { s_thi : list (list R); s_gen : mat; s_path : jump_path }.
Definition stop_ok (dim : nat) (okrow : list R -> Prop) (fin : R) (s : stop) : Prop :=
  (length (s_thi s) = dim /\ Forall okrow (s_thi s)) /\ (generator dim (s_gen s) /\ pos_off dim (s_gen s)) /\
  (wf_skel (s_path s) /\ M_mjp.sk_fin (s_path s) = fin /\ Forall (fun x => (x < dim)%nat) (M_mjp.sk_x (s_path s))).
(** a tour: the parameters of each regime stay or make a move in [step] from one stop to the next;
    nothing connects the generators and the regime paths of different stops *)
Fixpoint tour (dim : nat) (okrow : list R -> Prop) (step : list R -> list R -> Prop) (fin : R) (thi : list (list R)) (l : list stop) : Prop :=
  match l with
  | [] => True
  | s :: r => stop_ok dim okrow fin s /\
      (forall j, (j < dim)%nat -> row (s_thi s) j = row thi j \/ step (row thi j) (row (s_thi s) j)) /\
      tour dim okrow step fin (s_thi s) r
  end.
(** a state of the chain is at a stop *)
Definition at_stop (dim : nat) (s : stop) (c : chain) : Prop :=
  c_thi c = s_thi s /\ (forall i j, (i < dim)%nat -> (j < dim)%nat -> c_lam c i j = s_gen s i j) /\
  prune_anchorage (c_h c) = Ok (s_path s) /\ rw_state (c_sp c) = s_path s.
