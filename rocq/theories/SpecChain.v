(** What a state of the switching sampler and the inputs of an iteration must satisfy. *)
From Coq Require Import Reals List.
From Verif Require Import Base Rng Mat M_mjp M_inf M_bf M_adapt M_path M_skel M_seed M_models M_sw M_chain SpecMjp SpecLin SpecSkel SpecSeed SpecSw.
Import ListNotations.
Local Open Scope R_scope.

(** [okrow] says which parameter vectors are admissible *)
Record chain_ok (dim : nat) (okrow : list R -> Prop) (t vt : list R) (c : chain) : Prop := {
  co_hidden : hidden_ok dim t vt (rw_state (c_sp c)) (c_h c) (length (c_z c));
  co_seeds : Forall (fun s => standard s /\ ends 1 0 0 s) (c_z c);
  co_thi : length (c_thi c) = dim /\ Forall okrow (c_thi c);
  co_gen : generator dim (c_lam c) /\ pos_off dim (c_lam c) }.
(** admissible proposals, generators whose uniforms are positive and distinct *)
Definition inputs_ok (okrow : list R -> Prop) (i : inputs) : Prop :=
  (forall j, returns_if generic (in_propose i j) (fun p => okrow (fst (fst p)))) /\
  (forall j, valid (in_params i j) /\ generic (in_params i j)) /\ (forall j, valid (in_hidden i j) /\ generic (in_hidden i j)).
