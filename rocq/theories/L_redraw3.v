(** Pieces for the examples. *)
From Coquelicot Require Import Rcomplements Hierarchy.
From Coq Require Import Reals List Bool Arith Lia Lra Psatz.
From Verif Require Import Base Np Rng L_rng M_mjp SpecMjp SpecLin SpecLaw SpecFdd SpecRedraw L_law L_law2 L_stat L_mutate L_fdd3 L_fwd4 L_fwd5 L_fwd6 L_fwd7 L_redraw L_redraw2 L_mat Mat.
Import ListNotations.
Local Open Scope R_scope.

(** pieces that are in one state until half their time and in another one afterwards *)
Definition step_piece (T : R) (a b : nat) : skel R := mk_skel [0; T / 2] [a; b] T.
Lemma ex_cut : forall dim T0 Tq y, (y < dim)%nat -> cut_at dim [T0; Tq] [y] [step_piece T0 y y; step_piece Tq y y].
Proof. intros dim T0 Tq y Hy. split; [reflexivity|]. split; [|split; reflexivity]. repeat (apply Forall_cons; [split; [discriminate|repeat (apply Forall_cons; [exact Hy|]); apply Forall_nil]|]). apply Forall_nil. Qed.
