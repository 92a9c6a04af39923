(** Property theorems C111: whether redrawing the regime path between conditioning times leaves the
    law of the regime process as it is. *)
From Coq Require Import Reals List Bool Arith Lra Lia.
From Verif Require Import Base Rng L_rng M_mjp SpecMjp SpecLin SpecLaw SpecFdd SpecRedraw L_redraw L_redraw2 L_redraw3 L_redraw4 L_redraw5 L_lindemo L_simdemo L_swdemo L_fwd7 L_stat Mat.
Import ListNotations.
Local Open Scope R_scope.

(** The transition probabilities the code computes are those of a Markov process. *)
Theorem C111_semigroup : forall L dim gen, generator dim gen -> expm_exact L -> forall x s t, (x < dim)%nat -> 0 <= s ->
  rsum dim (fun y => get_trans L dim s gen x y) = 1 /\
  forall y, (y < dim)%nat -> rsum dim (fun z => get_trans L dim s gen x z * get_trans L dim t gen z y) = get_trans L dim (s + t) gen x y.
Proof. exact (fun L dim gen Hg HL x s t Hx Hs => conj (mass L dim gen Hg HL x s Hx Hs) (fun y Hy => semigroup L dim gen HL x y s t Hx Hy Hs)). Qed.
Print Assumptions C111_semigroup.

(** A path that is cut at least once: the regime process started in the uniform law is kept, whatever
    the generator, the pieces and what is asked of them. *)
Theorem C111_uniform : forall L dim gen, (2 <= dim)%nat -> generator dim gen -> pos_off dim gen -> expm_exact L ->
  forall p : vec, (forall i, (i < dim)%nat -> p i = / INR dim) -> forall pieces, (2 <= length pieces)%nat -> askable dim pieces -> redraw_keeps L dim gen p pieces.
Proof. exact uniform_kept. Qed.
Print Assumptions C111_uniform.

(** It is kept reversibly: the path before and the path after may be exchanged. *)
Theorem C111_reversible : forall L dim gen, (2 <= dim)%nat -> generator dim gen -> pos_off dim gen -> expm_exact L ->
  forall p : vec, (forall i, (i < dim)%nat -> p i = / INR dim) ->
  forall Ts A B, (2 <= length Ts)%nat -> length A = length Ts -> length B = length Ts -> askable dim (combine Ts A) -> askable dim (combine Ts B) -> redraw_reversible L dim gen p Ts A B.
Proof. exact uniform_reversible. Qed.
Print Assumptions C111_reversible.

(** No other initial law is kept: the state at time 0 of a path cut once already tells. *)
Theorem C111_only_uniform : forall L dim gen, (2 <= dim)%nat -> generator dim gen -> pos_off dim gen -> expm_exact L ->
  forall p, rsum dim p = 1 -> forall T0 Tq, 0 < T0 -> 0 < Tq -> (forall i, (i < dim)%nat -> redraw_keeps L dim gen p [(T0, [(0, i)]); (Tq, [])]) ->
  forall i, (i < dim)%nat -> p i = / INR dim.
Proof. exact uniform_only. Qed.
Print Assumptions C111_only_uniform.

(** A path that is not cut: exactly the stationary process is kept. *)
Theorem C111_uncut : forall L dim gen, (2 <= dim)%nat -> generator dim gen -> pos_off dim gen -> expm_exact L -> solve_ok L dim (stat_matrix gen) stat_rhs ->
  forall p, rsum dim p = 1 -> forall T, 0 < T ->
  ((forall o, in_order 0 o T -> Forall (fun c => (snd c < dim)%nat) o -> redraw_keeps L dim gen p [(T, o)]) <-> stationary dim gen p).
Proof. exact uncut_law. Qed.
Print Assumptions C111_uncut.

(** So that no initial law is kept both with and without cuts in general. *)
Theorem C111_preserved_refuted : exists dim gen, generator dim gen /\ pos_off dim gen /\ forall L, expm_exact L -> solve_ok L dim (stat_matrix gen) stat_rhs ->
  ~ exists p, rsum dim p = 1 /\ (forall i, (i < dim)%nat -> redraw_keeps L dim gen p [(1, [(0, i)]); (1, [])]) /\ (forall o, in_order 0 o 2 -> Forall (fun c => (snd c < dim)%nat) o -> redraw_keeps L dim gen p [(2, o)]).
Proof. exact no_law_kept. Qed.
Print Assumptions C111_preserved_refuted.

Example C111_example : askable 2 [(1, [(1/3, 1%nat)]); (2, [(1/2, 0%nat); (1, 1%nat)]); (1, [])] /\
  (forall y, (y < 2)%nat -> cut_at 2 [1; 2] [y] [step_piece 1 y y; step_piece 2 y y]) /\
  cut_at 2 [1; 2; 1] [0%nat; 1%nat] [step_piece 1 1 0; step_piece 2 0 1; step_piece 1 1 0] /\
  expm_exact la0 /\ generator 2 gen12 /\ pos_off 2 gen12 /\ solve_ok la0 2 (stat_matrix gen12) stat_rhs /\
  (forall i, (i < 2)%nat -> / 2 = / INR 2).
Proof.
  split; [repeat (apply Forall_cons; [cbn; repeat split; try lra; repeat (apply Forall_cons; [cbn; lia|]); apply Forall_nil|]); apply Forall_nil|].
  split; [intros y Hy; apply ex_cut; exact Hy|]. split.
  - split; [reflexivity|]. split; [|split; reflexivity]. repeat (apply Forall_cons; [split; [discriminate|repeat (apply Forall_cons; [cbn; lia|]); apply Forall_nil]|]). apply Forall_nil.
  - split; [exact la0_expm|]. split; [exact gen12_generator|]. split; [exact gen12_pos|]. split; [exact (la0_solve_all gen12 gen12_generator gen12_pos)|]. intros i _. reflexivity.
Qed.
