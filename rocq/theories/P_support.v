(** Property theorems C87: the support of the Markov jump process samplers. *)
From Coq Require Import Reals List Arith Lra Lia.
From Verif Require Import Base Np Rng M_mjp M_inf SpecCan SpecMjp SpecLin SpecInf SpecSupport L_mat L_simdemo L_lindemo L_can5 L_can6 L_can7 Mat.
Import ListNotations.
Local Open Scope R_scope.

(** C87: sample_forwards can return exactly every path whose jumps have positive rates, *)
Theorem C87_forwards : forall L dim gen fin_t x js, (2 <= dim)%nat -> generator dim gen -> 0 < fin_t -> (x < dim)%nat -> jumping dim gen fin_t 0 x js ->
  feasible (fun fuel => sample_forwards L fuel fin_t (Some x) dim gen) (eq (path fin_t x js)).
Proof. exact forwards_feasible. Qed.
Print Assumptions C87_forwards.
Theorem C87_stationary : forall L dim gen fin_t x js, (2 <= dim)%nat -> generator dim gen -> pos_off dim gen -> solve_ok L dim (stat_matrix gen) stat_rhs ->
  0 < fin_t -> (x < dim)%nat -> jumping dim gen fin_t 0 x js ->
  feasible (fun fuel => sample_forwards L fuel fin_t None dim gen) (eq (path fin_t x js)).
Proof. exact forwards_stat_feasible. Qed.
Print Assumptions C87_stationary.
(** and returns nothing else. *)
Theorem C87_forwards_only : forall dim gen fin_t, (2 <= dim)%nat -> forall L fuel init, 0 < fin_t -> (forall x, init = Some x -> (x < dim)%nat) ->
  returns (sample_forwards L fuel fin_t init dim gen)
    (fun s => exists x js, (x < dim)%nat /\ (forall y, init = Some y -> x = y) /\ jumping dim gen fin_t 0 x js /\ s = path fin_t x js).
Proof. exact forwards_jumps. Qed.
Print Assumptions C87_forwards_only.
(** Bridges come arbitrarily close to every such path between their end states, *)
Theorem C87_bridge : forall L dim gen fin_t eps x js, generator dim gen -> (exists a, (a < dim)%nat /\ gen a a < 0) -> 0 < fin_t -> expm_exact L ->
  0 < eps -> (x < dim)%nat -> jumping dim gen fin_t 0 x js ->
  feasible (fun fuel => sample_bridge L fuel fin_t x (last_state x js) dim gen) (near eps (path fin_t x js)).
Proof. exact mjp_bridge_feasible. Qed.
Print Assumptions C87_bridge.
Theorem C87_backwards : forall L dim gen fin_t eps x js, generator dim gen -> (exists a, (a < dim)%nat /\ gen a a < 0) -> 0 < fin_t -> expm_exact L ->
  0 < eps -> (x < dim)%nat -> jumping dim gen fin_t 0 x js ->
  feasible (fun fuel => sample_backwards L fuel fin_t (last_state x js) dim gen) (near eps (path fin_t x js)).
Proof. exact backwards_feasible. Qed.
Print Assumptions C87_backwards.
(** and are always such paths. *)
Theorem C87_bridge_only : forall L dim gen fin_t, generator dim gen -> (exists a, (a < dim)%nat /\ gen a a < 0) -> 0 < fin_t -> expm_exact L ->
  forall fuel i f, (i < dim)%nat -> (f < dim)%nat -> 0 < get_trans L dim fin_t gen i f ->
  returns_if generic (sample_bridge L fuel fin_t i f dim gen)
    (fun s => exists js, jumping dim gen fin_t 0 i js /\ last_state i js = f /\ s = path fin_t i js).
Proof. exact bridge_jumps. Qed.
Print Assumptions C87_bridge_only.
Theorem C87_backwards_only : forall L dim gen fin_t, generator dim gen -> (exists a, (a < dim)%nat /\ gen a a < 0) -> 0 < fin_t -> expm_exact L ->
  forall fuel f, (f < dim)%nat ->
  returns_if generic (sample_backwards L fuel fin_t f dim gen)
    (fun s => exists i js, (i < dim)%nat /\ jumping dim gen fin_t 0 i js /\ last_state i js = f /\ s = path fin_t i js).
Proof. exact backwards_jumps. Qed.
Print Assumptions C87_backwards_only.
(** The proposal of mutate_partition comes close to every sequence of pieces with the old states at the breaks. *)
Theorem C87_proposal : forall L dim gen eps p x0 js0 ms tgt q xq jsq, (2 <= dim)%nat -> generator dim gen -> (exists a, (a < dim)%nat /\ gen a a < 0) -> expm_exact L -> 0 < eps ->
  0 < sk_fin p -> (x0 < dim)%nat -> jumping dim gen (sk_fin p) 0 x0 js0 -> (exists l, sk_x p = l ++ [last_state x0 js0]) ->
  Forall2 (fun m t => 0 < sk_fin m /\ replaces dim gen m t) ms tgt ->
  0 < sk_fin q -> (xq < dim)%nat -> jumping dim gen (sk_fin q) 0 xq jsq -> hd_error (sk_x q) = Some xq ->
  feasible (fun fuel => mutate_partition L fuel (p :: ms ++ [q]) dim gen)
    (fun ps => exists p' ms', ps = p' :: ms' ++ [path (sk_fin q) xq jsq] /\ near eps (path (sk_fin p) x0 js0) p' /\
       length ms' = length ms /\
       forall k m t m', nth_error ms k = Some m -> nth_error tgt k = Some t -> nth_error ms' k = Some m' -> near eps (path (sk_fin m) (fst t) (snd t)) m').
Proof. exact mutate_feasible. Qed.
Print Assumptions C87_proposal.
(** The posterior draw of the generator can be every generator with positive rates. *)
Theorem C87_generator : forall dim alp bet (Q : mat), hyper dim (Rlt 0) alp -> hyper dim (Rlt 0) bet -> generator dim Q -> pos_off dim Q ->
  feasible (fun _ => sample_param dim alp bet) (fun g => forall i j, (i < dim)%nat -> (j < dim)%nat -> g i j = Some (Q i j)).
Proof. exact param_feasible. Qed.
Print Assumptions C87_generator.
Example C87_example : jumping 2 gen2 3 0 0 [(1, 1%nat); (2, 0%nat); (5/2, 1%nat)] /\ last_state 0 [(1, 1%nat); (2, 0%nat); (5/2, 1%nat)] = 1%nat /\
  generator 2 gen2 /\ pos_off 2 gen2 /\ expm_exact la0 /\ solve_ok la0 2 (stat_matrix gen2) stat_rhs.
Proof. exact (conj (proj1 support_demo) (conj (proj2 support_demo) (conj gen2_generator (conj gen2_pos (conj la0_expm la0_solve))))). Qed.
