(** Property theorems C113: the laws of whole bridge, backward and proposed paths. *)
From Coq Require Import Reals List Bool Arith Lra Lia.
From Verif Require Import Base Rng M_mjp SpecMjp SpecLin SpecLaw SpecFdd SpecJumps SpecProg L_demo L_simdemo L_lindemo L_prog5 L_prog6 L_prog7 Mat.
Import ListNotations.
Local Open Scope R_scope.

(** the probability that a bridge from x to f goes through exactly x, xs, the k-th jump no later
    than the k-th bound, is the integral of the path density over these jump times, divided by
    the probability of going from x to f *)
Theorem C113_bridge : forall L dim gen T x xs f bs, generator dim gen -> (exists a, (a < dim)%nat /\ gen a a < 0) -> 0 < T -> expm_exact L ->
  (x < dim)%nat -> Forall (fun y => (y < dim)%nat) xs -> moves_on x xs -> last xs x = f -> 0 < get_trans L dim T gen x f ->
  length bs = length xs -> in_order 0 (combine bs xs) T ->
  exists p, (forall fuel, chance (sample_bridge L fuel T x f dim gen) (goes (x :: xs) bs) (p fuel)) /\
    Un_cv p (over_times T bs 0 (fun ts => path_density gen T 0 x ts xs) / get_trans L dim T gen x f).
Proof. exact bridge_path_law. Qed.
Print Assumptions C113_bridge.

(** that is, the law of forward simulation given its final state *)
Theorem C113_given_end : forall L dim gen T x xs f bs, (2 <= dim)%nat -> generator dim gen -> (exists a, (a < dim)%nat /\ gen a a < 0) -> 0 < T -> expm_exact L ->
  (x < dim)%nat -> Forall (fun y => (y < dim)%nat) xs -> moves_on x xs -> last xs x = f -> 0 < get_trans L dim T gen x f ->
  length bs = length xs -> in_order 0 (combine bs xs) T ->
  exists q, (forall fuel, (length xs + 2 <= fuel)%nat -> chance (sample_forwards L fuel T (Some x) dim gen) (goes (x :: xs) bs) q) /\
  exists p, (forall fuel, chance (sample_bridge L fuel T x f dim gen) (goes (x :: xs) bs) (p fuel)) /\ Un_cv p (q / get_trans L dim T gen x f).
Proof. exact given_end. Qed.
Print Assumptions C113_given_end.

(** backwards from f: every initial state has the same weight before the path to f is known *)
Theorem C113_backwards : forall L dim gen T x xs f bs, generator dim gen -> (exists a, (a < dim)%nat /\ gen a a < 0) -> 0 < T -> expm_exact L ->
  (x < dim)%nat -> Forall (fun y => (y < dim)%nat) xs -> moves_on x xs -> last xs x = f -> 0 < get_trans L dim T gen x f ->
  length bs = length xs -> in_order 0 (combine bs xs) T ->
  exists p, (forall fuel, chance (sample_backwards L fuel T f dim gen) (goes (x :: xs) bs) (p fuel)) /\
    Un_cv p (over_times T bs 0 (fun ts => path_density gen T 0 x ts xs) / rsum dim (fun j => get_trans L dim T gen j f)).
Proof. exact backwards_path_law. Qed.
Print Assumptions C113_backwards.

(** the pieces of a redrawn partition follow their routes independently, the first backwards from
    its old final state, the middle ones between their old end states, the last forwards from its
    old first state *)
Theorem C113_mutate : forall L dim gen, (2 <= dim)%nat -> generator dim gen -> pos_off dim gen -> expm_exact L ->
  forall p mids q r0 rs rq, sound_piece dim p -> sound_route dim (sk_fin p) r0 -> to_of r0 = final_of p ->
  Forall2 (fun r s => sound_piece dim s /\ sound_route dim (sk_fin s) r /\ from_of r = first_of s /\ to_of r = final_of s) rs mids ->
  sound_piece dim q -> sound_route dim (sk_fin q) rq -> from_of rq = first_of q ->
  exists N c, (forall fuel, (N <= fuel)%nat -> chance (mutate_partition L fuel (p :: mids ++ [q]) dim gen) (all_follow (r0 :: rs ++ [rq])) (c fuel)) /\
    Un_cv c (route_prob gen (sk_fin p) r0 / rsum dim (fun j => get_trans L dim (sk_fin p) gen j (final_of p)) *
      fold_right Rmult 1 (map (fun c => route_prob gen (sk_fin (snd c)) (fst c) / get_trans L dim (sk_fin (snd c)) gen (from_of (fst c)) (to_of (fst c))) (combine rs mids)) *
      route_prob gen (sk_fin q) rq).
Proof. exact mutate_paths. Qed.
Print Assumptions C113_mutate.

(** Redrawing is reversible for whole paths when every initial state has the same weight.  Two
    partitions of the same lengths have the same states at the cuts, and A and B are routes through
    these states: the process follows A and, redrawn from there, B as often as B and then A. *)
Theorem C113_reversible : forall L dim gen, (2 <= dim)%nat -> generator dim gen -> pos_off dim gen -> expm_exact L ->
  forall p mids q p' mids' q' a0 A aq b0 B bq,
  fits dim p mids q a0 A aq -> fits dim p mids q b0 B bq -> fits dim p' mids' q' a0 A aq -> fits dim p' mids' q' b0 B bq ->
  map sk_fin (p :: mids ++ [q]) = map sk_fin (p' :: mids' ++ [q']) ->
  let Ts := map sk_fin (p :: mids ++ [q]) in
  exists N c c' l l',
    (forall fuel, (N <= fuel)%nat -> chance (mutate_partition L fuel (p :: mids ++ [q]) dim gen) (all_follow (b0 :: B ++ [bq])) (c fuel)) /\ Un_cv c l /\
    (forall fuel, (N <= fuel)%nat -> chance (mutate_partition L fuel (p' :: mids' ++ [q']) dim gen) (all_follow (a0 :: A ++ [aq])) (c' fuel)) /\ Un_cv c' l' /\
    routes_prob gen Ts (a0 :: A ++ [aq]) * l = routes_prob gen Ts (b0 :: B ++ [bq]) * l'.
Proof. exact mutate_reversible. Qed.
Print Assumptions C113_reversible.

(** A path that is not cut is drawn anew, from the stationary law, whatever it was. *)
Theorem C113_uncut : forall L dim gen p, generator dim gen -> (2 <= dim)%nat -> pos_off dim gen -> solve_ok L dim (stat_matrix gen) stat_rhs -> 0 < sk_fin p ->
  exists pi, rsum dim pi = 1 /\ stationary dim gen pi /\
  forall r, sound_route dim (sk_fin p) r -> forall fuel, (length (snd (fst r)) + 2 <= fuel)%nat ->
  chance (mutate_partition L fuel [p] dim gen) (all_follow [r]) (pi (from_of r) * route_prob gen (sk_fin p) r).
Proof. exact mutate_uncut. Qed.
Print Assumptions C113_uncut.

(** paths over two states that jump away and back *)
Example C113_example : generator 2 gen2 /\ pos_off 2 gen2 /\ (exists a, (a < 2)%nat /\ gen2 a a < 0) /\ expm_exact la0 /\
  moves_on 0 [1; 0]%nat /\ last [1; 0]%nat 0%nat = 0%nat /\ 0 < get_trans la0 2 3 gen2 0%nat 0%nat /\ in_order 0 (combine [1; 2] [1; 0]%nat) 3 /\
  sound_piece 2 demo /\ sound_route 2 (sk_fin demo) loop_route /\ from_of loop_route = first_of demo /\ to_of loop_route = final_of demo /\
  all_follow [loop_route; loop_route; loop_route] [demo; demo; demo] = true.
Proof. exact route_example. Qed.
(** staying and an excursion *)
Example C113_fits_example : fits 2 demo [demo] demo loop_route [loop_route] loop_route /\ fits 2 demo [demo] demo still_route [still_route] still_route.
Proof. exact fits_example. Qed.
