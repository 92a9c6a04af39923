(** Property theorems C112: the law of whole simulated paths, and eval_loglik as their density. *)
From Coq Require Import Reals List Bool Arith Lra Lia.
From Verif Require Import Base Rng M_mjp M_inf SpecMjp SpecLin SpecInf SpecLaw SpecJumps L_inf2 L_demo L_simdemo L_lindemo L_jumps3 Mat.
Import ListNotations.
Local Open Scope R_scope.

(** from a given state, the probability of going through exactly the states x, xs with the k-th
    jump no later than the k-th bound is the integral of the path density over these jump times;
    the number of steps only has to exceed the number of jumps *)
Theorem C112_path_law : forall L dim gen T fuel x xs bs, generator dim gen -> (2 <= dim)%nat -> 0 < T -> (x < dim)%nat ->
  Forall (fun y => (y < dim)%nat) xs -> moves_on x xs -> length bs = length xs -> (length xs + 2 <= fuel)%nat ->
  chance (sample_forwards L fuel T (Some x) dim gen) (goes (x :: xs) bs) (over_times T bs 0 (fun ts => path_density gen T 0 x ts xs)).
Proof. exact path_law. Qed.
Print Assumptions C112_path_law.

(** without a starting state the first state has the stationary law *)
Theorem C112_path_law_stationary : forall L dim gen T, generator dim gen -> (2 <= dim)%nat -> pos_off dim gen -> solve_ok L dim (stat_matrix gen) stat_rhs -> 0 < T ->
  exists p, rsum dim p = 1 /\ (forall i, (i < dim)%nat -> 0 < p i) /\ stationary dim gen p /\
  forall fuel x xs bs, (x < dim)%nat ->
  Forall (fun y => (y < dim)%nat) xs -> moves_on x xs -> length bs = length xs -> (length xs + 2 <= fuel)%nat ->
  chance (sample_forwards L fuel T None dim gen) (goes (x :: xs) bs) (p x * over_times T bs 0 (fun ts => path_density gen T 0 x ts xs)).
Proof. exact path_law_stat. Qed.
Print Assumptions C112_path_law_stationary.

(** eval_loglik is the log of this density without the factor for staying in the final state
    after the last jump *)
Theorem C112_loglik : forall dim s gen f tl_, wf_skel s -> Forall (fun i => (i < dim)%nat) (sk_x s) -> pos_off dim gen -> final_state s f -> last_jump s tl_ ->
  exists ll, eval_loglik dim s gen = Ok (Some ll) /\ exp ll * exp (gen f f * (sk_fin s - tl_)) = density gen s.
Proof. exact density_of. Qed.
Print Assumptions C112_loglik.

(** so it is too large for every path *)
Theorem C112_loglik_is_log_density_refuted : forall dim s gen, wf_skel s -> Forall (fun i => (i < dim)%nat) (sk_x s) -> (2 <= dim)%nat -> generator dim gen -> pos_off dim gen ->
  exists ll, eval_loglik dim s gen = Ok (Some ll) /\ ln (density gen s) < ll.
Proof. exact loglik_excess. Qed.
Print Assumptions C112_loglik_is_log_density_refuted.

(** the gamma posterior given the whole path is the one of update with the time after the last
    jump added to the rates of the final state *)
Theorem C112_posterior : forall dim s gen alp0 bet0 f tl_, wf_skel s -> Forall (fun i => (i < dim)%nat) (sk_x s) ->
  generator dim gen -> pos_off dim gen -> hyper dim (fun _ => True) alp0 -> hyper dim (fun _ => True) bet0 -> final_state s f -> last_jump s tl_ ->
  exists alp1 bet1, update dim s alp0 bet0 = Ok (alp1, bet1) /\
    eval_logprior dim gen alp1 (fun i j => option_map (Rplus (if Nat.eqb i f then sk_fin s - tl_ else 0)) (bet1 i j)) = eval_logprior dim gen alp0 bet0 + ln (density gen s).
Proof. exact right_update. Qed.
Print Assumptions C112_posterior.

(** a path over two states that jumps twice *)
Example C112_example : generator 2 gen2 /\ pos_off 2 gen2 /\ solve_ok la0 2 (stat_matrix gen2) stat_rhs /\
  Forall (fun y => (y < 2)%nat) [1; 0]%nat /\ moves_on 0 [1; 0]%nat /\ goes [0; 1; 0]%nat [3/2; 5/2] demo = true /\
  wf_skel demo /\ Forall (fun i => (i < 2)%nat) (sk_x demo) /\ final_state demo 0 /\ last_jump demo 2 /\ hyper 2 (fun _ => True) (hyp2 1).
Proof. exact jumps_example. Qed.
