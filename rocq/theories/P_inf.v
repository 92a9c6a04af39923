(** Property theorems C12 (hyper-parameters), C13, C14, C15, C16. *)
From Coq Require Import Reals List ZArith Bool Arith Lia Lra Sorted.
From Coquelicot Require Import Hierarchy RInt.
From Verif Require Import Base Np Rng Mat M_mjp M_inf SpecMjp SpecLin SpecInf L_rng L_mat L_inf L_inf2 L_demo L_lindemo L_gibbs.
Import ListNotations.
Local Open Scope R_scope.

(** C12: posterior draws, means and modes are valid generators. *)
Theorem C12_sample_param : forall dim alp bet, hyper dim (Rlt 0) alp -> hyper dim (Rlt 0) bet ->
  total (sample_param dim alp bet) (fun g => exists G : mat,
    (forall i j, (i < dim)%nat -> (j < dim)%nat -> g i j = Some (G i j)) /\ generator dim G /\ pos_off dim G).
Proof. exact sample_param_ok. Qed.
Print Assumptions C12_sample_param.
Theorem C12_get_ev : forall dim alp bet, hyper dim (Rlt 0) alp -> hyper dim (Rlt 0) bet ->
  exists G : mat, (forall i j, (i < dim)%nat -> (j < dim)%nat -> get_ev dim alp bet i j = Some (G i j)) /\
    generator dim G /\ pos_off dim G /\
    (forall i j a b, (i < dim)%nat -> (j < dim)%nat -> i <> j -> alp i j = Some a -> bet i j = Some b -> G i j = a / b).
Proof. exact get_ev_ok. Qed.
Print Assumptions C12_get_ev.
Theorem C12_get_mode : forall dim alp bet, hyper dim (Rlt 1) alp -> hyper dim (Rlt 0) bet ->
  exists G : mat, (forall i j, (i < dim)%nat -> (j < dim)%nat -> get_mode dim alp bet i j = Some (G i j)) /\
    generator dim G /\ pos_off dim G /\
    (forall i j a b, (i < dim)%nat -> (j < dim)%nat -> i <> j -> alp i j = Some a -> bet i j = Some b -> G i j = (a - 1) / b).
Proof. exact get_mode_ok. Qed.
Print Assumptions C12_get_mode.
Example C12_example : hyper 3 (Rlt 1) (hyp2 2) /\ hyper 3 (Rlt 0) (hyp2 2).
Proof. split; apply hyp2_ok; lra. Qed.

(** C13: sufficient statistics. *)
Theorem C13_update_statistics : forall dim s alp0 bet0, wf_skel s -> Forall (fun i => (i < dim)%nat) (sk_x s) ->
  exists alp1 bet1 (hold : nat -> R) tl_, update dim s alp0 bet0 = Ok (alp1, bet1) /\ last_jump s tl_ /\ 0 <= tl_ < sk_fin s /\
   (forall i, alp1 i i = None) /\
   (forall i j, i <> j -> alp1 i j = option_map (Rplus (INR (n_jumps (sk_x s) i j))) (alp0 i j)) /\
   (forall i j, bet1 i j = option_map (Rplus (hold i)) (bet0 i j)) /\
   (forall i (f : R -> nat), (forall u, 0 <= u < tl_ -> state_at s u (f u)) ->
      is_RInt (fun u => if Nat.eqb (f u) i then 1 else 0) 0 tl_ (hold i)) /\
   rsum dim (fun i => rsum dim (fun j => INR (n_jumps (sk_x s) i j))) = INR (length (sk_x s) - 1) /\
   rsum dim hold = tl_.
Proof. exact update_stats. Qed.
Print Assumptions C13_update_statistics.
Example C13_example : wf_skel demo /\ Forall (fun i => (i < 2)%nat) (sk_x demo) /\ n_jumps (sk_x demo) 0 1 = 1%nat.
Proof. exact (conj demo_wf (conj demo_states eq_refl)). Qed.

(** C14: for every path the credited time is the time of the last jump, which is less than
    the horizon. *)
Theorem C14_time_after_last_jump_lost : forall dim s (alp0 bet0 : omat), wf_skel s -> Forall (fun i => (i < dim)%nat) (sk_x s) ->
  exists alp1 bet1 (hold : nat -> R) tl_, update dim s alp0 bet0 = Ok (alp1, bet1) /\
   (forall i j, bet1 i j = option_map (Rplus (hold i)) (bet0 i j)) /\
   last_jump s tl_ /\ rsum dim hold = tl_ /\ tl_ < sk_fin s.
Proof. exact update_loses. Qed.
Print Assumptions C14_time_after_last_jump_lost.
Theorem C14_full_horizon_refuted : exists (s : skel R) alp1 bet1 (hold : nat -> R), wf_skel s /\
  Forall (fun i => (i < 2)%nat) (sk_x s) /\ update 2 s (hyp2 1) (hyp2 1) = Ok (alp1, bet1) /\
  (forall i j, bet1 i j = option_map (Rplus (hold i)) (hyp2 1 i j)) /\ rsum 2 hold <> sk_fin s.
Proof. exact horizon_refuted. Qed.
Print Assumptions C14_full_horizon_refuted.

(** C14: for every state, the credited time is the occupation time of est_stat less, for the
    final state only, the time after the last jump. *)
Theorem C14_versus_occupation : forall dim s (alp0 bet0 : omat) i v f tl_, wf_skel s -> Forall (fun i => (i < dim)%nat) (sk_x s) ->
  est_stat s [i] = Ok [v] -> final_state s f -> last_jump s tl_ ->
  exists alp1 bet1, update dim s alp0 bet0 = Ok (alp1, bet1) /\
   (forall j, bet1 i j = option_map (Rplus (v * sk_fin s - (if Nat.eqb f i then sk_fin s - tl_ else 0))) (bet0 i j)).
Proof. exact update_est. Qed.
Print Assumptions C14_versus_occupation.
Example C14_example : final_state demo 0 /\ last_jump demo 2 /\ exists v, est_stat demo [0%nat] = Ok [v].
Proof. repeat split; [exists [0%nat; 1%nat]|exists [0; 1]|eexists]; reflexivity. Qed.

(** C15: exact conjugacy. *)
Theorem C15_conjugacy : forall dim s gen alp0 bet0, wf_skel s -> Forall (fun i => (i < dim)%nat) (sk_x s) ->
  generator dim gen -> pos_off dim gen -> hyper dim (fun _ => True) alp0 -> hyper dim (fun _ => True) bet0 ->
  exists alp1 bet1 ll, update dim s alp0 bet0 = Ok (alp1, bet1) /\ eval_loglik dim s gen = Ok (Some ll) /\
    eval_logprior dim gen alp1 bet1 = eval_logprior dim gen alp0 bet0 + ll.
Proof. exact conjugacy. Qed.
Print Assumptions C15_conjugacy.
(** C15: eval_loglik is the sum over the jumps of log rate plus holding time times diagonal. *)
Theorem C15_loglik_value : forall dim s gen, wf_skel s -> Forall (fun i => (i < dim)%nat) (sk_x s) -> pos_off dim gen ->
  exists hold : nat -> R, (forall tl_ i (f : R -> nat), last_jump s tl_ -> (forall u, 0 <= u < tl_ -> state_at s u (f u)) ->
      is_RInt (fun u => if Nat.eqb (f u) i then 1 else 0) 0 tl_ (hold i)) /\
  eval_loglik dim s gen = Ok (Some (rsum dim (fun i => rsum dim (fun j => INR (n_jumps (sk_x s) i j) * ln (gen i j)))
                                    + rsum dim (fun i => hold i * gen i i))).
Proof. exact loglik_value. Qed.
Print Assumptions C15_loglik_value.
(** C15: the off-diagonal entries of a sampled generator are separate draws from the gamma
    distributions with these shapes and rates ([DGamma] takes shape and scale). *)
Theorem C15_sample_param_draws : forall dim alp bet o k, hyper dim (Rlt 0) alp -> hyper dim (Rlt 0) bet ->
  exists g k' (rank : nat -> nat -> nat), sample_param dim alp bet o k = (Ok g, k') /\
    (forall i j i' j', (i < dim)%nat -> (j < dim)%nat -> i <> j -> (i' < dim)%nat -> (j' < dim)%nat -> i' <> j' -> rank i j = rank i' j' -> i = i' /\ j = j') /\
    forall i j a b, (i < dim)%nat -> (j < dim)%nat -> i <> j -> alp i j = Some a -> bet i j = Some b ->
      (k <= rank i j < k')%nat /\ g i j = Some (ora_r o (rank i j) (DGamma a (1 / b))).
Proof. exact sample_param_draws. Qed.
Print Assumptions C15_sample_param_draws.
Example C15_example : wf_skel demo /\ Forall (fun i => (i < 2)%nat) (sk_x demo) /\ generator 2 gen2 /\ pos_off 2 gen2 /\
  hyper 2 (fun _ => True) (hyp2 1).
Proof. exact (conj demo_wf (conj demo_states (conj gen2_generator (conj gen2_pos (hyp2_ok 2 (fun _ => True) 1 I))))). Qed.

(** C16: the mode. *)
Theorem C16_mode_maximises : forall dim alp bet, hyper dim (Rlt 1) alp -> hyper dim (Rlt 0) bet ->
  exists G : mat, (forall i j, (i < dim)%nat -> (j < dim)%nat -> get_mode dim alp bet i j = Some (G i j)) /\
    forall gen, pos_off dim gen -> eval_logprior dim gen alp bet <= eval_logprior dim G alp bet.
Proof. exact mode_maximal. Qed.
Print Assumptions C16_mode_maximises.
Example C16_example : hyper 2 (Rlt 1) (hyp2 3) /\ hyper 2 (Rlt 0) (hyp2 3) /\ pos_off 2 gen2.
Proof. split; [apply hyp2_ok; lra|split; [apply hyp2_ok; lra|exact gen2_pos]]. Qed.
