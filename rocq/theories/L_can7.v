(** Feasibility of paths, in the form of the property theorems; examples. *)
From Coq Require Import Reals List ZArith Bool Arith Lia Lra.
From Verif Require Import Base Np Rng M_mjp M_inf SpecCan SpecMjp SpecLin SpecInf SpecSupport L_mat L_simdemo L_lindemo L_can L_can5 L_can6 Mat.
Import ListNotations.
Local Open Scope R_scope.

Lemma forwards_feasible L dim gen T x js : (2 <= dim)%nat -> generator dim gen -> 0 < T -> (x < dim)%nat -> jumping dim gen T 0 x js ->
  feasible (fun fuel => sample_forwards L fuel T (Some x) dim gen) (eq (path T x js)).
Proof. intros HD HG HT Hx HJ. apply can_feasible, can_forwards; auto. Qed.
Lemma forwards_stat_feasible L dim gen T x js : (2 <= dim)%nat -> generator dim gen -> pos_off dim gen -> solve_ok L dim (stat_matrix gen) stat_rhs ->
  0 < T -> (x < dim)%nat -> jumping dim gen T 0 x js ->
  feasible (fun fuel => sample_forwards L fuel T None dim gen) (eq (path T x js)).
Proof. intros HD HG HO HS HT Hx HJ. apply can_feasible, can_forwards_stat; auto. Qed.
Lemma mjp_bridge_feasible L dim gen T eps x js : generator dim gen -> (exists a, (a < dim)%nat /\ gen a a < 0) -> 0 < T -> expm_exact L ->
  0 < eps -> (x < dim)%nat -> jumping dim gen T 0 x js ->
  feasible (fun fuel => sample_bridge L fuel T x (last_state x js) dim gen) (near eps (path T x js)).
Proof. intros HG HN HT HL He Hx HJ. apply can_feasible, can_bridge; auto. Qed.
Lemma backwards_feasible L dim gen T eps x js : generator dim gen -> (exists a, (a < dim)%nat /\ gen a a < 0) -> 0 < T -> expm_exact L ->
  0 < eps -> (x < dim)%nat -> jumping dim gen T 0 x js ->
  feasible (fun fuel => sample_backwards L fuel T (last_state x js) dim gen) (near eps (path T x js)).
Proof. intros HG HN HT HL He Hx HJ. apply can_feasible, can_backwards; auto. Qed.
Lemma mutate_feasible L dim gen eps p x0 js0 ms tgt q xq jsq : (2 <= dim)%nat -> generator dim gen -> (exists a, (a < dim)%nat /\ gen a a < 0) -> expm_exact L -> 0 < eps ->
  0 < sk_fin p -> (x0 < dim)%nat -> jumping dim gen (sk_fin p) 0 x0 js0 -> (exists l, sk_x p = l ++ [last_state x0 js0]) ->
  Forall2 (fun m t => 0 < sk_fin m /\ replaces dim gen m t) ms tgt ->
  0 < sk_fin q -> (xq < dim)%nat -> jumping dim gen (sk_fin q) 0 xq jsq -> hd_error (sk_x q) = Some xq ->
  feasible (fun fuel => mutate_partition L fuel (p :: ms ++ [q]) dim gen)
    (fun ps => exists p' ms', ps = p' :: ms' ++ [path (sk_fin q) xq jsq] /\ near eps (path (sk_fin p) x0 js0) p' /\
       length ms' = length ms /\
       forall k m t m', nth_error ms k = Some m -> nth_error tgt k = Some t -> nth_error ms' k = Some m' -> near eps (path (sk_fin m) (fst t) (snd t)) m').
Proof. intros HD HG HN HL He H1 H2 H3 H4 H5 H6 H7 H8 H9. apply can_feasible, can_mutate; auto. Qed.
Lemma param_feasible dim alp bet (Q : mat) : hyper dim (Rlt 0) alp -> hyper dim (Rlt 0) bet -> generator dim Q -> pos_off dim Q ->
  feasible (fun _ => sample_param dim alp bet) (fun g => forall i j, (i < dim)%nat -> (j < dim)%nat -> g i j = Some (Q i j)).
Proof. intros. apply can_feasible, can_param; auto. Qed.
Lemma support_demo : jumping 2 gen2 3 0 0 [(1, 1%nat); (2, 0%nat); (5/2, 1%nat)] /\ last_state 0 [(1, 1%nat); (2, 0%nat); (5/2, 1%nat)] = 1%nat.
Proof.
  split; [|reflexivity]. pose proof gen2_pos as H. repeat split; try lra; try lia; apply H; lia.
Qed.
