(** Property theorems C115: a single regime, and proposals that change nothing. *)
From Coq Require Import Reals List Bool Arith Lra Lia.
From Verif Require Import Base Rng M_mjp M_path M_skel M_seed M_sw M_models L_degen Mat.
Import ListNotations.
Local Open Scope R_scope.

(** A regime process with one state cannot be simulated: argmin of no holding times at all. *)
Theorem C115_single_refuted : forall L fuel fin_t gen o k, 0 < fin_t -> fst (sample_forwards L (S fuel) fin_t (Some 0%nat) 1 gen o k) = Raise ValueError.
Proof. exact one_forwards. Qed.
Print Assumptions C115_single_refuted.

(** So that no path of such a process can be redrawn, cut or not, whatever the draws. *)
Theorem C115_single_redraw_refuted : forall L fuel ps gen, Forall (fun s => 0 < sk_fin s /\ Forall (fun i => (i < 1)%nat) (sk_x s)) ps ->
  forall o k, valid o -> forall ps', fst (mutate_partition L fuel ps 1 gen o k) <> Ok ps'.
Proof. exact one_redraw. Qed.
Print Assumptions C115_single_redraw_refuted.

(** A proposal equal to the present parameters is not accepted but raises, for every Ito model. *)
Theorem C115_same_ito_refuted : forall fuel mp n reduce disc grad thi T v0 v1 s up m o k,
  fst (ito_param_coin fuel mp n reduce disc grad thi thi T v0 v1 s up m o k) = Raise AssertionError.
Proof. exact same_ito. Qed.
Print Assumptions C115_same_ito_refuted.

(** For every switching model the coins of a regime raise when its row is proposed unchanged, as soon as one
    piece of the hidden path is in that regime. *)
Theorem C115_same_switching_refuted : forall fuel mp n vol disc grad batch thi z h up i j m, length z = m -> length (a_t h) = S m -> length (a_y h) = S m -> length (a_v h) = S m ->
  (j < m)%nat -> nth_error (a_y h) j = Some i ->
  forall o k, fst (flip_param_coins fuel mp n vol disc grad batch thi (list_set thi i (row thi i)) z h up i o k) = Raise AssertionError.
Proof. exact same_section. Qed.
Print Assumptions C115_same_switching_refuted.

(** So the update of the regime raises, unless the pre-coin has already rejected the proposal. *)
Theorem C115_same_update_refuted : forall fuel mp n vol disc grad log_prior loglik batch precoin pr maxf propose thi z h i j m lf lb, length z = m -> length (a_t h) = S m -> length (a_y h) = S m -> length (a_v h) = S m ->
  (j < m)%nat -> nth_error (a_y h) j = Some i -> (forall o k, exists k', propose o k = (Ok (row thi i, lf, lb), k')) ->
  forall o k, let r := fst (update_params_section fuel mp n vol disc grad log_prior loglik batch precoin pr (S maxf) propose thi z h i o k) in
  r = Raise AssertionError \/ (precoin = true /\ r = Ok (false, thi, z)).
Proof. exact same_update. Qed.
Print Assumptions C115_same_update_refuted.

(** a partition of a path over one state; a hidden path of one piece in regime 1 *)
Example C115_example : Forall (fun s : M_mjp.skel R => 0 < sk_fin s /\ Forall (fun i => (i < 1)%nat) (sk_x s)) [M_mjp.mk_skel [0] [0%nat] 1; M_mjp.mk_skel [0] [0%nat] 2] /\
  nth_error (a_y (mk_anch [0; 1] [1; 1]%nat [0; 3])) 0 = Some 1%nat /\ length (a_t (mk_anch [0; 1] [1; 1]%nat [0; 3])) = 2%nat.
Proof. split; [|split; reflexivity]. repeat constructor; cbn; lra. Qed.
