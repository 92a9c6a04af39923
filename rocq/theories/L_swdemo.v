(** Demonstration data for the switching sampler. *)
From Coq Require Import Reals List Bool Arith ZArith Lia Lra Sorted Permutation.
From Verif Require Import Base Np Rng Mat M_mjp M_inf M_bf M_adapt M_path M_skel M_seed M_models M_sw M_chain SpecMjp SpecLin SpecInf SpecSkel SpecSeed SpecSw SpecChain
  L_list L_rng L_mat L_demo L_lindemo L_sw L_sw2 L_sw9.
Import ListNotations.
Local Open Scope R_scope.

Definition sw_t : list R := [0; 1; 2; 3].
Definition sw_v : list R := [0; 1; 0; 2].
Lemma sw_grid : obs_grid sw_t sw_v 3.
Proof. split; cbn; auto; try lia. repeat constructor; lra. Qed.
(** regime 0 until 3/2, regime 1 afterwards *)
Definition sw_y : jump_path := M_mjp.mk_skel [0; 3/2] [0; 1]%nat 3.
Definition sw_h : anchorage := mk_anch [0; 1; 3/2; 2; 3] [0; 0; 1; 1; 1]%nat [0; 1; 1/2; 0; 2].
Lemma sw_y_wf : wf_skel sw_y.
Proof.
  split; [split; cbn; auto|].
  - repeat constructor; lra.
  - intros t [<-|[<-|[]]]; lra.
  - intros [|[|i]] a b; cbn; intros H1 H2; inversion H1; inversion H2; subst; try discriminate; lia.
Qed.
Lemma sw_y_dim : Forall (fun s => (s < 2)%nat) (M_mjp.sk_x sw_y).
Proof. repeat constructor. Qed.
Lemma sw_off : off_grid sw_t sw_y.
Proof. intros u H1 H2. cbn in H1, H2. destruct H2 as [<-|[<-|[]]]; auto. exfalso. destruct H1 as [H|[H|[H|[H|[]]]]]; lra. Qed.
Lemma sw_good : good 2 sw_t sw_v (ents sw_h).
Proof.
  unfold sw_h, ents, sw_t, sw_v. cbn [a_t a_y a_v combine].
  split.
  - intros e e' H. repeat (apply adj_cons_inv in H as [[-> ->]|H]; [unfold tm, st; cbn; repeat split; try lra; auto; try discriminate; try (intros; lra)|]). now apply adj_one in H.
  - eexists _, _. split; [reflexivity|]. split; [discriminate|reflexivity].
  - reflexivity.
  - intros u v H. cbn in H. destruct H as [H|[H|[H|[H|[]]]]]; inversion H; subst; clear H.
    + exists (0, 0%nat, 0). cbn; auto.
    + exists (1, 0%nat, 1). cbn; auto.
    + exists (2, 1%nat, 0). cbn; auto 10.
    + exists (3, 1%nat, 2). cbn; auto 10.
  - repeat constructor.
Qed.
Lemma sw_path : path_of (ents sw_h) = sw_y.
Proof. reflexivity. Qed.
Lemma sw_hidden : hidden_ok 2 sw_t sw_v sw_y sw_h 4.
Proof. rewrite <- sw_path. change 4%nat with (length (ents sw_h) - 1)%nat. apply good_ok; [exact sw_good|cbn; lra|cbn; auto|auto]. Qed.
Lemma la0_solve_all Q : generator 2 Q -> pos_off 2 Q -> solve_ok la0 2 (stat_matrix Q) stat_rhs.
Proof.
  intros HG HP. assert (P1 : 0 < Q 0%nat 1%nat) by (apply HP; lia). assert (P2 : 0 < Q 1%nat 0%nat) by (apply HP; lia).
  pose proof (proj2 HG 0%nat ltac:(lia)) as R0. pose proof (proj2 HG 1%nat ltac:(lia)) as R1. cbn in R0, R1.
  assert (E0 : Q 0%nat 0%nat = - Q 0%nat 1%nat) by lra. assert (E1 : Q 1%nat 1%nat = - Q 1%nat 0%nat) by lra.
  unfold solve_ok. cbn [la_solve la0]. unfold solves, stat_matrix, stat_rhs.
  intros [|[|i]] Hi; try lia; cbn; rewrite E0, E1; field; lra.
Qed.
(** inputs of an iteration: every section proposes the parameter 1 *)
Lemma sw_inputs : exists i : inputs, inputs_ok (fun r => r = [1]) i.
Proof.
  destruct generic_exists as (o & V & G). exists (mk_inputs (fun _ => ret ([1], 0, 0)) (fun _ => o) (fun _ => o)). split; [|split; auto].
  intros j o' k V' _. reflexivity.
Qed.
