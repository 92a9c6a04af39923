(** Demonstration data for the sampler of ito/mcmc.py. *)
From Coq Require Import Reals List Bool Arith Lia Lra Sorted.
From Verif Require Import Base Np Rng M_mjp M_hit M_path M_skel M_seed M_models M_sw M_ito SpecSkel SpecSeed SpecIto L_rng L_sw.
Import ListNotations.
Local Open Scope R_scope.

Definition raw_demo : M_skel.skel := mk_skel [0; 1] [0; 0] (-1) 2 1 None.
Definition fine_demo : M_skel.skel := mk_skel [0; 1/2; 1] [0; 1/2; 0] (-1) 2 1 None.
Lemma raw_standard : standard raw_demo.
Proof.
  split; [|reflexivity]. unfold raw_demo. split; cbn [k_t k_x k_tight k_loose k_hit k_hit_i length nth]; auto; try discriminate.
  - repeat constructor; lra.
  - left. lra.
  - intros v [<-|[<-|[]]]; split; intros; lra.
Qed.
Lemma fine_standard : standard fine_demo.
Proof.
  split; [|reflexivity]. unfold fine_demo. split; cbn [k_t k_x k_tight k_loose k_hit k_hit_i length nth]; auto; try discriminate.
  - repeat constructor; lra.
  - left. lra.
  - intros v [<-|[<-|[<-|[]]]]; split; intros; lra.
Qed.
Lemma fine_extends : extends raw_demo fine_demo.
Proof. unfold extends, raw_demo, fine_demo, horizon, stores. cbn. repeat split; auto. tauto. Qed.
Definition ito_t : list R := [0; 1; 3].
Definition ito_v : list R := [1; 2; 1].
Lemma ito_series : series ito_t ito_v.
Proof. split; cbn; auto. repeat constructor; lra. Qed.
Lemma ito_seeds : seeds_ok ito_t [raw_demo; fine_demo].
Proof.
  split; [reflexivity|]. constructor; [|constructor; [|constructor]]; (split; [apply raw_standard || apply fine_standard|]); repeat split; reflexivity.
Qed.
(** two positive parameters *)
Definition positive2 (thi : list R) : Prop := length thi = 2%nat /\ Forall (Rlt 0) thi.
Lemma positive_set thi : Forall (Rlt 0) thi -> forall j, Forall (Rlt 0) (list_set thi j 1).
Proof. induction 1; intros [|j]; cbn; constructor; auto; lra. Qed.
Lemma ito_inputs_exist : exists i, ito_inputs_ok positive2 i.
Proof.
  destruct generic_exists as (o & V & G). exists (mk_ito (fun _ => ret (1, 0, 0)) (fun _ => o)). split; [|auto].
  intros thi j [H1 H2] Hj. cbn [ii_propose]. apply returns_ret. cbn [fst]. split; [|apply positive_set; auto].
  clear - H1. rewrite <- H1. clear. revert j. induction thi; intros [|j]; cbn; auto.
Qed.
Lemma ou_inside thi v : inside NegInf PosInf (ou_reduce thi v).
Proof. split; exact Logic.I. Qed.
