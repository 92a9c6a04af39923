(** A run of the hidden update that returns. *)
From Coq Require Import Reals List Bool Arith ZArith Lia Lra.
From Verif Require Import Base Np Rng Mat L_rng M_mjp M_bf M_adapt M_hit M_path M_skel M_seed M_models M_sw SpecMjp SpecLin SpecSkel SpecSeed SpecSw SpecSupport SpecPath SpecCan SpecIrr SpecModels
  L_sw L_sw2 L_sw3 L_irr L_irr3 L_irr6 L_lindemo L_itodemo L_swdemo L_sw9.
Import ListNotations.
Local Open Scope R_scope.

Definition rate_thi : list (list R) := [[3; 1]; [2; 2]].
Lemma rate_pos : Forall pos2 rate_thi.
Proof. apply Forall_cons; [|apply Forall_cons; [|constructor]]; unfold pos2; [exists 3, 1|exists 2, 2]; repeat split; lra. Qed.
Lemma hidden_run : exists fuel omes o y' cond z' h' sp' k',
  (forall i, valid (omes i)) /\ valid o /\
  update_hidden la0 fuel 1 1 NegInf PosInf (ou1_vol rate_thi) (ou1_disc rate_thi) (fun y => as_bounds (ou1_bounds_disc rate_thi y)) (fun _ _ => (0, 0)) 1 false (1/2) 1
    sw_t sw_v (1/4) (1/2) 1 2 gen2 omes (rw_init sw_y 0 0) (repeat raw_demo 4) sw_h o 0%nat = (Ok ((y', cond), (z', h', sp')), k').
Proof.
  assert (EH : anch_of (ents sw_h) = sw_h) by (apply anch_of_ents; reflexivity).
  destruct (runs_update_hidden 2 1 1 (ou1_vol rate_thi) (ou1_disc rate_thi) (fun y => as_bounds (ou1_bounds_disc rate_thi y)) (fun _ _ => (0, 0)) 1 false (1/2) 1 sw_t sw_v (1/4) (1/2) 1
    ltac:(lia) ltac:(lia) ltac:(lia) ltac:(lia)
    (fun y Hy => ou1_vol_pos 2 rate_thi eq_refl rate_pos y Hy) (fun y Hy => ou1_wide 2 rate_thi eq_refl rate_pos y Hy NegInf PosInf)
    la0 gen2 (rw_init sw_y 0 0) (repeat raw_demo 4) (ents sw_h) sw_y [] sw_grid ltac:(cbn; lia) ltac:(lia) gen2_generator gen2_pos la0_solve sw_good eq_refl (eq_sym sw_path) sw_y_wf eq_refl sw_y_dim)
    as (omes & l & n0 & z' & K' & sp' & V & R & _).
  rewrite EH in R. apply runs_oracle in R as (o & Vo & _ & R).
  exists n0, omes, o, sw_y, [], z', (anch_of K'), sp', (length l). split; [intros i; apply V|]. split; [exact Vo|]. apply R. auto.
Qed.
