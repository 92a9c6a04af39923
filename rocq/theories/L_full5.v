(** Demonstration data for the chains with samplers. *)
From Coq Require Import Reals List Bool Arith Lia Lra.
From Verif Require Import Base Np Rng L_rng Mat M_mjp M_inf M_bf M_adapt M_path M_skel M_seed M_models M_sw M_chain M_mcem M_ito M_full SpecLin SpecInf SpecSkel SpecSeed SpecSw SpecChain SpecAdapt SpecIto SpecCan SpecFull.
From Verif Require Import L_inf2 L_lindemo L_demo L_swdemo L_itodemo L_can L_can3 L_full L_full2 L_full3.
Import ListNotations.
Local Open Scope R_scope.

(** positive parameters *)
Definition pos_lb : nat -> ext := fun _ => Fin 0.
Definition pos_ub : nat -> ext := fun _ => PosInf.
Lemma full_case : obs_grid sw_t sw_v (last sw_t 0) /\ (4 <= length sw_t)%nat /\ hyper 2 (Rlt 0) (hyp2 2) /\ expm_exact la0 /\
  (forall Q, generator 2 Q -> pos_off 2 Q -> solve_ok la0 2 (stat_matrix Q) stat_rhs) /\
  admissible 2 pos_lb pos_ub [2; 3] /\
  (forall thi, length thi = 2%nat -> Forall (admissible 2 pos_lb pos_ub) thi -> forall y, (y < 2)%nat -> 0 < nth 1 (nth y thi []) 0) /\
  (exists i, forall j, (valid (fi_params i j) /\ generic (fi_params i j)) /\ (valid (fi_hidden i j) /\ generic (fi_hidden i j))) /\ in01 (1 / 5).
Proof.
  split; [exact sw_grid|]. split; [apply le_n|]. split; [apply hyp2_ok; lra|]. split; [exact la0_expm|]. split; [exact la0_solve_all|].
  split; [split; [reflexivity|intros [|[|i]] Hi; [| |lia]; cbn; lra]|]. split.
  - intros thi HL HF y Hy. rewrite Forall_forall in HF. destruct (HF (nth y thi [])) as [_ H]; [apply nth_In; lia|]. exact (H 1%nat ltac:(lia)).
  - split; [|unfold in01; lra]. destruct generic_exists as (o & V & G). exists (mk_full (fun _ m _ => m) (fun _ => o) (fun _ => o)). cbn. auto.
Qed.
Lemma sampled_case : exists sp, sampled 1 pos_lb pos_ub (1 / 5) (66 / 100) 1 [(fun m _ => m); (fun m _ => m)] (mv_init (fun _ => 2) (1 / 5)) [(fun _ => 2, 0); (fun _ => 2, 1)] sp.
Proof.
  assert (A : admissible 1 pos_lb pos_ub [2]) by (split; [reflexivity|intros [|i] Hi; [cbn; lra|lia]]).
  assert (R2 : forall x : vec, x 0%nat = 2 -> forall i, (i < 1)%nat -> one_sided (pos_lb i) (pos_ub i) (x i)) by (intros x Hx [|i] Hi; [cbn; rewrite Hx; lra|lia]).
  assert (S1 : exists sp1, mv_adapt 1 pos_lb pos_ub (1/5) (66/100) 1 (mv_init (fun _ => 2) (1/5)) (fun _ => 2) 0 = Some sp1).
  { destruct (to_reals_some 1 pos_lb pos_ub (fun _ => 2) (R2 _ eq_refl)) as [p E]. unfold mv_adapt. rewrite E. destruct p as [x y]. destruct (seq_update_normal _ _ _ _). destruct (Nat.eqb _ _); eexists; reflexivity. }
  destruct S1 as [sp1 E1].
  assert (S2 : exists sp2, mv_adapt 1 pos_lb pos_ub (1/5) (66/100) 1 sp1 (fun _ => 2) 1 = Some sp2).
  { destruct (to_reals_some 1 pos_lb pos_ub (fun _ => 2) (R2 _ eq_refl)) as [p E]. unfold mv_adapt. rewrite E. destruct p as [x y]. destruct (seq_update_normal _ _ _ _). destruct (Nat.eqb _ _); eexists; reflexivity. }
  destruct S2 as [sp2 E2]. exists sp2. econstructor; [left; split; reflexivity|exact E1|]. econstructor; [|exact E2|constructor].
  right. split; [reflexivity|]. pose proof (adapt_state _ _ _ _ _ _ _ _ _ _ E1) as ST. unfold mv_propose. rewrite ST. eexists _, _, _. split.
  - intros o k. unfold to_reals_vec, pos_lb, pos_ub. cbn [seq forallb transform_to_reals]. unfold np_log. rewrite (proj2 (Rltb_true 0 (2 - 0))) by lra. cbn [andb]. reflexivity.
  - intros j Hj. cbn beta. cbn [transform_to_const fst pos_lb pos_ub]. rewrite exp_ln; lra.
Qed.
Lemma ito_raises_reached : forall mp maxp reduce disc bounds grad log_prior loglik batch precoin pr maxf opt decay air lb ub init t vt ins, series t vt -> (0 < mp)%nat -> (0 < maxp)%nat ->
  init <> [] -> ins <> [] -> exists o n0, valid o /\ generic o /\ forall fuel, (n0 <= fuel)%nat ->
  fst (ito_full_posterior fuel mp maxp NegInf PosInf reduce disc bounds grad log_prior loglik batch precoin pr maxf opt decay air lb ub init t vt ins o 0%nat) = Raise TypeError.
Proof.
  intros mp maxp reduce disc bounds grad log_prior loglik batch precoin pr maxf opt decay air lb ub init t vt ins HS Hm Hx HI HN.
  destruct (can_feasible _ _ (can_aug mp maxp NegInf PosInf reduce t vt init HS Hm Hx ltac:(intros; split; exact I))) as (o & n0 & z & V & G & _ & H). exists o, n0. split; [exact V|]. split; [exact G|]. intros fuel Hf.
  specialize (H fuel Hf). destruct (ito_sample_aug fuel mp maxp NegInf PosInf reduce t vt init o 0%nat) as [r k1] eqn:E. cbn [fst] in H. subst r.
  eapply ito_full_raises; [exact V|exact HI|exact HN|exact E].
Qed.
