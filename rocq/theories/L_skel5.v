(** Lemmas: raw skeletons. *)
From Coq Require Import Reals List Bool Arith Lia Lra Psatz Sorted.
From Verif Require Import Base Np Rng L_list L_rng L_bridge L_ars L_prop M_mjp M_hit SpecHit L_hit7 L_hit8 M_path SpecPath L_sde L_sde2 M_skel SpecSkel L_skel L_skel2 L_skel3 L_skel4.
Import ListNotations.
Local Open Scope R_scope.

Definition raw_low (t a b : R) (lb ub : ext) (s : skel) : Prop :=
  exists l le ue le' ue', layer_choice t a b lb ub l /\ compute_edges l t a b lb ub = Ok (Fin le, Fin ue) /\ compute_edges (l - 1) t a b lb ub = Ok (Fin le', Fin ue') /\
    elt lb (Fin le) /\ elt (Fin ue) ub /\ le < k_tight s < le' /\ le' <= Rmin a b /\ k_hit s = ue' /\ k_loose s = ue /\ Rmax a b <= ue' < ue.
Lemma raw_wf t a b mt mx ue' ue fl : 0 < mt < t -> mx < Rmin a b -> Rmax a b <= ue' < ue ->
  (forall e1 e2, fl = Some (e1, e2) -> (ue' <= a -> e1 = true) /\ (ue' <= b -> e2 = true)) ->
  well_formed (mk_skel [0; mt; t] [a; mx; b] mx ue ue' (match fl with Some (e1, e2) => Some [e1; e2] | None => None end)).
Proof.
  intros HT HM HU HF. assert (MA := Rmin_l a b). assert (MB := Rmin_r a b). assert (XA := Rmax_l a b). assert (XB := Rmax_r a b). constructor; cbn [k_t k_x k_tight k_loose k_hit k_hit_i]; auto.
  - repeat constructor; lra.
  - simpl. lia.
  - left. lra.
  - intros v Hv. split; [|lra]. intros _. destruct Hv as [<-|[<-|[<-|[]]]]; lra.
  - intros h E. destruct fl as [[e1 e2]|]; [|discriminate]. injection E as <-. split; auto. destruct (HF e1 e2 eq_refl) as [F1 F2]. intros i Hi. split; [|lra]. intros _.
    destruct i as [|[|i]]; cbn in Hi |- *; [injection Hi as ->|injection Hi as ->|destruct i; discriminate].
    + destruct (Rle_dec ue' a) as [L|L]; [now apply F1 in L|]. lra.
    + destruct (Rle_dec ue' b) as [L|L]; [now apply F2 in L|]. lra.
Qed.
Lemma raw_skeleton_ok fuel mp n t a b lb ub : 0 < t -> elt lb (Fin (Rmin a b)) -> elt (Fin (Rmax a b)) ub -> (0 < n)%nat ->
  holds_if uniform_pos (sample_raw_skeleton fuel mp n t a b lb ub) (outcome (fun s => well_formed s /\ ends t a b s /\
     exists s0, well_formed s0 /\ raw_low t a b lb ub s0 /\ (s = s0 \/ s = flip_of s0) /\ ends t a b s0) (fun e => e = BudgetConstraintError)).
Proof.
  intros Ht L U Hn. unfold sample_raw_skeleton.
  eapply holds_bind; [intros o k V G; apply (sample_anchor_ok fuel mp t a b lb ub Ht L U o k V); exact I|].
  intros [[low lo] hi] (l & le & ue & le' & ue' & low' & p & u & E & LC & C1 & C2 & B1 & B2 & B3 & B4 & B5 & B6 & _). injection E as -> -> ->. cbn [fst snd fin_of].
  eapply holds_bind; [apply (total_outcome uniform_pos _ (fun r => r = le)), total_ret; reflexivity|]; intros ? ->.
  eapply holds_bind; [apply (total_outcome uniform_pos _ (fun r => r = le')), total_ret; reflexivity|]; intros ? ->.
  eapply holds_bind; [apply (total_outcome uniform_pos _ (fun r => r = ue')), total_ret; reflexivity|]; intros ? ->.
  eapply holds_bind; [apply (total_outcome uniform_pos _ (fun r => r = ue)), total_ret; reflexivity|]; intros ? ->.
  eapply holds_bind; [apply sample_edges_ok; auto; lra|].
  intros e (mt & mx & fl & -> & MT & MX & FL & FE).
  assert (W : well_formed (mk_skel [0; mt; t] [a; mx; b] mx ue ue' (match fl with Some (e1, e2) => Some [e1; e2] | None => None end))).
  { apply raw_wf; auto; [lra|]. intros e1 e2 E. destruct (FE e1 e2 E) as (F1 & F2 & _). auto. }
  set (s0 := mk_skel _ _ _ _ _ _) in *.
  assert (EN : ends t a b s0) by (repeat split).
  assert (RL : raw_low t a b lb ub s0). { exists l, le, ue, le', ue'. cbn [s0 k_tight k_loose k_hit]. repeat split; auto; try lra; apply LC. }
  eapply holds_bind; [apply total_outcome, (total_uniform 0 uniform_pos); lra|]. intros v _.
  destruct (Rltb v (1 / 2)).
  - apply total_outcome, total_ret. split; auto. split; auto. exists s0. auto.
  - assert (W0 := W). destruct W0 as [LN ST Z0 TWO SD VA HT]. rewrite flip_eq by auto.
    apply total_outcome, (total_ret uniform_pos (flip_of s0)). split; [now apply flip_wf|]. destruct EN as (E1 & E2 & E3).
    split; [repeat split; [rewrite flip_horizon by auto; auto|rewrite flip_first by auto; auto|rewrite flip_last by auto; auto]|]. exists s0. split; auto. split; auto. split; [right; reflexivity|]. repeat split; auto.
Qed.
