(** The regime proposal without conditioning times (MyopicMjpSampler.propose falls back to
    an independent path from the stationary law). *)
From Coq Require Import Reals List ZArith Bool Arith Lia Lra Sorted.
From Verif Require Import Base Np Rng Mat M_mjp SpecMjp SpecLin L_list L_path L_part L_path2 L_rng L_mat L_sim L_bridge L_bridge2 L_mutate L_prop L_stat.
Import ListNotations.
Local Open Scope R_scope.

Lemma proposal_fresh_safe L dim gen fuel (s : skel R) : (2 <= dim)%nat -> generator dim gen -> pos_off dim gen ->
  solve_ok L dim (stat_matrix gen) stat_rhs -> 0 < sk_fin s ->
  safe (do ps <- mutate_partition L fuel (partition_skeleton s []) dim gen; lift (paste_partition ps))
    (fun s' => wf_skel s' /\ sk_fin s' = sk_fin s /\ Forall (fun i => (i < dim)%nat) (sk_x s')).
Proof.
  intros HD HG HO HS HF. apply safe_any. rewrite partition_pieces. cbn [app pieces]. unfold mutate_partition.
  change (sk_fin (piece s 0 (sk_fin s))) with (sk_fin s - 0).
  eapply safe_bind with (Q := fun ps => exists p, ps = [p] /\ ok_piece dim (sk_fin s) p).
  - eapply safe_bind; [apply safe_any, forwards_stat_ok; auto; lra|].
    intros p (W & E & F). apply safe_ret. exists p; split; auto. split; auto. split; auto. rewrite E; lra.
  - intros ps (p & -> & W & E & F).
    destruct (paste_correct [p]) as (s' & Hs' & Ws' & Fs' & _).
    { intros r [<-|[]]; right; apply W. }
    { exists p; split; [left; auto|apply W]. }
    intros o k V _. unfold lift. cbn [fst]. rewrite Hs'.
    repeat split; try apply Ws'.
    + rewrite Fs'. unfold total_dur; simpl. lra.
    + rewrite Forall_forall. intros x Hx. destruct (paste_states _ _ _ Hs' Hx) as (r & [<-|[]] & Hxr).
      rewrite Forall_forall in F; auto.
Qed.

(** pieces pairwise: what mutate_partition keeps *)
Lemma mutate_pieces L dim gen fuel (ps : list (skel R)) : (2 <= dim)%nat -> generator dim gen -> pos_off dim gen ->
  expm_exact L -> (2 <= length ps)%nat -> Forall timed ps -> Forall (fun s => Forall (fun i => (i < dim)%nat) (sk_x s)) ps ->
  safe_if generic (mutate_partition L fuel ps dim gen)
    (fun ps' => length ps' = length ps /\
       forall k p p', nth_error ps k = Some p -> nth_error ps' k = Some p' ->
         wf_skel p' /\ sk_fin p' = sk_fin p /\ Forall (fun i => (i < dim)%nat) (sk_x p') /\
         ((0 < k)%nat -> forall x, initial_state p x -> initial_state p' x) /\
         ((S k < length ps)%nat -> forall x, final_state p x -> final_state p' x)).
Proof.
  intros HD HG HO HL H2 HT HS.
  destruct ps as [|p rest]; [simpl in H2; lia|]. destruct (exists_last (l := rest)) as (mid & q & ->); [intros ->; simpl in H2; lia|].
  eapply safe_weaken; [apply mutate_ok; auto|]. simpl. intros ps' (p' & mid' & q' & -> & K1 & K2 & K3).
  assert (LM := Forall2_length _ _ _ K2). split; [cbn [length]; rewrite !app_length; cbn [length]; lia|].
  intros k a a' Ha Ha'.
  assert (HK : exists b c, keeps dim b c a a' /\ ((0 < k)%nat -> b = false) /\ ((S k < length (p :: mid ++ [q]))%nat -> c = false)).
  { destruct k as [|k]; cbn [nth_error] in Ha, Ha'.
    - inversion Ha; inversion Ha'; subst. exists true, false. repeat split; try apply K1; auto. lia.
    - destruct (Nat.lt_ge_cases k (length mid)) as [L1|L1].
      + rewrite nth_error_app1 in Ha, Ha' by lia. destruct (Forall2_nth _ _ _ K2 k a Ha) as (b' & Hb & Kb).
        rewrite Ha' in Hb. inversion Hb; subst. exists false, false. split; auto.
      + rewrite nth_error_app2 in Ha, Ha' by lia. rewrite <- LM in Ha'.
        destruct (k - length mid)%nat as [|d] eqn:D; [|destruct d; discriminate].
        inversion Ha; inversion Ha'; subst. exists false, true. split; auto. split; auto.
        cbn [length]. rewrite app_length. cbn [length]. lia. }
  destruct HK as (b & c & (W & I & F) & B1 & B2). destruct W as (W1 & W2 & W3).
  split; [auto|]. split; [auto|]. split; [auto|]. split; auto.
Qed.
