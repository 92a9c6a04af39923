(** The law of the whole paths that mutate_partition proposes. *)
From Coquelicot Require Import Hierarchy RInt RInt_analysis Series.
From Coq Require Import Reals List Bool Arith Lia Lra Sorted Permutation.
From Verif Require Import Base Np Rng L_rng M_mjp SpecMjp SpecLin SpecLaw SpecFdd SpecJumps SpecProg L_list L_path L_law L_law2 L_law4 L_law5 L_bridge L_unif L_bridge2 L_bridge3 L_fdd1 L_fdd2 L_fdd3 L_fdd4 L_fdd5 L_lindemo L_demo L_simdemo L_mat L_mutate L_mutate L_fwd6 L_jumps1 L_jumps3 L_prog1 L_prog2 L_prog3 L_prog4 L_prog5 Mat.
Import ListNotations.
Local Open Scope R_scope.

Section Mutate.
  Variables (L : linalg) (dim : nat) (gen : mat).
  Hypothesis Hdim : (2 <= dim)%nat.
  Hypothesis Hgen : generator dim gen.
  Hypothesis Hoff : pos_off dim gen.
  Hypothesis HL : expm_exact L.
  Notation Pt := (fun t => get_trans L dim t gen).

  Definition pin (T : R) (r : route) : R := route_prob gen T r / Pt T (from_of r) (to_of r).
  Definition joins (r : route) (s : skel R) : Prop := sound_piece dim s /\ sound_route dim (sk_fin s) r /\ from_of r = first_of s /\ to_of r = final_of s.

  Lemma moving : exists a, (a < dim)%nat /\ gen a a < 0.
  Proof.
    exists 0%nat. split; [lia|]. destruct Hgen as [G1 G2]. pose proof (G2 0%nat ltac:(lia)) as E. pose proof (row_two dim gen Hgen 0 1 ltac:(lia) ltac:(lia) ltac:(lia)).
    pose proof (Hoff 0%nat 1%nat ltac:(lia) ltac:(lia) ltac:(lia)). lra.
  Qed.

  Lemma mids_follow : forall rs mids, Forall2 joins rs mids ->
    exists c, (forall fuel rq f, average (mapM (fun s => do a <- lift_opt IndexError (hd_error (sk_x s)); do b <- lift_opt IndexError (last_opt (sk_x s));
                   sample_bridge L fuel (sk_fin s) a b dim gen) mids) (fun ms => ind (all_follow (rs ++ [rq]) (ms ++ [f]))) (c fuel * ind (follows rq f))) /\
      Un_cv c (fold_right Rmult 1 (map (fun c => pin (sk_fin (snd c)) (fst c)) (combine rs mids))).
  Proof.
    induction 1 as [|r s rs mids H _ IH].
    - exists (fun _ => 1). split; [|apply cv_const]. intros fuel rq f. cbn [mapM app].
      apply (average_eq _ _ _ (ind (all_follow [rq] ([] ++ [f])))); [|apply (average_ret _ [] (fun ms => ind (all_follow [rq] (ms ++ [f]))))].
      unfold all_follow; cbn [app combine forallb fst snd]. rewrite andb_true_r. ring.
    - destruct IH as (c & C1 & C2). destruct H as ((D1 & D2 & D3) & (R1 & R2 & R3 & R4 & R5) & F1 & F2).
      assert (PT : 0 < get_trans L dim (sk_fin s) gen (from_of r) (to_of r)).
      { apply trans_all_pos; try assumption. rewrite F2. apply final_in; assumption. }
      destruct (bridge_path_law L dim gen (sk_fin s) (from_of r) (snd (fst r)) (to_of r) (snd r) Hgen moving D1 HL R1 R2 R3 eq_refl PT R4 R5) as (p & P1 & P2).
      exists (fun fuel => p fuel * c fuel). split; [|cbn [combine map fold_right fst snd]; apply CV_mult; assumption].
      intros fuel rq f. cbn [mapM].
      set (tail := mapM _ mids).
      apply (average_comp _ (bind (sample_bridge L fuel (sk_fin s) (from_of r) (to_of r) dim gen) (fun b => bind tail (fun bs => ret (b :: bs))))).
      { intros ora k _. unfold bind. rewrite (first_some s D2), (final_some s D2), F1, F2. reflexivity. }
      apply (average_bind0 _ _ _ _ _ (fun b => (c fuel * ind (follows rq f)) * ind (follows r b))).
      + apply (average_eq _ _ _ ((c fuel * ind (follows rq f)) * p fuel)); [ring|]. apply average_scal. apply P1.
      + intros b. apply (average_map _ _ tail (fun bs => b :: bs)).
        apply (average_eq _ _ _ (ind (follows r b) * (c fuel * ind (follows rq f)))); [ring|].
        apply (average_ext _ _ (fun bs => ind (follows r b) * ind (all_follow (rs ++ [rq]) (bs ++ [f])))).
        * intros bs. rewrite <- ind_and. reflexivity.
        * apply average_scal. apply C1.
  Qed.

  Lemma mutate_paths : forall p mids q r0 rs rq, sound_piece dim p -> sound_route dim (sk_fin p) r0 -> to_of r0 = final_of p -> 
    Forall2 (fun r s => sound_piece dim s /\ sound_route dim (sk_fin s) r /\ from_of r = first_of s /\ to_of r = final_of s) rs mids ->
    sound_piece dim q -> sound_route dim (sk_fin q) rq -> from_of rq = first_of q ->
    exists N c, (forall fuel, (N <= fuel)%nat -> chance (mutate_partition L fuel (p :: mids ++ [q]) dim gen) (all_follow (r0 :: rs ++ [rq])) (c fuel)) /\
      Un_cv c (route_prob gen (sk_fin p) r0 / rsum dim (fun j => get_trans L dim (sk_fin p) gen j (final_of p)) *
        fold_right Rmult 1 (map (fun c => route_prob gen (sk_fin (snd c)) (fst c) / get_trans L dim (sk_fin (snd c)) gen (from_of (fst c)) (to_of (fst c))) (combine rs mids)) *
        route_prob gen (sk_fin q) rq).
  Proof.
    intros p mids q r0 rs rq (A1 & A2 & A3) (R1 & R2 & R3 & R4 & R5) E0 HM (B1 & B2 & B3) (S1 & S2 & S3 & S4 & S5) E1.
    assert (PT : 0 < get_trans L dim (sk_fin p) gen (from_of r0) (final_of p)) by (apply trans_all_pos; try assumption; apply final_in; assumption).
    destruct (backwards_path_law L dim gen (sk_fin p) (from_of r0) (snd (fst r0)) (final_of p) (snd r0) Hgen moving A1 HL R1 R2 R3 E0 PT R4 R5) as (a & AA1 & AA2).
    set (b := route_prob gen (sk_fin q) rq).
    assert (BB : forall fuel, (length (snd (fst rq)) + 2 <= fuel)%nat -> chance (sample_forwards L fuel (sk_fin q) (Some (first_of q)) dim gen) (follows rq) b).
    { intros fuel Hf. rewrite <- E1. apply path_law; assumption. }
    destruct (mids_follow rs mids HM) as (m & M1 & M2).
    exists (length (snd (fst rq)) + 2)%nat, (fun fuel => a fuel * m fuel * b). split.
    - intros fuel Hfu. unfold chance.
      set (ms := fun fuel => mapM (fun s => do a <- lift_opt IndexError (hd_error (sk_x s)); do b <- lift_opt IndexError (last_opt (sk_x s));
                   sample_bridge L fuel (sk_fin s) a b dim gen) mids).
      apply (average_comp _ (bind (sample_backwards L fuel (sk_fin p) (final_of p) dim gen) (fun i =>
        bind (sample_forwards L fuel (sk_fin q) (Some (first_of q)) dim gen) (fun f => bind (ms fuel) (fun l => ret (i :: l ++ [f])))))).
      { intros ora k _. unfold mutate_partition. destruct (mids ++ [q]) as [|z r] eqn:E; [destruct mids; discriminate|].
        rewrite <- E. rewrite last_last. unfold bind. rewrite (final_some p A2). cbn [lift_opt]. 
        unfold but_last. rewrite removelast_last. rewrite (first_some q B2). reflexivity. }
      apply (average_bind0 _ _ _ _ _ (fun i => (m fuel * b) * ind (follows r0 i))).
      { apply (average_eq _ _ _ ((m fuel * b) * a fuel)); [ring|]. apply average_scal. apply AA1. }
      intros i. apply (average_bind0 _ _ _ _ _ (fun f => (m fuel * ind (follows r0 i)) * ind (follows rq f))).
      { apply (average_eq _ _ _ ((m fuel * ind (follows r0 i)) * b)); [ring|]. apply average_scal. apply BB. exact Hfu. }
      intros f. apply (average_map _ _ (ms fuel) (fun l => i :: l ++ [f])).
      apply (average_eq _ _ _ (ind (follows r0 i) * (m fuel * ind (follows rq f)))); [ring|].
      apply (average_ext _ _ (fun l => ind (follows r0 i) * ind (all_follow (rs ++ [rq]) (l ++ [f])))).
      + intros l. rewrite <- ind_and. reflexivity.
      + apply average_scal. apply M1.
    - apply CV_mult; [apply CV_mult; assumption|apply cv_const].
  Qed.
End Mutate.

Definition loop_route : route := (0%nat, [1; 0]%nat, [1; 2]).
Lemma route_example : generator 2 gen2 /\ pos_off 2 gen2 /\ (exists a, (a < 2)%nat /\ gen2 a a < 0) /\ expm_exact la0 /\
  moves_on 0 [1; 0]%nat /\ last [1; 0]%nat 0%nat = 0%nat /\ 0 < get_trans la0 2 3 gen2 0%nat 0%nat /\ in_order 0 (combine [1; 2] [1; 0]%nat) 3 /\
  sound_piece 2 demo /\ sound_route 2 (sk_fin demo) loop_route /\ from_of loop_route = first_of demo /\ to_of loop_route = final_of demo /\
  all_follow [loop_route; loop_route; loop_route] [demo; demo; demo] = true.
Proof.
  assert (F : Forall (fun y => (y < 2)%nat) [1; 0]%nat) by (apply Forall_cons; [lia|apply Forall_cons; [lia|apply Forall_nil]]).
  assert (Mv : moves_on 0 [1; 0]%nat) by (cbn; repeat split; discriminate).
  assert (G : goes [0; 1; 0]%nat [1; 2] demo = true).
  { unfold goes, demo. cbn [sk_x sk_t tl]. destruct (list_eq_dec Nat.eq_dec [0; 1; 0]%nat [0; 1; 0]%nat) as [_|N]; [|contradiction N; reflexivity].
    cbn [combine forallb fst snd]. rewrite !(proj2 (Rleb_true _ _)) by lra. reflexivity. }
  split; [exact gen2_generator|]. split; [exact gen2_pos|]. split; [exists 0%nat; split; [lia|unfold gen2; cbn; lra]|]. split; [exact la0_expm|].
  split; [exact Mv|]. split; [reflexivity|]. split; [apply (trans_all_pos la0 2 gen2 (le_n _) gen2_generator gen2_pos la0_expm); (lia || lra)|].
  split; [cbn; lra|]. split.
  { split; [cbn; lra|]. split; [discriminate|]. apply Forall_cons; [lia|exact F]. }
  split; [split; [cbn; lia|]; split; [exact F|]; split; [exact Mv|]; split; [reflexivity|cbn; lra]|].
  split; [reflexivity|]. split; [reflexivity|].
  unfold all_follow. cbn [combine forallb fst snd]. unfold follows, loop_route, from_of. cbn [fst snd]. rewrite G. reflexivity.
Qed.
