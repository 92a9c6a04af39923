(** Final forms of the path lemmas used by the property files. *)
From Coq Require Import Reals List ZArith Bool Arith Lia Lra Sorted.
From Verif Require Import Base Np Rng Mat M_mjp SpecMjp L_list L_path L_part.
Import ListNotations.
Local Open Scope R_scope.

Lemma timed_len_t p : timed p -> length (sk_t p) = length (sk_x p) /\ sk_t p <> [].
Proof.
  intros H; split; [apply H|]. pose proof (td_first p H). destruct (sk_t p); discriminate.
Qed.

Lemma total_dur_filter ps : (forall p, In p ps -> sk_fin p = 0 \/ timed p) ->
  total_dur (filter positive ps) = total_dur ps.
Proof.
  induction ps as [|p ps IH]; intros H; auto.
  specialize (IH ltac:(intros; apply H; simpl; auto)). unfold total_dur in *. cbn [filter].
  destruct (positive p) eqn:E; cbn [map fold_right]; rewrite IH; auto.
  destruct (Req_dec (sk_fin p) 0) as [->|N]; [lra|].
  apply positive_spec in N. congruence.
Qed.

Lemma look_raw_filter c a ps : (forall p, In p ps -> sk_fin p = 0 \/ timed p) ->
  forall k p u, nth_error ps k = Some p -> timed p -> 0 <= u ->
  (u < sk_fin p \/ (forall j q, (k < j)%nat -> nth_error ps j = Some q -> sk_fin q = 0)) ->
  look c (raw a (filter positive ps)) (a + total_dur (firstn k ps) + u) = look None (jumps p) u.
Proof.
  revert a c; induction ps as [|q ps IH]; intros a c H k p u Hk Hp Hu HE; [destruct k; discriminate|].
  assert (HF : Forall timed (filter positive ps)).
  { rewrite Forall_forall. intros r Hr. apply filter_In in Hr as [H1 H2]. apply positive_spec in H2.
    destruct (H r); simpl; auto; contradiction. }
  cbn [filter]. destruct k as [|k]; cbn [nth_error firstn] in *.
  - inversion Hk; subst q. replace (positive p) with true.
    2:{ symmetry; apply positive_spec. apply timed_pos in Hp. lra. }
    unfold total_dur; simpl. rewrite Rplus_0_r. rewrite look_app_late.
    + rewrite look_map_shift. destruct (timed_jumps p Hp) as (x & r & E). rewrite E.
      apply look_cur_irrel; auto.
    + intros r Hr. destruct HE as [HE|HE].
      * apply raw_bounds in Hr; auto. lra.
      * assert (E0 : filter positive ps = []).
        { apply filter_none. intros q Hq. apply In_nth_error in Hq as [j Hj].
          specialize (HE (S j) q ltac:(lia) Hj).
          destruct (positive q) eqn:EP; auto. apply positive_spec in EP. contradiction. }
        rewrite E0 in Hr. contradiction.
  - assert (IHH : forall a c, look c (raw a (filter positive ps)) (a + total_dur (firstn k ps) + u) = look None (jumps p) u).
    { intros. apply IH; auto. - intros; apply H; simpl; auto.
      - destruct HE as [?|HE]; auto. right. intros j r Hj. apply (HE (S j)). lia. }
    assert (HT : 0 <= total_dur (firstn k ps)).
    { assert (HA : forall q, In q (firstn k ps) -> 0 <= sk_fin q).
      { intros r Hr. assert (Hr' : In r (q :: ps)); [right|destruct (H r Hr') as [->|T]; [lra|apply timed_pos in T; lra]].
        revert Hr. clear. revert k; induction ps as [|x l I]; intros [|k]; simpl; auto; try tauto.
        intros [?|?]; auto. right; eapply I; eauto. }
      unfold total_dur. clear -HA. induction (firstn k ps) as [|x l I]; simpl; [lra|].
      assert (0 <= sk_fin x) by (apply HA; simpl; auto).
      assert (0 <= fold_right Rplus 0 (map sk_fin l)) by (apply I; intros; apply HA; simpl; auto). lra. }
    destruct (positive q) eqn:EP.
    + cbn [raw]. rewrite look_app.
      * unfold total_dur; cbn [map fold_right].
        replace (a + (sk_fin q + fold_right Rplus 0 (map sk_fin (firstn k ps))) + u)
          with ((a + sk_fin q) + total_dur (firstn k ps) + u) by (unfold total_dur; lra).
        apply IHH.
      * intros r Hr. apply in_map_iff in Hr as (q' & <- & Hq').
        apply positive_spec in EP. destruct (H q) as [?|T]; simpl; auto; [contradiction|].
        apply in_jumps in Hq'; auto. unfold total_dur in *. simpl. lra.
    + assert (sk_fin q = 0) as Z.
      { destruct (Req_dec (sk_fin q) 0) as [?|N]; auto. apply positive_spec in N. congruence. }
      unfold total_dur; cbn [map fold_right]. rewrite Z.
      replace (a + (0 + fold_right Rplus 0 (map sk_fin (firstn k ps))) + u)
        with (a + total_dur (firstn k ps) + u) by (unfold total_dur; lra). apply IHH.
Qed.

Lemma paste_correct ps :
  (forall p, In p ps -> sk_fin p = 0 \/ timed p) -> (exists p, In p ps /\ timed p) ->
  exists s, paste_partition ps = Ok s /\ wf_skel s /\ sk_fin s = total_dur ps /\
    forall k p u i, nth_error ps k = Some p -> timed p -> 0 <= u ->
      (u < sk_fin p \/ (forall j q, (k < j)%nat -> nth_error ps j = Some q -> sk_fin q = 0)) ->
      (state_at p u i <-> state_at s (total_dur (firstn k ps) + u) i).
Proof.
  intros H (p0 & Hp0 & Tp0).
  assert (HF : Forall timed (filter positive ps)).
  { rewrite Forall_forall. intros r Hr. apply filter_In in Hr as [H1 H2]. apply positive_spec in H2.
    destruct (H r); auto; contradiction. }
  rewrite paste_eq.
  2:{ intros p Hp Pp. apply timed_len_t. apply positive_spec in Pp. destruct (H p); auto; contradiction. }
  assert (I0 : In p0 (filter positive ps)).
  { apply filter_In; split; auto. apply positive_spec. apply timed_pos in Tp0. lra. }
  destruct (filter positive ps) as [|p1 ps1] eqn:E; [contradiction|].
  exists (pasted (p1 :: ps1)). pose proof (pasted_wf p1 ps1 HF) as WF.
  split; [auto|]. split; [auto|]. split.
  - unfold pasted; cbn [sk_fin]. rewrite <- E. apply total_dur_filter; auto.
  - intros k p u i Hk Hp Hu HE.
    rewrite (state_at_look p) by (try apply SS_lt_le; apply Hp).
    rewrite (state_at_look (pasted _)) by (try apply SS_lt_le; apply WF).
    unfold pasted at 1, jumps at 2; cbn [sk_t sk_x]. rewrite combine_fst_snd.
    rewrite look_devirt by (apply SS_lt_le, raw_sorted; auto).
    rewrite <- E. rewrite <- (look_raw_filter None 0 ps H k p u); auto.
    rewrite Rplus_0_l. reflexivity.
Qed.

Lemma paste_empty ps : (forall p, In p ps -> sk_fin p = 0) -> paste_partition ps = Raise ValueError.
Proof.
  intros H. rewrite paste_eq.
  - rewrite filter_none; auto. intros p Hp. destruct (positive p) eqn:E; auto.
    apply positive_spec in E. specialize (H p Hp). contradiction.
  - intros p Hp E. apply positive_spec in E. specialize (H p Hp). contradiction.
Qed.

Lemma breaks_nth_chain s bs k a b : timed s ->
  StronglySorted Rle bs -> (forall b, In b bs -> 0 <= b <= sk_fin s) ->
  nth_error (0 :: bs ++ [sk_fin s]) k = Some a -> nth_error (0 :: bs ++ [sk_fin s]) (S k) = Some b ->
  0 <= a <= b /\ b <= sk_fin s.
Proof.
  intros Hs HS HB Ha Hb.
  assert (S1 : StronglySorted Rle (0 :: bs ++ [sk_fin s])).
  { pose proof (timed_pos s Hs). constructor.
    - apply StronglySorted_app; repeat split; auto; [repeat constructor|].
      intros x y Hx [<-|[]]. apply HB; auto.
    - rewrite Forall_forall. intros x Hx. apply in_app_iff in Hx as [Hx|[<-|[]]]; [apply HB; auto|lra]. }
  assert (BB : forall x, In x (0 :: bs ++ [sk_fin s]) -> 0 <= x <= sk_fin s).
  { pose proof (timed_pos s Hs). intros x [<-|Hx]; [lra|]. apply in_app_iff in Hx as [Hx|[<-|[]]]; [auto|lra]. }
  split; [split|].
  - apply BB. eapply nth_error_In; eauto.
  - eapply (StronglySorted_nth _ _ k (S k)); eauto.
  - apply BB. eapply nth_error_In; eauto.
Qed.

Lemma piece_no_repeat s a b : timed s -> no_repeat (sk_x s) -> 0 <= a -> a <= b -> no_repeat (sk_x (piece s a b)).
Proof.
  intros Hs Hn Ha Hab. destruct (J_le_nonempty s Hs a Ha) as (A' & ta & xa & F & Hta).
  pose proof (look_J s Hs a A' ta xa F) as Hx.
  destruct (piece_eq s Hs a b xa Ha Hab Hx) as [_ ->].
  assert (E : exists K', jumps s = A' ++ [(ta, xa)] ++ filter (between a b) (jumps s) ++ K').
  { destruct (Rle_lt_or_eq_dec _ _ Hab) as [L|<-].
    - exists (filter (fun p => Rleb b (fst p)) (jumps s)).
      rewrite (J_split s Hs a) at 1. rewrite F, <- app_assoc. f_equal. f_equal.
      rewrite (J_split_lt s Hs b) at 1. rewrite filter_app, !filter_filter. f_equal.
      + apply filter_ext. intros p. unfold between. apply andb_comm.
      + apply filter_ext. intros p. destruct (Rleb_dec b (fst p)) as [[? ->]|[? ->]]; simpl; auto.
        apply Rltb_true; lra.
    - exists (filter (fun p => Rltb a (fst p)) (jumps s)).
      rewrite (J_split s Hs a) at 1. rewrite F, <- app_assoc. f_equal. f_equal.
      rewrite (filter_none (between a a)); auto. intros p _. unfold between.
      destruct (Rltb_dec a (fst p)) as [[? ->]|[? ->]]; auto. simpl. apply Rltb_false; lra. }
  destruct E as [K' E].
  assert (N : no_repeat (map snd (jumps s))).
  { unfold jumps. rewrite map_combine_snd by apply (td_len s Hs). auto. }
  rewrite E, !map_app in N. cbn [map snd] in N.
  intros i x y Hx1 Hy1. apply (N (length (map snd A') + i)%nat x y).
  - rewrite nth_error_app2 by lia. replace (length (map snd A') + i - length (map snd A'))%nat with i by lia.
    rewrite app_assoc. rewrite nth_error_app1; auto. cbn [app]. apply nth_error_Some. congruence.
  - rewrite nth_error_app2 by lia. replace (S (length (map snd A') + i) - length (map snd A'))%nat with (S i) by lia.
    rewrite app_assoc. rewrite nth_error_app1; auto. cbn [app]. apply nth_error_Some. congruence.
Qed.

Lemma partition_correct s bs : wf_skel s ->
  StronglySorted Rle bs -> (forall b, In b bs -> 0 <= b <= sk_fin s) ->
  length (partition_skeleton s bs) = S (length bs) /\
  total_dur (partition_skeleton s bs) = sk_fin s /\
  forall k a b, nth_error (0 :: bs ++ [sk_fin s]) k = Some a ->
    nth_error (0 :: bs ++ [sk_fin s]) (S k) = Some b ->
    exists p, nth_error (partition_skeleton s bs) k = Some p /\
      sk_fin p = b - a /\
      nth_error (sk_t p) 0 = Some 0 /\
      (a < b -> wf_skel p) /\
      (forall i, state_at s a i -> initial_state p i) /\
      (forall u i, 0 <= u < b - a -> (state_at p u i <-> state_at s (a + u) i)).
Proof.
  intros [Hs Hn] HS HB. rewrite partition_pieces. split; [|split].
  - rewrite pieces_length. simpl. rewrite app_length. simpl. lia.
  - rewrite (pieces_total s 0 (bs ++ [sk_fin s]) (sk_fin s)); [lra|].
    rewrite last_cons'. apply last_last.
  - intros k a b Ha Hb.
    destruct (breaks_nth_chain s bs k a b Hs HS HB Ha Hb) as [[H0 Hab] Hbf].
    exists (piece s a b). split; [apply pieces_nth; auto|]. split; [reflexivity|].
    split; [reflexivity|]. split; [|split].
    + intros L. split; [apply piece_timed; auto|apply piece_no_repeat; auto].
    + intros i Hi. rewrite state_at_look in Hi by (try apply SS_lt_le; apply Hs).
      destruct (piece_eq s Hs a b i H0 Hab Hi) as [_ E]. eexists; exact E.
    + intros u i Hu. apply piece_state; auto; lra.
Qed.

(** ** Skeleton.__call__ *)
Lemma skel_call_one s u : timed s -> 0 <= u ->
  exists i, pyget (sk_x s) (Z.of_nat (searchsorted_right (sk_t s) u) - 1) = Some i /\ state_at s u i.
Proof.
  intros Hs Hu. destruct (J_le_nonempty s Hs u Hu) as (A' & ta & xa & F & Hta).
  exists xa. split.
  - unfold searchsorted_right. simpl nleb.
    rewrite (filter_fst_len (fun v => Rleb v u)  (sk_t s) (sk_x s)) by apply (td_len s Hs).
    fold (jumps s). rewrite F, app_length. cbn [length].
    replace (Z.of_nat (length A' + 1) - 1)%Z with (Z.of_nat (length A')) by lia. rewrite pyget_nat.
    assert (EX : sk_x s = map snd (jumps s)) by (unfold jumps; rewrite map_combine_snd; auto; apply (td_len s Hs)).
    rewrite EX, (J_split s Hs u), F, <- app_assoc, map_app.
    rewrite nth_error_app2 by (rewrite map_length; lia). rewrite map_length, Nat.sub_diag. reflexivity.
  - rewrite state_at_look by (try apply SS_lt_le; apply Hs). eapply look_J; eauto.
Qed.

Lemma skel_call_correct s ts : timed s -> (forall u, In u ts -> 0 <= u <= sk_fin s) ->
  exists xs, skel_call s ts = Ok xs /\ Forall2 (state_at s) ts xs.
Proof.
  intros Hs HT. unfold skel_call.
  assert (E : existsb (fun t => nltb (sk_fin s) t) ts = false).
  { apply not_true_iff_false. intros H. apply existsb_exists in H as (t & Ht & H).
    apply Rltb_true in H. specialize (HT t Ht). lra. }
  rewrite E. clear E. induction ts as [|u ts IH]; simpl; [eauto|].
  destruct IH as (xs & -> & FX); [intros; apply HT; simpl; auto|].
  destruct (skel_call_one s u Hs) as (i & E & SA); [apply HT; simpl; auto|].
  simpl. rewrite E. eauto.
Qed.
Lemma skel_call_late s ts u : In u ts -> sk_fin s < u -> skel_call s ts = Raise ValueError.
Proof.
  intros H1 H2. unfold skel_call.
  replace (existsb _ ts) with true; auto. symmetry. apply existsb_exists.
  exists u; split; auto. apply Rltb_true; auto.
Qed.
Lemma state_at_unique s u i j : state_at s u i -> state_at s u j -> i = j.
Proof.
  intros (k & a & H1 & H2 & H3 & H4) (k' & a' & H1' & H2' & H3' & H4').
  destruct (Nat.lt_trichotomy k k') as [L|[->|L]].
  - specialize (H4 k' a' L H1'). lra.
  - congruence.
  - specialize (H4' k a L H1). lra.
Qed.
Lemma state_at_total s u : timed s -> 0 <= u -> exists i, state_at s u i.
Proof. intros Hs Hu. destruct (skel_call_one s u Hs Hu) as (i & _ & H); eauto. Qed.

Lemma skel_call_negative s u x : timed s -> u < 0 -> final_state s x -> skel_call s [u] = Ok [x].
Proof.
  intros Hs Hu [l Hx]. unfold skel_call. simpl existsb.
  destruct (Rltb_dec (sk_fin s) u) as [[? ?]|[_ ->]]; [apply timed_pos in Hs; lra|]. cbn [orb fold_right rbind].
  unfold searchsorted_right. rewrite filter_none.
  - simpl. change (pyget (sk_x s) (-1)) with (last_opt (sk_x s)). rewrite Hx, last_opt_app. reflexivity.
  - intros t Ht. apply Rleb_false. pose proof (timed_nonneg s t Hs Ht). lra.
Qed.

