(** Lemmas about paths: evaluation, pasting, partitioning. *)
From Coq Require Import Reals List ZArith Bool Arith Lia Lra Sorted.
From Verif Require Import Base Np Rng Mat M_mjp SpecMjp L_list.
Import ListNotations.
Local Open Scope R_scope.

(** ** Evaluation of a list of (time, state) pairs *)
Fixpoint look (cur : option nat) (J : list (R * nat)) (u : R) : option nat :=
  match J with
  | [] => cur
  | (a, i) :: r => if Rleb a u then look (Some i) r u else cur
  end.

Definition lastle (J : list (R * nat)) (u : R) (i : nat) : Prop :=
  exists k a, nth_error J k = Some (a, i) /\ a <= u /\
    forall j b y, (k < j)%nat -> nth_error J j = Some (b, y) -> u < b.

Lemma lastle_cons a0 i0 J u i : StronglySorted Rle (map fst ((a0, i0) :: J)) ->
  lastle ((a0, i0) :: J) u i <->
  lastle J u i \/ (a0 <= u /\ i0 = i /\ forall p, In p J -> u < fst p).
Proof.
  intros HS. split.
  - intros (k & a & Hk & Ha & Hl). destruct k as [|k]; simpl in Hk.
    + inversion Hk; subst. right; repeat split; auto. intros [b y] Hb.
      apply In_nth_error in Hb as [n Hn]. apply (Hl (S n) b y); [lia|auto].
    + left. exists k, a; repeat split; auto. intros j b y Hj Hn.
      apply (Hl (S j) b y); [lia|auto].
  - intros [(k & a & Hk & Ha & Hl)|(Ha & -> & Hl)].
    + exists (S k), a; repeat split; auto. intros [|j] b y Hj Hn; [lia|].
      apply (Hl j b y); [lia|auto].
    + exists 0%nat, a0; repeat split; auto. intros [|j] b y Hj Hn; [lia|].
      simpl in Hn. apply nth_error_In in Hn. apply (Hl (b, y)); auto.
Qed.

Lemma lastle_nil u i : lastle [] u i <-> False.
Proof. split; [|tauto]. intros (k & a & Hk & _). destruct k; discriminate. Qed.

Lemma look_late cur J u : (forall p, In p J -> u < fst p) -> look cur J u = cur.
Proof.
  destruct J as [|[a i] J]; simpl; auto. intros H.
  specialize (H (a, i) (or_introl eq_refl)); simpl in H.
  destruct (Rleb_dec a u) as [[? ?]|[? ->]]; [lra|auto].
Qed.

Lemma look_spec cur J u i : StronglySorted Rle (map fst J) ->
  (look cur J u = Some i <->
   lastle J u i \/ (cur = Some i /\ forall p, In p J -> u < fst p)).
Proof.
  revert cur; induction J as [|[a0 i0] J IH]; intros cur HS.
  - simpl. rewrite lastle_nil. split; [intros ->; right; split; auto; contradiction|tauto].
  - rewrite lastle_cons by auto. simpl in HS. inversion HS as [|? ? HS' F]; subst.
    simpl. destruct (Rleb_dec a0 u) as [[L ->]|[L ->]].
    + rewrite IH by auto. split.
      * intros [H|[H1 H2]]; auto. left; right; repeat split; auto; congruence.
      * intros [[H|(_ & -> & H)]|[_ H]]; auto.
        specialize (H (a0, i0) (or_introl eq_refl)); simpl in H; lra.
    + split.
      * intros ->; right; split; auto. intros [b y] [E|Hb]; [inversion E; subst; auto|].
        rewrite Forall_forall in F. specialize (F b (in_map fst _ _ Hb)). simpl; lra.
      * intros [[H|(H & _)]|[H _]]; auto; [|lra].
        destruct H as (k & a & Hk & Ha & _). apply nth_error_In in Hk.
        rewrite Forall_forall in F. specialize (F a (in_map fst _ _ Hk)). lra.
Qed.

Lemma state_at_lastle s u i : length (sk_t s) = length (sk_x s) ->
  (state_at s u i <-> lastle (combine (sk_t s) (sk_x s)) u i).
Proof.
  intros HL. split.
  - intros (k & a & H1 & H2 & Ha & Hl). exists k, a. rewrite nth_error_combine, H1, H2.
    repeat split; auto. intros j b y Hj. rewrite nth_error_combine.
    destruct (nth_error (sk_t s) j) eqn:E; [|discriminate].
    destruct (nth_error (sk_x s) j); [|discriminate]. intros Q; inversion Q; subst; eauto.
  - intros (k & a & Hk & Ha & Hl). rewrite nth_error_combine in Hk.
    destruct (nth_error (sk_t s) k) eqn:E1; [|discriminate].
    destruct (nth_error (sk_x s) k) eqn:E2; [|discriminate]. inversion Hk; subst.
    exists k, a; repeat split; auto. intros j b Hj Hb.
    destruct (nth_error (sk_x s) j) as [y|] eqn:E3.
    + apply (Hl j b y); auto. rewrite nth_error_combine, Hb, E3; auto.
    + exfalso. apply nth_error_None in E3. assert (j < length (sk_t s))%nat; [|lia].
      apply nth_error_Some. congruence.
Qed.

Definition jumps (s : skel R) := combine (sk_t s) (sk_x s).

Lemma SS_lt_le l : StronglySorted Rlt l -> StronglySorted Rle l.
Proof. apply StronglySorted_impl; intros; lra. Qed.

Lemma state_at_look s u i :
  length (sk_t s) = length (sk_x s) -> StronglySorted Rle (sk_t s) ->
  (state_at s u i <-> look None (jumps s) u = Some i).
Proof.
  intros HL HS. rewrite state_at_lastle by auto. unfold jumps.
  rewrite look_spec by (rewrite map_combine_fst; auto).
  split; [auto|]. intros [H|[H _]]; auto; discriminate.
Qed.

Lemma look_app cur J K u : (forall p, In p J -> fst p <= u) ->
  look cur (J ++ K) u = look (look cur J u) K u.
Proof.
  revert cur; induction J as [|[a i] J IH]; intros cur H; simpl; auto.
  assert (a <= u) by (apply (H (a, i)); simpl; auto).
  destruct (Rleb_dec a u) as [[_ ->]|[? ?]]; [|lra]. apply IH; intros; apply H; simpl; auto.
Qed.
Lemma look_app_late cur J K u : (forall p, In p K -> u < fst p) ->
  look cur (J ++ K) u = look cur J u.
Proof.
  revert cur; induction J as [|[a i] J IH]; intros cur H; simpl.
  - apply look_late; auto.
  - destruct (Rleb a u); auto.
Qed.
Lemma look_Some c J u : look (Some c) J u <> None.
Proof. revert c; induction J as [|[a i] J IH]; intros c; simpl; [discriminate|]. destruct (Rleb a u); auto; discriminate. Qed.
Lemma look_cur_irrel c d a i J u : a <= u -> look c ((a, i) :: J) u = look d ((a, i) :: J) u.
Proof. intros; simpl. destruct (Rleb_dec a u) as [[_ ->]|[? ?]]; auto; lra. Qed.

(** ** Removing virtual jumps *)
Fixpoint dv (prev : nat) (l : list (R * nat)) : list (R * nat) :=
  match l with
  | [] => []
  | (u, i) :: r => if Nat.eqb i prev then dv i r else (u, i) :: dv i r
  end.
Definition devirt (l : list (R * nat)) : list (R * nat) :=
  match l with [] => [] | (u, i) :: r => (u, i) :: dv i r end.

Lemma mask_dv (i : nat) (r : list (R * nat)) :
  mask r (map negb (eq_pairs (map snd r) (but_last (i :: map snd r)))) = Some (dv i r).
Proof.
  revert i; induction r as [|[u j] r IH]; intros i; auto.
  change (mask ((u, j) :: r) (negb (Nat.eqb j i) ::
    map negb (eq_pairs (map snd r) (but_last (j :: map snd r)))) = Some (dv i ((u, j) :: r))).
  cbn [mask]. rewrite IH. cbn [dv]. destruct (Nat.eqb j i); auto.
Qed.

Lemma mask_devirt (J : list (R * nat)) : J <> [] ->
  mask J (not_virtual (map snd J)) = Some (devirt J).
Proof.
  destruct J as [|[u i] r]; [congruence|]. intros _.
  change (mask ((u, i) :: r) (true ::
    map negb (eq_pairs (map snd r) (but_last (i :: map snd r)))) = Some (devirt ((u, i) :: r))).
  cbn [mask]. rewrite mask_dv. reflexivity.
Qed.

Lemma mask_devirt_fst J : J <> [] ->
  mask (map fst J) (not_virtual (map snd J)) = Some (map fst (devirt J)).
Proof. intros H. rewrite mask_combine_fst, mask_devirt; auto. Qed.
Lemma mask_devirt_snd J : J <> [] ->
  mask (map snd J) (not_virtual (map snd J)) = Some (map snd (devirt J)).
Proof. intros H. rewrite mask_combine_snd, mask_devirt; auto. Qed.

Lemma dv_incl i J p : In p (dv i J) -> In p J.
Proof.
  revert i; induction J as [|[u j] J IH]; simpl; auto. intros i.
  destruct (Nat.eqb j i); simpl; intros H; [right; eauto|destruct H; eauto].
Qed.
Lemma devirt_incl J p : In p (devirt J) -> In p J.
Proof. destruct J as [|[u i] J]; simpl; auto. intros [?|H]; auto. right; eapply dv_incl; eauto. Qed.

Lemma dv_sorted P i J : StronglySorted P (map fst J) -> StronglySorted P (map fst (dv i J)).
Proof.
  revert i; induction J as [|[u j] J IH]; simpl; auto. intros i HS.
  inversion HS as [|? ? H F]; subst. destruct (Nat.eqb j i); simpl; auto.
  constructor; auto. rewrite Forall_forall in *. intros x Hx. apply F.
  apply in_map_iff in Hx as (p & <- & Hp). apply in_map. eapply dv_incl; eauto.
Qed.
Lemma devirt_sorted P J : StronglySorted P (map fst J) -> StronglySorted P (map fst (devirt J)).
Proof.
  destruct J as [|[u i] J]; simpl; auto. intros HS; inversion HS as [|? ? H F]; subst.
  constructor; [apply dv_sorted; auto|]. rewrite Forall_forall in *. intros x Hx. apply F.
  apply in_map_iff in Hx as (p & <- & Hp). apply in_map. eapply dv_incl; eauto.
Qed.

Lemma look_dv prev J u : StronglySorted Rle (map fst J) ->
  look (Some prev) (dv prev J) u = look (Some prev) J u.
Proof.
  revert prev; induction J as [|[a i] J IH]; intros prev HS; auto.
  simpl in HS. inversion HS as [|? ? HS' F]; subst.
  cbn [dv]. destruct (Nat.eqb_spec i prev) as [->|N].
  - rewrite IH by auto. cbn [look]. destruct (Rleb_dec a u) as [[L ->]|[L ->]]; auto.
    apply look_late. intros [b y] Hb. rewrite Forall_forall in F.
    specialize (F b (in_map fst _ _ Hb)). simpl; lra.
  - cbn [look]. destruct (Rleb a u); auto.
Qed.
Lemma look_devirt J u : StronglySorted Rle (map fst J) -> look None (devirt J) u = look None J u.
Proof.
  destruct J as [|[a i] J]; auto. intros HS. inversion HS; subst. cbn [devirt look].
  destruct (Rleb a u); auto. apply look_dv; auto.
Qed.

(** chains of states *)
Fixpoint nr (prev : nat) (l : list nat) : Prop :=
  match l with [] => True | a :: r => a <> prev /\ nr a r end.
Lemma nr_no_repeat a l : nr a l <-> no_repeat (a :: l).
Proof.
  revert a; induction l as [|b l IH]; intros a; simpl.
  - split; auto. intros _ [|i] x y; simpl; [discriminate|destruct i; discriminate].
  - rewrite IH. split.
    + intros [N H] [|i] x y; simpl; [intros E1 E2; congruence|]. apply (H i x y).
    + intros H; split.
      * intros ->. apply (H 0%nat a a); reflexivity.
      * intros i x y. apply (H (S i) x y).
Qed.
Lemma dv_nr i J : nr i (map snd (dv i J)).
Proof.
  revert i; induction J as [|[u j] J IH]; intros i; simpl; auto.
  destruct (Nat.eqb_spec j i) as [->|N]; simpl; auto.
Qed.
Lemma devirt_no_repeat J : no_repeat (map snd (devirt J)).
Proof.
  destruct J as [|[u i] J]; simpl; [|apply nr_no_repeat, dv_nr].
  intros [|k] a b; discriminate.
Qed.
Lemma no_repeat_tl a l : no_repeat (a :: l) -> no_repeat l.
Proof. intros H i x y. apply (H (S i)). Qed.
Lemma dv_id i J : nr i (map snd J) -> dv i J = J.
Proof.
  revert i; induction J as [|[u j] J IH]; intros i; simpl; auto. intros [N H].
  destruct (Nat.eqb_spec j i); [contradiction|]. rewrite IH; auto.
Qed.

Lemma dv_app i J K : dv i (J ++ K) = dv i J ++ dv (last (map snd J) i) K.
Proof.
  revert i; induction J as [|[u j] J IH]; intros i; auto.
  cbn [app dv map snd]. rewrite !IH.
  rewrite last_cons'. destruct (Nat.eqb j i); auto.
Qed.

(** ** Pasting *)
Definition shift (a : R) (p : R * nat) : R * nat := (a + fst p, snd p).
Fixpoint raw (a : R) (ps : list (skel R)) : list (R * nat) :=
  match ps with
  | [] => []
  | p :: r => map (shift a) (jumps p) ++ raw (a + sk_fin p) r
  end.

Definition positive (p : skel R) : bool := negb (neqb (sk_fin p) (n0 : R)).

Lemma but_last_cumsum a (l : list R) :
  l <> [] -> but_last (a :: np_cumsum_from a l) = a :: but_last (np_cumsum_from a l).
Proof. destruct l; [congruence|reflexivity]. Qed.

Lemma raw_combine a ps : (forall p, In p ps -> length (sk_t p) = length (sk_x p)) ->
  concat (map (fun p => map (nadd (fst p)) (sk_t (snd p)))
            (combine (but_last (a :: np_cumsum_from a (map sk_fin ps))) ps)) = map fst (raw a ps)
  /\ concat (map sk_x ps) = map snd (raw a ps).
Proof.
  revert a; induction ps as [|p ps IH]; intros a H; auto.
  assert (Hp : length (sk_t p) = length (sk_x p)) by (apply H; simpl; auto).
  destruct (IH (a + sk_fin p)) as [I1 I2]; [intros; apply H; simpl; auto|].
  cbn [map np_cumsum_from raw].
  change (but_last (a :: nadd a (sk_fin p) :: np_cumsum_from (nadd a (sk_fin p)) (map sk_fin ps)))
    with (a :: but_last (a + sk_fin p :: np_cumsum_from (a + sk_fin p) (map sk_fin ps))).
  cbn [combine map concat]. rewrite !map_app. split.
  - f_equal; auto. cbn [fst snd]. unfold jumps. rewrite map_map.
    unfold shift. cbn [fst]. rewrite <- (map_map fst (fun u => a + u)).
    rewrite map_combine_fst by auto. reflexivity.
  - f_equal; auto. unfold jumps. rewrite map_map. unfold shift; cbn [snd].
    rewrite map_combine_snd; auto.
Qed.

Lemma cumsum_0 (l : list R) : np_cumsum l = np_cumsum_from 0 l.
Proof. destruct l as [|a l]; simpl; auto. rewrite Rplus_0_l; auto. Qed.

Lemma cumsum_last a (l : list R) :
  last_opt (a :: np_cumsum_from a l) = Some (a + fold_right Rplus 0 l).
Proof.
  revert a; induction l as [|b l IH]; intros a; simpl.
  - rewrite Rplus_0_r; reflexivity.
  - rewrite last_opt_cons, IH. f_equal. lra.
Qed.

Definition pasted (ps : list (skel R)) : skel R :=
  let D := devirt (raw 0 ps) in mk_skel (map fst D) (map snd D) (total_dur ps).

Lemma paste_eq ps :
  (forall p, In p ps -> positive p = true -> length (sk_t p) = length (sk_x p) /\ sk_t p <> []) ->
  paste_partition ps =
    match filter positive ps with [] => Raise ValueError | _ => Ok (pasted (filter positive ps)) end.
Proof.
  intros H. unfold paste_partition. fold positive. unfold positive at 1.
  change (filter (fun s : skel R => negb (neqb (sk_fin s) n0)) ps) with (filter positive ps).
  assert (HF : forall p, In p (filter positive ps) -> length (sk_t p) = length (sk_x p) /\ sk_t p <> []).
  { intros p Hp. apply filter_In in Hp as [H1 H2]; auto. }
  destruct (filter positive ps) as [|p qs] eqn:E; auto.
  rewrite cumsum_0. set (ps' := p :: qs) in *.
  destruct (raw_combine 0 ps') as [R1 R2]; [intros; apply HF; auto|].
  change (n0 (T:=R)) with 0. rewrite R1, R2, cumsum_last.
  assert (NE : raw 0 ps' <> []).
  { unfold ps'. cbn [raw]. destruct (HF p) as [Hl Hn]; [simpl; auto|].
    unfold jumps. destruct (sk_t p), (sk_x p); simpl in *; congruence. }
  rewrite mask_devirt_fst, mask_devirt_snd by auto.
  unfold pasted, total_dur. rewrite Rplus_0_l. reflexivity.
Qed.

Lemma positive_spec p : positive p = true <-> sk_fin p <> 0.
Proof. unfold positive. simpl. rewrite negb_true_iff. apply Reqb_false. Qed.

(** facts about raw *)
Lemma timed_pos p : timed p -> 0 < sk_fin p.
Proof. intros H. apply (td_below p H). eapply nth_error_In. apply (td_first p H). Qed.
Lemma timed_nonneg p t : timed p -> In t (sk_t p) -> 0 <= t.
Proof.
  intros H Ht. apply In_nth_error in Ht as [[|n] Hn].
  - rewrite (td_first p H) in Hn. inversion Hn; lra.
  - apply Rlt_le. eapply (StronglySorted_nth _ _ 0 (S n)); [apply (td_sorted p H)|lia|apply (td_first p H)|auto].
Qed.
Lemma timed_jumps p : timed p -> exists x r, jumps p = (0, x) :: r.
Proof.
  intros H. unfold jumps. pose proof (td_first p H) as F. pose proof (td_len p H) as L.
  destruct (sk_t p) as [|a t]; [discriminate|]. destruct (sk_x p) as [|x xs]; [discriminate|].
  simpl in *. inversion F; subst. eauto.
Qed.
Lemma in_jumps p q : timed p -> In q (jumps p) -> 0 <= fst q < sk_fin p.
Proof.
  intros H Hq. destruct q as [a i]. apply in_combine_l in Hq.
  split; [eapply timed_nonneg; eauto|apply (td_below p H); auto].
Qed.

Lemma raw_bounds a ps q : Forall timed ps -> In q (raw a ps) -> a <= fst q < a + total_dur ps.
Proof.
  intros H; revert a; induction H as [|p ps Hp H IH]; intros a; simpl; [tauto|].
  unfold total_dur in *; simpl. assert (Hs : 0 <= total_dur ps).
  { clear -H. unfold total_dur. induction H as [|p ps Hp H IH]; simpl; [lra|].
    apply timed_pos in Hp. lra. }
  unfold total_dur in Hs. rewrite in_app_iff. intros [Hq|Hq].
  - apply in_map_iff in Hq as (q' & <- & Hq'). apply in_jumps in Hq'; auto. simpl. lra.
  - apply IH in Hq. apply timed_pos in Hp. lra.
Qed.
Lemma raw_sorted a ps : Forall timed ps -> StronglySorted Rlt (map fst (raw a ps)).
Proof.
  intros H; revert a; induction H as [|p ps Hp H IH]; intros a; simpl; [constructor|].
  rewrite map_app. apply StronglySorted_app. repeat split; auto.
  - rewrite map_map. unfold shift; simpl. rewrite <- (map_map fst (fun u => a + u)).
    unfold jumps. rewrite map_combine_fst by apply (td_len p Hp).
    eapply StronglySorted_map; [|apply (td_sorted p Hp)]. intros; simpl; lra.
  - intros x y Hx Hy. apply in_map_iff in Hx as (q & <- & Hq). apply in_map_iff in Hy as (r & <- & Hr).
    apply in_map_iff in Hq as (q' & <- & Hq'). apply in_jumps in Hq'; auto.
    apply raw_bounds in Hr; auto. simpl. lra.
Qed.
Lemma raw_first p ps : timed p -> exists x r, raw 0 (p :: ps) = (0, x) :: r.
Proof.
  intros H. destruct (timed_jumps p H) as (x & r & E). simpl. rewrite E. simpl.
  unfold shift; simpl. rewrite Rplus_0_l. eauto.
Qed.

Lemma pasted_wf p ps : Forall timed (p :: ps) -> wf_skel (pasted (p :: ps)).
Proof.
  intros H. pose proof (raw_sorted 0 _ H) as HS.
  destruct (raw_first p ps) as (x & r & E); [inversion H; auto|].
  split; [|apply devirt_no_repeat].
  constructor; unfold pasted; cbn [sk_t sk_x sk_fin].
  - rewrite !map_length; auto.
  - rewrite E. reflexivity.
  - apply devirt_sorted; auto.
  - intros t Ht. apply in_map_iff in Ht as (q & <- & Hq). apply devirt_incl in Hq.
    apply raw_bounds in Hq; auto. lra.
Qed.

Lemma look_map_shift c a J u : look c (map (shift a) J) (a + u) = look c J u.
Proof.
  revert c; induction J as [|[b i] J IH]; intros c; simpl; auto.
  destruct (Rleb_dec b u) as [[L ->]|[L ->]].
  - destruct (Rleb_dec (a + b) (a + u)) as [[_ ->]|[? ?]]; [auto|lra].
  - destruct (Rleb_dec (a + b) (a + u)) as [[? ?]|[_ ->]]; [lra|auto].
Qed.

Lemma look_raw c a ps k p u : Forall timed ps -> nth_error ps k = Some p ->
  0 <= u -> (u < sk_fin p \/ S k = length ps) ->
  look c (raw a ps) (a + total_dur (firstn k ps) + u) = look None (jumps p) u.
Proof.
  intros H; revert a c k; induction H as [|q ps Hq H IH]; intros a c k Hk Hu HE.
  - destruct k; discriminate.
  - destruct k as [|k]; cbn [nth_error firstn] in *.
    + inversion Hk; subst q. unfold total_dur; simpl. rewrite Rplus_0_r.
      rewrite look_app_late.
      * rewrite look_map_shift. destruct (timed_jumps p Hq) as (x & r & E). rewrite E.
        apply look_cur_irrel; auto.
      * intros r Hr. destruct HE as [HE|HE].
        -- apply raw_bounds in Hr; auto. lra.
        -- destruct ps; [contradiction|discriminate].
    + cbn [raw]. rewrite look_app.
      * unfold total_dur; cbn [map fold_right].
        replace (a + (sk_fin q + fold_right Rplus 0 (map sk_fin (firstn k ps))) + u)
          with ((a + sk_fin q) + total_dur (firstn k ps) + u) by (unfold total_dur; lra).
        apply IH; auto. destruct HE as [?|HE]; [auto|right; simpl in HE; lia].
      * intros r Hr. apply in_map_iff in Hr as (q' & <- & Hq'). apply in_jumps in Hq'; auto.
        assert (0 <= total_dur (firstn k ps)).
        { clear -H. revert k. unfold total_dur. induction H as [|x l Hx H IH]; intros [|k]; simpl; try lra.
          apply timed_pos in Hx. specialize (IH k). lra. }
        unfold total_dur in *. simpl. lra.
Qed.
