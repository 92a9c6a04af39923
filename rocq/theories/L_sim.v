(** Lemmas about the path samplers of mjplib/skeleton.py. *)
From Coq Require Import Reals List ZArith Bool Arith Lia Lra Sorted Permutation.
From Verif Require Import Base Np Rng Mat M_mjp SpecMjp L_list L_path L_part L_path2 L_rng L_mat.
Import ListNotations.
Local Open Scope R_scope.

(** ** sample_forwards *)
Lemma draw_holds_spec G rates :
  returns_if G (draw_holds rates) (fun hs => length hs = length rates /\
    Forall (fun h => match h with Fin x => 0 < x | PosInf => True | NegInf => False end) hs).
Proof.
  induction rates as [|r rs IH]; simpl.
  - apply returns_ret; split; auto.
  - eapply returns_bind with (Q := fun h => match h with Fin x => 0 < x | PosInf => True | NegInf => False end).
    + destruct (Rltb_dec r 0) as [[L ->]|[L ->]]; [apply returns_raise|].
      destruct (Reqb_dec r 0) as [[E ->]|[E ->]]; [apply returns_ret; exact I|].
      eapply returns_bind; [apply total_returns, total_draw_r|]. intros x Hx. apply returns_ret.
      apply Hx. apply Rdiv_lt_0_compat; lra.
    + intros h Hh. eapply returns_bind; [apply IH|]. intros hs [H1 H2]. apply returns_ret. simpl; split; auto.
Qed.

Lemma eargmin_from_lt best bi i l : (bi < i)%nat -> (eargmin_from best bi i l < i + length l)%nat.
Proof.
  revert best bi i; induction l as [|a l IH]; intros best bi i H; simpl; [lia|].
  destruct (eltb a best).
  - specialize (IH a i (S i) ltac:(lia)). lia.
  - specialize (IH best bi (S i) ltac:(lia)). lia.
Qed.
Lemma eargmin_lt l m : eargmin l = Some m -> (m < length l)%nat.
Proof.
  destruct l as [|a l]; [discriminate|]. cbn [eargmin length]. intros E; inversion E.
  pose proof (eargmin_from_lt a 0 1 l). lia.
Qed.

Lemma np_delete_length {A} (l : list A) i : (i < length l)%nat -> length (np_delete l i) = (length l - 1)%nat.
Proof. intros H. unfold np_delete. rewrite app_length, firstn_length, skipn_length. lia. Qed.

Lemma no_repeat_snoc x a b : no_repeat (x ++ [a]) -> a <> b -> no_repeat ((x ++ [a]) ++ [b]).
Proof.
  intros H N i y z Hy Hz.
  destruct (Nat.lt_ge_cases (S i) (length (x ++ [a]))) as [L|L].
  - rewrite nth_error_app1 in Hy, Hz by lia. eapply H; eauto.
  - assert (S i < length ((x ++ [a]) ++ [b]))%nat by (apply nth_error_Some; congruence).
    rewrite !app_length in *. cbn [length] in *.
    assert (E : (i = length x)%nat) by lia. subst i.
    rewrite nth_error_app1 in Hy by (rewrite app_length; simpl; lia).
    rewrite nth_error_app2, Nat.sub_diag in Hy by lia.
    rewrite nth_error_app2 in Hz by (rewrite app_length; simpl; lia).
    rewrite app_length in Hz. cbn [length] in Hz.
    replace (S (length x) - (length x + 1))%nat with 0%nat in Hz by lia. simpl in *. congruence.
Qed.

(** invariant of the loop *)
Record fwd_inv (fin_t : R) (dim : nat) (x0 : nat) (t : list R) (x : list nat) (last : ext) (lastx : nat) : Prop := {
  fi_len : length t = length x;
  fi_first : match t with [] => last = Fin 0 | a :: _ => a = 0 end;
  fi_sorted : StronglySorted Rlt t;
  fi_below : forall u, In u t -> u < fin_t;
  fi_last : match last with Fin u => forall v, In v t -> v < u | _ => True end;
  fi_states : Forall (fun i => (i < dim)%nat) (x ++ [lastx]);
  fi_norep : no_repeat (x ++ [lastx]);
  fi_init : hd_error (x ++ [lastx]) = Some x0 }.

Lemma fwd_inv_done fin_t dim x0 t x last lastx :
  0 < fin_t -> fwd_inv fin_t dim x0 t x last lastx ->
  (match last with Fin u => fin_t <= u | _ => True end) ->
  let s := mk_skel t x fin_t in
  wf_skel s /\ sk_fin s = fin_t /\ Forall (fun i => (i < dim)%nat) (sk_x s) /\ initial_state s x0.
Proof.
  intros Hf I Hl s.
  assert (NE : t <> []).
  { intros ->. pose proof (fi_first _ _ _ _ _ _ _ I) as F. simpl in F. subst last. lra. }
  destruct t as [|a t]; [congruence|]. pose proof (fi_len _ _ _ _ _ _ _ I) as HL.
  destruct x as [|y x]; [discriminate|].
  pose proof (fi_first _ _ _ _ _ _ _ I) as F. simpl in F. subst a.
  repeat split; simpl; auto.
  - apply I.
  - apply (fi_below _ _ _ _ _ _ _ I).
  - eapply no_repeat_app_l. apply (fi_norep _ _ _ _ _ _ _ I).
  - pose proof (fi_states _ _ _ _ _ _ _ I) as FS. apply Forall_app in FS as [FS _]. exact FS.
  - pose proof (fi_init _ _ _ _ _ _ _ I) as FI. simpl in FI. inversion FI; subst. exists x; reflexivity.
Qed.

Lemma fwd_inv_step fin_t dim x0 t x u lastx move hold :
  fwd_inv fin_t dim x0 t x (Fin u) lastx -> u < fin_t ->
  length hold = (dim - 1)%nat ->
  Forall (fun h => match h with Fin x => 0 < x | PosInf => True | NegInf => False end) hold ->
  (move < length hold)%nat ->
  fwd_inv fin_t dim x0 (t ++ [u]) (x ++ [lastx]) (eadd_r u (nth move hold PosInf))
    (move + (if Nat.leb lastx move then 1 else 0)).
Proof.
  intros I Hu HL HF Hm. constructor.
  - rewrite !app_length, (fi_len _ _ _ _ _ _ _ I); auto.
  - pose proof (fi_first _ _ _ _ _ _ _ I) as F. destruct t; simpl in *; [congruence|auto].
  - apply StronglySorted_app; repeat split; [apply I|repeat constructor|].
    intros a b Ha [<-|[]]. apply (fi_last _ _ _ _ _ _ _ I); auto.
  - intros v Hv. apply in_app_iff in Hv as [Hv|[<-|[]]]; auto. apply (fi_below _ _ _ _ _ _ _ I); auto.
  - rewrite Forall_forall in HF. specialize (HF (nth move hold PosInf) (nth_In _ _ Hm)).
    destruct (nth move hold PosInf); simpl in *; auto; try contradiction.
    intros v Hv. apply in_app_iff in Hv as [Hv|[<-|[]]]; [|lra].
    pose proof (fi_last _ _ _ _ _ _ _ I v Hv). lra.
  - apply Forall_app; split; [apply I|]. constructor; auto.
    destruct (Nat.leb_spec lastx move); lia.
  - apply no_repeat_snoc; [apply I|]. destruct (Nat.leb_spec lastx move); lia.
  - pose proof (fi_init _ _ _ _ _ _ _ I) as F. destruct x; simpl in *; auto.
Qed.

Lemma forwards_loop_spec G fuel fin_t dim gen x0 : 0 < fin_t -> forall t x last lastx,
  fwd_inv fin_t dim x0 t x last lastx ->
  returns_if G (forwards_loop fuel fin_t dim gen t x last lastx)
    (fun s => wf_skel s /\ sk_fin s = fin_t /\ Forall (fun i => (i < dim)%nat) (sk_x s) /\ initial_state s x0).
Proof.
  intros Hf. induction fuel as [|fuel IH]; intros t x last lastx I; [apply returns_nofuel|].
  cbn [forwards_loop]. destruct last as [|u|].
  - apply returns_ret. eapply fwd_inv_done; eauto; simpl; auto.
  - destruct (Rltb_dec u fin_t) as [[L ->]|[L ->]].
    + assert (HX : (lastx < dim)%nat).
      { pose proof (fi_states _ _ _ _ _ _ _ I) as FS. apply Forall_app in FS as [_ FS]. inversion FS; auto. }
      eapply returns_bind; [apply draw_holds_spec|]. intros hold [HL HF].
      rewrite np_delete_length in HL by (unfold row_list; rewrite map_length, seq_length; auto).
      unfold row_list in HL. rewrite map_length, seq_length in HL.
      eapply returns_bind; [apply returns_lift_opt; intros m Hm; exact (eargmin_lt _ _ Hm)|].
      intros move Hm. apply IH. apply fwd_inv_step; auto.
    + apply returns_ret. eapply fwd_inv_done; eauto.
  - apply returns_ret. eapply fwd_inv_done; eauto; simpl; auto.
Qed.

Lemma fwd_inv_init fin_t dim x0 : (x0 < dim)%nat -> fwd_inv fin_t dim x0 [] [] (Fin 0) x0.
Proof.
  intros H. constructor; simpl; auto; try constructor; auto; try contradiction.
  intros [|i] a b; simpl; [discriminate|destruct i; discriminate].
Qed.

Lemma sample_forwards_spec G L fuel fin_t init dim gen :
  0 < fin_t -> (forall x, init = Some x -> (x < dim)%nat) ->
  returns_if G (sample_forwards L fuel fin_t init dim gen)
    (fun s => wf_skel s /\ sk_fin s = fin_t /\ Forall (fun i => (i < dim)%nat) (sk_x s) /\
      (forall x, init = Some x -> initial_state s x) /\
      (init = None -> exists p x, get_stat L dim gen = Some p /\ initial_state s x /\ 0 < p x)).
Proof.
  intros Hf Hi. unfold sample_forwards.
  eapply returns_bind with (Q := fun x => (x < dim)%nat /\ (forall y, init = Some y -> x = y) /\
     (init = None -> exists p, get_stat L dim gen = Some p /\ 0 < p x)).
  - destruct init as [x|].
    + apply returns_ret. split; [auto|split; [congruence|discriminate]].
    + eapply returns_bind; [apply returns_lift_opt; intros p Hp; exact Hp|]. intros p Hp.
      eapply returns_weaken; [apply returns_choice|]. intros i [H1 H2].
      unfold vec_list in *. rewrite map_length, seq_length in H2. split; auto. split; [discriminate|].
      intros _. exists p; split; auto.
      rewrite (nth_indep _ 0 (p 0%nat)) in H1 by (rewrite map_length, seq_length; auto).
      rewrite map_nth, seq_nth in H1 by auto. exact H1.
  - intros x (Hx & HS & HN). eapply returns_weaken; [apply forwards_loop_spec with (x0 := x); auto; apply fwd_inv_init; auto|].
    intros s (W & E & FF & IS). repeat split; auto; try apply W.
    + intros y Hy. rewrite <- (HS y Hy). auto.
    + intros Q. destruct (HN Q) as (p & H1 & H2). exists p, x; auto.
Qed.

Lemma sample_forwards_empty G L fuel fin_t x dim gen : fin_t <= 0 ->
  total_if G (sample_forwards L (S fuel) fin_t (Some x) dim gen) (fun s => s = mk_skel [] [] fin_t).
Proof.
  intros H o k V Go. unfold sample_forwards, bind, ret. cbn [forwards_loop].
  destruct (Rltb_dec 0 fin_t) as [[? ?]|[_ ->]]; [lra|]. reflexivity.
Qed.

(** termination of the forward loop when holding times are bounded below *)
Definition holds_ge (d : R) (o : oracle) : Prop := forall k s, d <= ora_r o k (DExp s).
Lemma draw_holds_total d rates : 0 < d -> Forall (fun r => 0 <= r) rates ->
  total_if (holds_ge d) (draw_holds rates)
    (fun hs => length hs = length rates /\ Forall (fun h => match h with Fin x => d <= x | PosInf => True | NegInf => False end) hs).
Proof.
  intros Hd. induction 1 as [|r rs Hr HF IH]; simpl.
  - apply total_ret; split; auto.
  - eapply total_bind with (Q := fun h => match h with Fin x => d <= x | PosInf => True | NegInf => False end).
    + destruct (Rltb_dec r 0) as [[L ->]|[L ->]]; [lra|].
      destruct (Reqb_dec r 0) as [[E ->]|[E ->]]; [apply total_ret; exact I|].
      eapply total_bind with (Q := fun x => d <= x); [intros o k _ Go; apply Go|]. intros x Hx. apply total_ret; auto.
    + intros h Hh. eapply total_bind; [apply IH|]. intros hs [H1 H2]. apply total_ret. simpl; split; auto.
Qed.

Lemma in_delete {A} (l : list A) i a : In a (np_delete l i) -> exists j, nth_error l j = Some a /\ j <> i.
Proof.
  unfold np_delete. intros H. apply in_app_iff in H as [H|H]; apply In_nth_error in H as [j Hj].
  - assert (j < length (firstn i l))%nat by (apply nth_error_Some; congruence).
    rewrite firstn_length in H. exists j. split; [|lia].
    rewrite <- (firstn_skipn i l). rewrite nth_error_app1; auto. rewrite firstn_length; lia.
  - exists (S i + j)%nat. split; [|lia]. rewrite <- Hj. symmetry.
    clear. revert l; generalize (S i) as n; induction n as [|n IH]; intros [|b l]; simpl; auto; destruct j; auto.
Qed.

Lemma forwards_loop_term d fuel fin_t dim gen : 0 < d -> (2 <= dim)%nat ->
  (forall i j, (i < dim)%nat -> (j < dim)%nat -> i <> j -> 0 <= gen i j) ->
  forall t x last lastx, (lastx < dim)%nat ->
  (match last with Fin u => fin_t - u < INR fuel * d | _ => True end) ->
  total_if (holds_ge d) (forwards_loop (S fuel) fin_t dim gen t x last lastx) (fun _ => True).
Proof.
  intros Hd Hdim Hg. induction fuel as [|fuel IH]; intros t x last lastx Hx HB; cbn [forwards_loop].
  - destruct last as [|u|]; try (apply total_ret; exact I).
    destruct (Rltb_dec u fin_t) as [[L ->]|[L ->]]; [simpl in HB; lra|apply total_ret; exact I].
  - destruct last as [|u|]; try (apply total_ret; exact I).
    destruct (Rltb_dec u fin_t) as [[L ->]|[L ->]]; [|apply total_ret; exact I].
    eapply total_bind; [apply (draw_holds_total d); auto|].
    + rewrite Forall_forall. intros r Hr. apply in_delete in Hr as (j & Hj & N).
      unfold row_list in Hj. rewrite nth_error_map in Hj.
      assert (j < dim)%nat.
      { apply not_ge. intros GE. rewrite (proj2 (nth_error_None (seq 0 dim) j)) in Hj by (rewrite seq_length; auto). discriminate. }
      rewrite (nth_error_nth' (seq 0 dim) 0%nat), seq_nth in Hj by (rewrite ?seq_length; auto).
      simpl in Hj. inversion Hj; subst. apply Hg; auto.
    + intros hold [HL HF].
      rewrite np_delete_length in HL by (unfold row_list; rewrite map_length, seq_length; auto).
      unfold row_list in HL. rewrite map_length, seq_length in HL.
      destruct hold as [|h hold]; [simpl in HL; lia|].
      eapply total_bind; [eapply total_lift_opt with (P := fun m => (m < length (h :: hold))%nat); [reflexivity|]|].
      { apply eargmin_lt. reflexivity. }
      intros move Hm. cbv beta in Hm. apply IH.
      * destruct (Nat.leb_spec lastx move); lia.
      * rewrite Forall_forall in HF. specialize (HF (nth move (h :: hold) PosInf) (nth_In _ _ Hm)).
        destruct (nth move (h :: hold) PosInf); cbn [eadd_r]; try contradiction.
        -- rewrite S_INR in HB. lra.
        -- exact I.
Qed.
