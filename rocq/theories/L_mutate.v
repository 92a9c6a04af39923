(** mutate_partition and the regime proposal built from it. *)
From Coq Require Import Reals List ZArith Bool Arith Lia Lra Sorted Permutation.
From Verif Require Import Base Np Rng Mat M_mjp SpecMjp L_list L_path L_part L_path2 L_rng L_mat L_sim L_bridge L_bridge2.
Import ListNotations.
Local Open Scope R_scope.

Section Mut.
Variables (L : linalg) (dim : nat) (gen : mat).
Hypothesis Hdim : (2 <= dim)%nat.
Hypothesis Hgen : generator dim gen.
Hypothesis Hoff : forall i j, (i < dim)%nat -> (j < dim)%nat -> i <> j -> 0 < gen i j.
Hypothesis HL : expm_exact L.

Lemma rate_bound_pos : 0 < rate_bound dim gen.
Proof.
  assert (H0 : gen 0%nat 0%nat < 0).
  { destruct Hgen as [_ G2]. specialize (G2 0%nat ltac:(lia)).
    assert (0 < rsum dim (fun j => if Nat.eqb 0 j then 0 else gen 0%nat j)).
    { apply rsum_pos with (i := 1%nat); [|lia|].
      - intros j Hj. destruct (Nat.eqb_spec 0 j); [lra|]. left; apply Hoff; lia.
      - apply Hoff; lia. }
    assert (E : rsum dim (gen 0%nat) = gen 0%nat 0%nat + rsum dim (fun j => if Nat.eqb 0 j then 0 else gen 0%nat j)).
    { transitivity (rsum dim (fun j => if Nat.eqb 0 j then gen 0%nat j else 0) + rsum dim (fun j => if Nat.eqb 0 j then 0 else gen 0%nat j));
        [|rewrite rsum_delta by lia; auto]. rewrite <- rsum_plus. apply rsum_ext.
      intros j _. destruct (Nat.eqb 0 j); lra. }
    lra. }
  pose proof (rate_bound_ge dim gen 0 ltac:(lia)). lra.
Qed.
Lemma trans_all_pos fin_t i f : 0 < fin_t -> (i < dim)%nat -> (f < dim)%nat -> 0 < get_trans L dim fin_t gen i f.
Proof.
  intros Hf Hi Hj. destruct (Nat.eq_dec i f) as [->|N].
  - apply trans_pos_diag; auto using rate_bound_pos.
  - apply trans_pos_off; auto using rate_bound_pos.
Qed.

(** under generic draws every piece is canonical *)
Definition ok_piece (fin_t : R) (s : skel R) : Prop :=
  wf_skel s /\ sk_fin s = fin_t /\ Forall (fun i => (i < dim)%nat) (sk_x s).

Lemma bridge_ok fuel fin_t i f : 0 < fin_t -> (i < dim)%nat -> (f < dim)%nat ->
  safe_if generic (sample_bridge L fuel fin_t i f dim gen)
    (fun s => ok_piece fin_t s /\ initial_state s i /\ final_state s f).
Proof.
  intros Hf Hi Hj o k V G.
  pose proof (sample_bridge_cases L dim gen fin_t Hgen rate_bound_pos Hf HL fuel i f o k V Hi Hj) as H.
  destruct (fst (sample_bridge L fuel fin_t i f dim gen o k)); auto.
  destruct H as [(N & T & _)|[B S]].
  - exfalso. unfold target in T. pose proof (exp_pos (rate_bound dim gen * fin_t)).
    pose proof (trans_all_pos fin_t i f Hf Hi Hj). destruct G as [GP _]. specialize (GP k 0 1 ltac:(lra)).
    assert (0 < ora_r o k (DUniform 0 1) * get_trans L dim fin_t gen i f * exp (rate_bound dim gen * fin_t))
      by (repeat apply Rmult_lt_0_compat; auto). lra.
  - specialize (S G). destruct B as (B1 & B2 & B3 & B4 & B5 & B6 & B7 & B8 & B9).
    repeat split; auto. intros t Ht. rewrite B6. apply B4; auto.
Qed.

Lemma backwards_ok fuel fin_t f : 0 < fin_t -> (f < dim)%nat ->
  safe_if generic (sample_backwards L fuel fin_t f dim gen)
    (fun s => ok_piece fin_t s /\ final_state s f).
Proof.
  intros Hf Hj. unfold sample_backwards. set (C := get_trans L dim fin_t gen).
  assert (SP : 0 < rsum dim (fun j => C j f)).
  { apply rsum_pos with (i := f); auto; intros; [left|]; apply trans_all_pos; auto. }
  eapply safe_bind; [apply total_safe, total_choice|].
  - apply is_prob_vector_spec. split.
    + intros x Hx. apply in_map_iff in Hx as (i & <- & Hi). apply in_seq in Hi.
      apply Rle_mult_inv_pos; auto. left. apply trans_all_pos; auto; lia.
    + rewrite rsum_list, rsum_div. field. lra.
  - intros i [_ Hi]. rewrite map_length, seq_length in Hi.
    eapply safe_weaken; [apply bridge_ok; auto|]. intros s (A & _ & B). auto.
Qed.

Lemma draw_holds_safe G rates : Forall (fun r => 0 <= r) rates ->
  safe_if G (draw_holds rates) (fun hs => length hs = length rates).
Proof.
  induction 1 as [|r rs Hr HF IH]; simpl.
  - apply safe_ret; auto.
  - eapply safe_bind with (Q := fun _ => True).
    + destruct (Rltb_dec r 0) as [[? ->]|[? ->]]; [lra|].
      destruct (Reqb_dec r 0) as [[E ->]|[E ->]]; [apply safe_ret; exact I|].
      eapply safe_bind; [apply total_safe, total_draw_r|]. intros; apply safe_ret; exact I.
    + intros h _. eapply safe_bind; [apply IH|]. intros hs H1. apply safe_ret. simpl; auto.
Qed.
Lemma row_nonneg i : (i < dim)%nat -> Forall (fun r => 0 <= r) (np_delete (row_list dim gen i) i).
Proof.
  intros Hi. rewrite Forall_forall. intros r Hr. apply in_delete in Hr as (j & Hj & N).
  unfold row_list in Hj. rewrite nth_error_map in Hj.
  assert (j < dim)%nat.
  { apply not_ge. intros GE. rewrite (proj2 (nth_error_None (seq 0 dim) j)) in Hj by (rewrite seq_length; auto). discriminate. }
  rewrite (nth_error_nth' (seq 0 dim) 0%nat), seq_nth in Hj by (rewrite ?seq_length; auto).
  simpl in Hj. inversion Hj; subst. apply (proj1 Hgen); auto.
Qed.
Lemma forwards_loop_safe G fuel fin_t : forall t x last lastx, (lastx < dim)%nat ->
  safe_if G (forwards_loop fuel fin_t dim gen t x last lastx) (fun _ => True).
Proof.
  induction fuel as [|fuel IH]; intros t x last lastx Hx; [apply safe_nofuel|]. cbn [forwards_loop].
  destruct last as [|u|]; try (apply safe_ret; exact I).
  destruct (Rltb u fin_t); [|apply safe_ret; exact I].
  eapply safe_bind; [apply draw_holds_safe, row_nonneg; auto|]. intros hold HH.
  rewrite np_delete_length in HH by (unfold row_list; rewrite map_length, seq_length; auto).
  unfold row_list in HH. rewrite map_length, seq_length in HH.
  destruct hold as [|h hold]; [simpl in HH; lia|].
  eapply safe_bind; [eapply total_safe, total_lift_opt with (P := fun m => (m < length (h :: hold))%nat); [reflexivity|]|].
  { apply eargmin_lt. reflexivity. }
  intros move Hm. cbv beta in Hm. apply IH. destruct (Nat.leb_spec lastx move); lia.
Qed.
Lemma safe_returns_and {A} G (m : M A) P Q : safe_if G m P -> returns_if G m Q -> safe_if G m (fun a => P a /\ Q a).
Proof.
  intros H1 H2 o k V Go. specialize (H1 o k V Go). specialize (H2 o k V Go).
  destruct (fst (m o k)); auto.
Qed.
Lemma forwards_ok G fuel fin_t i : 0 < fin_t -> (i < dim)%nat ->
  safe_if G (sample_forwards L fuel fin_t (Some i) dim gen)
    (fun s => ok_piece fin_t s /\ initial_state s i).
Proof.
  intros Hf Hi. eapply safe_weaken; [apply safe_returns_and with (P := fun _ => True)|].
  - unfold sample_forwards. eapply safe_bind with (Q := fun x => x = i); [apply safe_ret; auto|].
    intros x ->. apply forwards_loop_safe; auto.
  - apply sample_forwards_spec; auto. intros x E; inversion E; subst; auto.
  - intros s (_ & W & E & F & I & _). repeat split; auto; apply W.
Qed.

(** piece by piece: durations, and the end states that must be kept *)
Definition keeps (first last : bool) (p p' : skel R) : Prop :=
  ok_piece (sk_fin p) p' /\
  (first = false -> forall x, initial_state p x -> initial_state p' x) /\
  (last = false -> forall x, final_state p x -> final_state p' x).

Lemma initial_state_hd s x : initial_state s x <-> hd_error (sk_x s) = Some x.
Proof.
  unfold initial_state. destruct (sk_x s) as [|a l]; simpl; split.
  - intros [r E]; discriminate.
  - discriminate.
  - intros [r E]; inversion E; auto.
  - intros E; inversion E; subst; eauto.
Qed.
Lemma final_state_last s x : final_state s x <-> last_opt (sk_x s) = Some x.
Proof. unfold final_state. rewrite last_opt_Some. reflexivity. Qed.
Lemma wf_states p : timed p -> exists a b, initial_state p a /\ final_state p b.
Proof.
  intros T. destruct (timed_len_t p T) as [H1 H2].
  destruct (sk_x p) as [|a l] eqn:E; [destruct (sk_t p); simpl in H1; [contradiction|discriminate]|].
  exists a, (last l a). split; [exists l; auto|]. unfold final_state. rewrite E.
  exists (removelast (a :: l)). rewrite <- (last_cons' l a a). apply app_removelast_last. discriminate.
Qed.
Lemma state_in s x : initial_state s x \/ final_state s x -> In x (sk_x s).
Proof. intros [[l E]|[l E]]; rewrite E; [left; auto|apply in_app_iff; right; left; auto]. Qed.

Lemma mapM_safe {A B} G (f : A -> M B) (P : A -> B -> Prop) l :
  (forall a, In a l -> safe_if G (f a) (P a)) -> safe_if G (mapM f l) (Forall2 P l).
Proof.
  induction l as [|a l IH]; intros H; cbn [mapM].
  - apply safe_ret; constructor.
  - eapply safe_bind; [apply H; left; auto|]. intros b Hb.
    eapply safe_bind; [apply IH; intros; apply H; right; auto|]. intros bs Hbs. apply safe_ret. constructor; auto.
Qed.

Lemma mutate_ok fuel p mid q :
  Forall timed (p :: mid ++ [q]) -> Forall (fun s => Forall (fun i => (i < dim)%nat) (sk_x s)) (p :: mid ++ [q]) ->
  safe_if generic (mutate_partition L fuel (p :: mid ++ [q]) dim gen)
    (fun ps' => exists p' mid' q', ps' = p' :: mid' ++ [q'] /\
       keeps true false p p' /\ Forall2 (keeps false false) mid mid' /\ keeps false true q q').
Proof.
  intros HT HS.
  assert (HTp : timed p) by (inversion HT; auto).
  assert (HTq : timed q) by (rewrite Forall_forall in HT; apply HT; right; apply in_app_iff; right; left; auto).
  assert (HR : forall s, In s (p :: mid ++ [q]) -> forall x, initial_state s x \/ final_state s x -> (x < dim)%nat).
  { intros s Hs x Hx. rewrite Forall_forall in HS. specialize (HS s Hs). rewrite Forall_forall in HS. apply HS, state_in; auto. }
  assert (Iq : In q (p :: mid ++ [q])) by (right; apply in_app_iff; right; left; auto).
  unfold mutate_partition. destruct (mid ++ [q]) as [|r1 rest1] eqn:E; [destruct mid; discriminate|].
  assert (EL : last (r1 :: rest1) p = q) by (rewrite <- E; apply last_last).
  assert (EB : but_last (r1 :: rest1) = mid) by (rewrite <- E; apply but_last_app).
  rewrite EL, EB.
  destruct (wf_states p HTp) as (pa & pb & Ipa & Fpb). destruct (wf_states q HTq) as (qa & qb & Iqa & Fqb).
  pose proof (proj1 (final_state_last _ _) Fpb) as Epb. pose proof (proj1 (initial_state_hd _ _) Iqa) as Eqa.
  eapply safe_bind; [eapply total_safe, total_lift_opt with (P := fun x => x = pb); eauto|]. intros x0 ->.
  eapply safe_bind; [apply backwards_ok; [apply timed_pos; auto|apply (HR p); auto; left; auto]|]. intros p' [Hp1 Hp2].
  eapply safe_bind; [eapply total_safe, total_lift_opt with (P := fun x => x = qa); eauto|]. intros x1 ->.
  eapply safe_bind; [apply forwards_ok; [apply timed_pos; auto|apply (HR q); auto]|]. intros q' [Hq1 Hq2].
  eapply safe_bind; [apply mapM_safe with (P := keeps false false)|].
  - intros s Hs.
    assert (Is : In s (p :: r1 :: rest1)).
    { right. rewrite <- E. apply in_app_iff; auto. }
    assert (HTs : timed s) by (rewrite Forall_forall in HT; apply HT; auto).
    destruct (wf_states s HTs) as (a & b & Ia & Fb).
    pose proof (proj1 (initial_state_hd _ _) Ia) as Ea. pose proof (proj1 (final_state_last _ _) Fb) as Eb.
    eapply safe_bind; [eapply total_safe, total_lift_opt with (P := fun x => x = a); eauto|]. intros x ->.
    eapply safe_bind; [eapply total_safe, total_lift_opt with (P := fun x => x = b); eauto|]. intros x ->.
    eapply safe_weaken; [apply bridge_ok; [apply timed_pos; auto|apply (HR s); auto|apply (HR s); auto]|].
    intros s' (A1 & A2 & A3). split; auto. split; intros _ x Hx.
    + apply initial_state_hd in Hx. rewrite Ea in Hx. inversion Hx; subst; auto.
    + apply final_state_last in Hx. rewrite Eb in Hx. inversion Hx; subst; auto.
  - intros mid' Hmid. apply safe_ret. exists p', mid', q'. split; auto. split; [|split; auto].
    + split; auto. split; [discriminate|]. intros _ x Hx. apply final_state_last in Hx. rewrite Epb in Hx. inversion Hx; subst; auto.
    + split; auto. split; [|discriminate]. intros _ x Hx. apply initial_state_hd in Hx. rewrite Eqa in Hx. inversion Hx; subst; auto.
Qed.
End Mut.
