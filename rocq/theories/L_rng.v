(** Rules for reasoning about the random-state monad. *)
From Coq Require Import Reals List Bool Arith Lia Lra.
From Verif Require Import Base Np Rng L_list.
Import ListNotations.
Local Open Scope R_scope.

Definition anyo (o : oracle) : Prop := True.
Lemma returns_any {A} (m : M A) P : returns_if anyo m P <-> returns m P.
Proof. unfold returns_if, returns, holds_if, holds, anyo; split; intros H o k V; intros; apply (H o k V); auto. Qed.
Lemma safe_any {A} (m : M A) P : safe_if anyo m P <-> safe m P.
Proof. unfold safe_if, safe, holds_if, holds, anyo; split; intros H o k V; intros; apply (H o k V); auto. Qed.
Lemma total_any {A} (m : M A) P : total_if anyo m P <-> total m P.
Proof. unfold total_if, total, holds_if, holds, anyo; split; intros H o k V; intros; apply (H o k V); auto. Qed.

Section Rules.
Variable G : oracle -> Prop.
Context {A B : Type}.

Lemma returns_ret (a : A) (P : A -> Prop) : P a -> returns_if G (ret a) P.
Proof. intros H o k _ _; exact H. Qed.
Lemma safe_ret (a : A) (P : A -> Prop) : P a -> safe_if G (ret a) P.
Proof. intros H o k _ _; exact H. Qed.
Lemma total_ret (a : A) (P : A -> Prop) : P a -> total_if G (ret a) P.
Proof. intros H o k _ _; exact H. Qed.
Lemma returns_raise e (P : A -> Prop) : returns_if G (raise e) P.
Proof. intros o k _ _; exact I. Qed.
Lemma returns_nofuel (P : A -> Prop) : returns_if G nofuel P.
Proof. intros o k _ _; exact I. Qed.
Lemma safe_nofuel (P : A -> Prop) : safe_if G nofuel P.
Proof. intros o k _ _; exact I. Qed.

Lemma returns_bind (m : M A) (f : A -> M B) (Q : A -> Prop) (P : B -> Prop) :
  returns_if G m Q -> (forall a, Q a -> returns_if G (f a) P) -> returns_if G (bind m f) P.
Proof.
  intros Hm Hf o k V Go. unfold bind. specialize (Hm o k V Go).
  destruct (m o k) as [[a|e|] k']; simpl in *; auto. apply (Hf a Hm o k' V Go).
Qed.
Lemma safe_bind (m : M A) (f : A -> M B) (Q : A -> Prop) (P : B -> Prop) :
  safe_if G m Q -> (forall a, Q a -> safe_if G (f a) P) -> safe_if G (bind m f) P.
Proof.
  intros Hm Hf o k V Go. unfold bind. specialize (Hm o k V Go).
  destruct (m o k) as [[a|e|] k']; simpl in *; auto; try contradiction. apply (Hf a Hm o k' V Go).
Qed.
Lemma total_bind (m : M A) (f : A -> M B) (Q : A -> Prop) (P : B -> Prop) :
  total_if G m Q -> (forall a, Q a -> total_if G (f a) P) -> total_if G (bind m f) P.
Proof.
  intros Hm Hf o k V Go. unfold bind. specialize (Hm o k V Go).
  destruct (m o k) as [[a|e|] k']; simpl in *; auto; try contradiction. apply (Hf a Hm o k' V Go).
Qed.
Lemma returns_weaken (m : M A) (P Q : A -> Prop) :
  returns_if G m P -> (forall a, P a -> Q a) -> returns_if G m Q.
Proof. intros H HI o k V Go. specialize (H o k V Go). destruct (fst (m o k)); auto. Qed.
Lemma safe_weaken (m : M A) (P Q : A -> Prop) :
  safe_if G m P -> (forall a, P a -> Q a) -> safe_if G m Q.
Proof. intros H HI o k V Go. specialize (H o k V Go). destruct (fst (m o k)); auto. Qed.
Lemma total_weaken (m : M A) (P Q : A -> Prop) :
  total_if G m P -> (forall a, P a -> Q a) -> total_if G m Q.
Proof. intros H HI o k V Go. specialize (H o k V Go). destruct (fst (m o k)); auto. Qed.
Lemma total_safe (m : M A) (P : A -> Prop) : total_if G m P -> safe_if G m P.
Proof. intros H o k V Go. specialize (H o k V Go). destruct (fst (m o k)); auto. Qed.
Lemma safe_returns (m : M A) (P : A -> Prop) : safe_if G m P -> returns_if G m P.
Proof. intros H o k V Go. specialize (H o k V Go). destruct (fst (m o k)); auto. Qed.
Lemma total_returns (m : M A) (P : A -> Prop) : total_if G m P -> returns_if G m P.
Proof. intros H. apply safe_returns, total_safe, H. Qed.

Lemma returns_lift (r : res A) (P : A -> Prop) :
  (forall a, r = Ok a -> P a) -> returns_if G (lift r) P.
Proof. intros H o k _ _. simpl. destruct r; auto. Qed.
Lemma returns_lift_opt e (r : option A) (P : A -> Prop) :
  (forall a, r = Some a -> P a) -> returns_if G (lift_opt e r) P.
Proof. intros H o k _ _. simpl. destruct r; auto. Qed.
Lemma total_lift_opt e (r : option A) a (P : A -> Prop) :
  r = Some a -> P a -> total_if G (lift_opt e r) P.
Proof. intros -> H o k _ _. exact H. Qed.
End Rules.

Lemma returns_assert G b (P : unit -> Prop) : (b = true -> P tt) -> returns_if G (assert_ b) P.
Proof. intros H. destruct b; [apply returns_ret; auto|apply returns_raise]. Qed.
Lemma total_assert G b (P : unit -> Prop) : b = true -> P tt -> total_if G (assert_ b) P.
Proof. intros -> H. apply total_ret; auto. Qed.

Lemma total_draw_r G d : total_if G (draw_r d) (rsupport d).
Proof. intros o k [V _] _. apply V. Qed.
Lemma total_draw_n G d : nonempty_n d -> total_if G (draw_n d) (nsupport d).
Proof. intros H o k [_ V] _. apply V; auto. Qed.
Lemma total_draw_n_any G d : total_if G (draw_n d) (fun _ => True).
Proof. intros o k _ _. exact I. Qed.
Lemma total_draw_rs G ds : total_if G (draw_rs ds) (fun l => Forall2 rsupport ds l).
Proof.
  induction ds as [|d ds IH]; simpl.
  - apply total_ret; constructor.
  - eapply total_bind; [apply total_draw_r|]. intros x Hx.
    eapply total_bind; [apply IH|]. intros xs Hxs. apply total_ret. constructor; auto.
Qed.

(** what m draws of the same request return *)
Lemma draw_rs_repeat o d n k :
  draw_rs (repeat d n) o k = (Ok (map (fun j => ora_r o j d) (seq k n)), (k + n)%nat).
Proof.
  revert k; induction n as [|n IH]; intros k; simpl.
  - rewrite Nat.add_0_r; reflexivity.
  - unfold bind, draw_r. rewrite IH. cbn [ret]. replace (S k + n)%nat with (k + S n)%nat by lia. reflexivity.
Qed.

Lemma sum_list_pos (p : list R) : 0 < fold_right Rplus 0 p -> exists i, 0 < nth i p 0.
Proof.
  induction p as [|a p IH]; simpl; intros H; [lra|].
  destruct (Rle_or_lt a 0) as [L|L].
  - destruct IH as [i Hi]; [lra|]. exists (S i); auto.
  - exists 0%nat; auto.
Qed.
Lemma is_prob_vector_spec p : is_prob_vector p = true <->
  (forall x, In x p -> 0 <= x) /\ fold_right Rplus 0 p = 1.
Proof.
  unfold is_prob_vector. rewrite andb_true_iff, forallb_forall, Reqb_true.
  split; intros [H1 H2]; split; auto; intros x Hx; apply Rleb_true; auto.
Qed.
Lemma returns_choice G p : returns_if G (choice p) (fun i => 0 < nth i p 0 /\ (i < length p)%nat).
Proof.
  unfold choice. destruct (is_prob_vector p) eqn:E; [|apply returns_raise].
  apply is_prob_vector_spec in E as [_ E].
  eapply returns_weaken; [apply total_returns, total_draw_n; simpl; apply sum_list_pos; lra|].
  simpl. intros i Hi; split; auto. destruct (Nat.lt_ge_cases i (length p)); auto.
  rewrite nth_overflow in Hi by auto. lra.
Qed.
Lemma total_choice G p : is_prob_vector p = true ->
  total_if G (choice p) (fun i => 0 < nth i p 0 /\ (i < length p)%nat).
Proof.
  intros E. pose proof (returns_choice G p) as H. unfold choice in *. rewrite E in *.
  intros o k V Go. apply (H o k V Go).
Qed.

(** scripted oracles are valid *)
Lemma first_pos_spec p : (exists i, 0 < nth i p 0) -> 0 < nth (first_pos p) p 0.
Proof.
  induction p as [|a p IH]; simpl; intros [i Hi].
  - destruct i; lra.
  - destruct (Rltb_dec 0 a) as [[L ->]|[L ->]]; auto. destruct i as [|i]; [lra|]. apply IH; eauto.
Qed.
Lemma oracle_of_valid s : script_ok s -> valid (oracle_of s).
Proof.
  intros H. split.
  - intros k d; destruct d; simpl; intros; try apply H; auto.
    exists (sc_u s k); split; [apply H|auto].
  - intros k d; destruct d; simpl; intros HN.
    + intros ->. destruct (Reqb_dec 0 0) as [[_ ->]|[? _]]; auto; contradiction.
    + destruct (Rltb_dec 0 (nth (sc_c s k) p 0)) as [[L ->]|[L ->]]; auto. apply first_pos_spec; auto.
    + intros Hn. apply Nat.mod_upper_bound. lia.
Qed.

(** a constant script, for examples *)
Definition plain_script : script := {|
  sc_u := fun _ => 1/2; sc_e := fun _ => 1; sc_b := fun _ => 1/2; sc_n := fun _ => 0;
  sc_w := fun _ => 1; sc_g := fun _ => 1; sc_l := fun _ => 1;
  sc_p := fun _ => 1%nat; sc_c := fun _ => 0%nat; sc_k := fun _ => 0%nat |}.
Lemma plain_script_ok : script_ok plain_script.
Proof. constructor; simpl; intros; lra. Qed.
Lemma valid_exists : exists o, valid o.
Proof. exists (oracle_of plain_script). apply oracle_of_valid, plain_script_ok. Qed.

(** a generic valid oracle: uniforms 1/(k+2) *)
Definition generic_script : script := {|
  sc_u := fun k => / INR (k + 2); sc_e := fun _ => 1; sc_b := fun _ => 1/2; sc_n := fun _ => 0;
  sc_w := fun _ => 1; sc_g := fun _ => 1; sc_l := fun _ => 1;
  sc_p := fun _ => 1%nat; sc_c := fun _ => 0%nat; sc_k := fun _ => 0%nat |}.
Lemma generic_script_ok : script_ok generic_script.
Proof.
  constructor; simpl; intros; try lra. rewrite plus_INR; simpl.
  pose proof (pos_INR k). split; [apply Rlt_le, Rinv_0_lt_compat; lra|].
  rewrite <- Rinv_1. apply Rinv_lt_contravar; lra.
Qed.
Lemma generic_exists : exists o, valid o /\ generic o.
Proof.
  exists (oracle_of generic_script). split; [apply oracle_of_valid, generic_script_ok|].
  assert (P : forall k, 0 < INR (k + 2)) by (intros; apply lt_0_INR; lia).
  split.
  - intros k lo hi L. simpl. pose proof (Rinv_0_lt_compat _ (P k)). nra.
  - intros k k' lo hi L N E. simpl in E. apply N.
    assert (H : / INR (k + 2) = / INR (k' + 2)) by nra.
    apply (f_equal Rinv) in H. rewrite !Rinv_inv in H.
    apply INR_eq in H. lia.
Qed.
