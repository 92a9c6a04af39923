(** Lemmas: a single regime, and a proposal that changes nothing. *)
From Coq Require Import Reals List Bool Arith Lia Lra.
From Verif Require Import Base Np Rng L_rng M_mjp M_hit M_path M_skel M_seed M_bf M_sw L_list L_occ L_skel L_em5 M_models L_models3 Mat.
Import ListNotations.
Local Open Scope R_scope.

Lemma one_loop : forall fuel fin_t gen o k, 0 < fin_t -> fst (forwards_loop (S fuel) fin_t 1 gen [] [] (Fin 0) 0 o k) = Raise ValueError.
Proof. intros fuel fin_t gen o k H. cbn [forwards_loop]. rewrite (proj2 (Rltb_true 0 fin_t) H). reflexivity. Qed.

Lemma one_forwards : forall L fuel fin_t gen o k, 0 < fin_t -> fst (sample_forwards L (S fuel) fin_t (Some 0%nat) 1 gen o k) = Raise ValueError.
Proof. intros L fuel fin_t gen o k H. unfold sample_forwards, bind, ret. apply one_loop. exact H. Qed.

Lemma never_true : forall A (m : M A), returns_if anyo m (fun _ => True).
Proof. intros A m o k _ _. destruct (fst (m o k)); exact Logic.I. Qed.

Lemma one_never : forall L fuel fin_t init gen, 0 < fin_t -> match init with Some x => x = 0%nat | None => True end ->
  returns_if anyo (sample_forwards L fuel fin_t init 1 gen) (fun _ => False).
Proof.
  intros L fuel fin_t init gen H Hi. unfold sample_forwards.
  apply returns_bind with (Q := fun x => x = 0%nat).
  - destruct init as [x|]; [apply returns_ret; exact Hi|].
    apply returns_bind with (Q := fun _ => True); [apply never_true|]. intros p _.
    eapply returns_weaken; [apply returns_choice|]. unfold vec_list. cbn beta. intros i [_ Hl]. rewrite map_length, seq_length in Hl. lia.
  - intros x ->. destruct fuel as [|f]; [intros o k _ _; exact Logic.I|]. intros o k _ _. rewrite one_loop by exact H. exact Logic.I.
Qed.

Lemma one_mutate : forall L fuel ps gen, Forall (fun s => 0 < sk_fin s /\ Forall (fun i => (i < 1)%nat) (sk_x s)) ps -> returns (mutate_partition L fuel ps 1 gen) (fun _ => False).
Proof.
  intros L fuel ps gen H. apply returns_any. destruct ps as [|p [|q r]]; [apply returns_raise| |]; cbn [mutate_partition].
  - inversion H as [|? ? [H1 H2] _]; subst. apply returns_bind with (Q := fun _ => False); [apply one_never; [exact H1|exact Logic.I]|intros a []].
  - apply returns_bind with (Q := fun _ => True); [apply never_true|]. intros x0 _.
    apply returns_bind with (Q := fun _ => True); [apply never_true|]. intros s0 _. cbv zeta.
    assert (HL : In (last (q :: r) p) (p :: q :: r)).
    { right. destruct (exists_last (l := q :: r)) as (l' & a & E); [discriminate|]. rewrite E, last_last. apply in_or_app. right. left. reflexivity. }
    rewrite Forall_forall in H. destruct (H _ HL) as [H1 H2].
    apply returns_bind with (Q := fun x => x = 0%nat).
    + apply returns_lift_opt. intros a E. destruct (sk_x (last (q :: r) p)) as [|b l]; [discriminate E|]. cbn in E. injection E as <-. inversion H2; subst. lia.
    + intros x1 ->. apply returns_bind with (Q := fun _ => False); [apply one_never; [exact H1|reflexivity]|intros a []].
Qed.

(** a proposal that changes nothing *)
Lemma updating_same : forall l A (x : list A), updating l l x = [].
Proof.
  unfold updating. induction l as [|a l IH]; intros A x; [reflexivity|]. destruct x as [|b x]; [reflexivity|].
  cbn [combine filter fst snd]. rewrite (proj2 (Reqb_true a a) eq_refl). cbn [negb]. apply IH.
Qed.
Lemma same_ito : forall fuel mp n reduce disc grad thi T v0 v1 s up m o k,
  fst (ito_param_coin fuel mp n reduce disc grad thi thi T v0 v1 s up m o k) = Raise AssertionError.
Proof. intros. unfold ito_param_coin. cbv zeta. apply dual_not_positive with (t := 1 * (T - 0)); [reflexivity|]. unfold ito_intensity. rewrite !updating_same. cbn. lra. Qed.
Lemma same_sw : forall fuel mp n vol disc grad thi thi' T y v0 v1 s up m o k, row thi' y = row thi y ->
  fst (sw_param_coin fuel mp n vol disc grad thi thi' T y v0 v1 s up m o k) = Raise AssertionError.
Proof. intros fuel mp n vol disc grad thi thi' T y v0 v1 s up m o k E. unfold sw_param_coin. cbv zeta. apply dual_not_positive with (t := 1 * (T - 0)); [reflexivity|]. unfold sw_intensity. rewrite E, !updating_same. cbn. lra. Qed.
Lemma first_raises : forall A B (g : A -> M B) e (hit : A -> bool) l, (forall a, hit a = true -> forall o k, fst (g a o k) = Raise e) -> (forall a, hit a = false -> exists b, forall o k, g a o k = (Ok b, k)) ->
  existsb hit l = true -> forall o k, fst (map_m g l o k) = Raise e.
Proof.
  intros A B g e hit l H1 H2. induction l as [|a l IH]; intros H o k; [discriminate H|]. cbn [existsb] in H. cbn [map_m]. unfold bind at 1.
  destruct (hit a) eqn:E.
  - specialize (H1 a E o k). destruct (g a o k) as [r k']. cbn [fst] in H1. subst r. reflexivity.
  - destruct (H2 a E) as (b & Hb). rewrite Hb. unfold bind. specialize (IH H o k). destruct (map_m g l o k) as [r k']. cbn [fst] in IH. subst r. reflexivity.
Qed.
Lemma same_section : forall fuel mp n vol disc grad batch thi z h up i j m, length z = m -> length (a_t h) = S m -> length (a_y h) = S m -> length (a_v h) = S m ->
  (j < m)%nat -> nth_error (a_y h) j = Some i ->
  forall o k, fst (flip_param_coins fuel mp n vol disc grad batch thi (list_set thi i (row thi i)) z h up i o k) = Raise AssertionError.
Proof.
  intros fuel mp n vol disc grad batch thi z h up i j m Lz Lt Ly Lv Hj Hy o k. unfold flip_param_coins. unfold bind.
  assert (RS : row (list_set thi i (row thi i)) i = row thi i).
  { unfold row. rewrite list_set_nth. destruct (Nat.eqb i i && Nat.ltb i (length thi)); reflexivity. }
  set (g := fun p : (R * nat * R * R) * skel => _).
  assert (X : fst (map_m g (combine (zip4 (np_diff (a_t h)) (a_y h) (a_v h) (tl (a_v h))) z) o k) = Raise AssertionError).
  { apply (first_raises _ _ g AssertionError (fun p => Nat.eqb (snd (fst (fst (fst p)))) i)).
    - intros [[[[dt y0] v0] v1] z_] H o' k'. cbn [fst snd] in H. unfold g. rewrite H. apply Nat.eqb_eq in H. subst y0. apply same_sw. exact RS.
    - intros [[[[dt y0] v0] v1] z_] H. cbn [fst snd] in H. exists (true, z_). intros o' k'. unfold g. rewrite H. reflexivity.
    - apply existsb_exists.
      assert (D : exists d, nth_error (np_diff (a_t h)) j = Some d).
      { destruct (nth_error (np_diff (a_t h)) j) eqn:E; [eexists; reflexivity|]. exfalso. apply nth_error_None in E. rewrite np_diff_length in E. lia. }
      assert (W0 : exists v, nth_error (a_v h) j = Some v).
      { destruct (nth_error (a_v h) j) eqn:E; [eexists; reflexivity|]. apply nth_error_None in E. lia. }
      assert (W1 : exists v, nth_error (tl (a_v h)) j = Some v).
      { destruct (nth_error (tl (a_v h)) j) eqn:E; [eexists; reflexivity|]. apply nth_error_None in E. destruct (a_v h); cbn [tl length] in E, Lv; lia. }
      assert (Z : exists s, nth_error z j = Some s).
      { destruct (nth_error z j) eqn:E; [eexists; reflexivity|]. apply nth_error_None in E. lia. }
      destruct D as (d & D), W0 as (w0 & W0), W1 as (w1 & W1), Z as (s & Z).
      exists ((d, i, w0, w1), s). split; [|cbn; apply Nat.eqb_refl].
      apply nth_error_In with j. rewrite nth_error_combine. rewrite (nth_zip4 _ _ _ _ j d i w0 w1 D Hy W0 W1), Z. reflexivity. }
  destruct (map_m g _ o k) as [r k']. cbn [fst] in X. subst r. reflexivity.
Qed.
Lemma one_redraw : forall L fuel ps gen, Forall (fun s => 0 < sk_fin s /\ Forall (fun i => (i < 1)%nat) (sk_x s)) ps ->
  forall o k, valid o -> forall ps', fst (mutate_partition L fuel ps 1 gen o k) <> Ok ps'.
Proof. intros L fuel ps gen H o k V ps' E. pose proof (one_mutate L fuel ps gen H o k V) as F. cbv beta in F. rewrite E in F. exact F. Qed.

(** ** the section of a regime *)
Lemma raise_bind : forall A B (m : M A) (f : A -> M B) e, (forall o k, fst (m o k) = Raise e) -> forall o k, fst (bind m f o k) = Raise e.
Proof. intros A B m f e H o k. unfold bind. specialize (H o k). destruct (m o k) as [r k']. cbn [fst] in H. subst r. reflexivity. Qed.
Lemma ok_bind : forall A B (m : M A) (f : A -> M B) e, (forall o k, exists a k', m o k = (Ok a, k')) -> (forall a o k, fst (f a o k) = Raise e) -> forall o k, fst (bind m f o k) = Raise e.
Proof. intros A B m f e H1 H2 o k. unfold bind. destruct (H1 o k) as (a & k' & ->). apply H2. Qed.
Lemma ulog_ok : forall v o k, exists a k', o_ulog_lt v o k = (Ok a, k').
Proof. intros v o k. unfold o_ulog_lt, bind, draw_r. eexists. eexists. reflexivity. Qed.
Lemma run_raises : forall A St (flip : bool -> St -> M ((bool * A) * St)) e pr n s, (forall b o k, fst (flip b s o k) = Raise e) ->
  forall w1 w2 o k, fst (run_twocoin_joint flip (fun s => ret s) pr (S n) s w1 w2 o k) = Raise e.
Proof.
  intros A St flip e pr n s H w1 w2. unfold run_twocoin_joint. apply raise_bind. unfold sample_twocoin_joint. apply raise_bind. unfold twocoin_joint.
  intros o k. change (fst (twocoin_loop (@ret) (@bind) o_ulog_lt o_u_lt flip (w1 - logaddexp w1 w2) pr (fun prop => prop) (S n) s o k) = Raise e).
  cbn [twocoin_loop]. revert o k. apply ok_bind; [apply ulog_ok|]. intros a. apply raise_bind. apply H.
Qed.

Lemma same_update : forall fuel mp n vol disc grad log_prior loglik batch precoin pr maxf propose thi z h i j m lf lb, length z = m -> length (a_t h) = S m -> length (a_y h) = S m -> length (a_v h) = S m ->
  (j < m)%nat -> nth_error (a_y h) j = Some i -> (forall o k, exists k', propose o k = (Ok (row thi i, lf, lb), k')) ->
  forall o k, let r := fst (update_params_section fuel mp n vol disc grad log_prior loglik batch precoin pr (S maxf) propose thi z h i o k) in
  r = Raise AssertionError \/ (precoin = true /\ r = Ok (false, thi, z)).
Proof.
  intros fuel mp n vol disc grad log_prior loglik batch precoin pr maxf propose thi z h i j m lf lb Lz Lt Ly Lv Hj Hy HP o k. cbv zeta.
  match goal with |- ?x = _ \/ _ => remember x as res eqn:E end.
  unfold update_params_section in E. unfold bind at 1 in E. destruct (HP o k) as (k' & HP'). rewrite HP' in E. clear HP HP'. cbv beta iota zeta in E.
  match type of E with context [run_twocoin_joint ?f _ _ _ _] => set (flip := f) in E end.
  assert (F : forall b o k, fst (flip b z o k) = Raise AssertionError).
  { intros b. unfold flip. apply raise_bind. apply same_section with (j := j) (m := m); assumption. }
  pose proof (run_raises _ _ flip AssertionError pr maxf z F) as Q. clearbody flip.
  unfold switching_step, barker_step, barker in E.
  destruct precoin.
  - unfold bind at 1 2 in E.
    match type of E with context [o_ulog_lt ?v o k'] => destruct (ulog_ok v o k') as (b & k2 & E2) end.
    rewrite E2 in E. destruct b.
    + left. specialize (Q 0 0 o k2). unfold bind at 1 in E. destruct (run_twocoin_joint flip (fun s => ret s) pr (S maxf) z 0 0 o k2) as [r k3]. cbn [fst] in Q. subst r. exact E.
    + right. split; [reflexivity|exact E].
  - left. rewrite E. apply raise_bind. apply raise_bind. apply Q.
Qed.
