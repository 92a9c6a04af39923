(** A compositional sufficient condition for [feasible]. *)
From Coq Require Import Reals List Bool Arith Lia Lra.
From Verif Require Import Base Np Rng M_path SpecCan L_rng.
Import ListNotations.
Local Open Scope R_scope.

(** the answers of one step, per family *)
Record ans : Type := mk_ans { n_u : R; n_e : R; n_b : R; n_n : R; n_w : R; n_g : R; n_l : R; n_p : nat; n_c : nat; n_k : nat }.
Record ans_ok (a : ans) : Prop := {
  ao_u : 0 < n_u a < 1; ao_e : 0 < n_e a; ao_b : 0 < n_b a < 1; ao_w : 0 < n_w a; ao_g : 0 < n_g a; ao_l : 0 < n_l a }.
Definition at_step (s : script) (k : nat) : ans :=
  mk_ans (sc_u s k) (sc_e s k) (sc_b s k) (sc_n s k) (sc_w s k) (sc_g s k) (sc_l s k) (sc_p s k) (sc_c s k) (sc_k s k).
Definition agrees (s : script) (k : nat) (l : list ans) : Prop := forall i a, nth_error l i = Some a -> at_step s (k + i) = a.
Definition can {A} (m : nat -> M A) (P : A -> Prop) : Prop :=
  forall F : list R, exists l n0 a, Forall ans_ok l /\ NoDup (map n_u l) /\ (forall u, In u (map n_u l) -> ~ In u F) /\ P a /\
    forall s k fuel, agrees s k l -> (n0 <= fuel)%nat -> m fuel (oracle_of s) k = (Ok a, (k + length l)%nat).

Lemma agrees_app s k l1 l2 : agrees s k (l1 ++ l2) -> agrees s k l1 /\ agrees s (k + length l1) l2.
Proof.
  intro H. split; intros i a Hi.
  - apply H. rewrite nth_error_app1; auto. apply nth_error_Some. congruence.
  - rewrite <- Nat.add_assoc. apply H. rewrite nth_error_app2 by lia. replace (length l1 + i - length l1)%nat with i by lia. auto.
Qed.
Lemma can_weaken {A} (m : nat -> M A) (P Q : A -> Prop) : can m P -> (forall a, P a -> Q a) -> can m Q.
Proof. intros H HPQ F. destruct (H F) as (l & n0 & a & H1 & H2 & H3 & H4 & H5). exists l, n0, a. auto 10. Qed.
(** without draws *)
Lemma can_det {A} (m : nat -> M A) (P : A -> Prop) a : P a -> (exists n0, forall fuel, (n0 <= fuel)%nat -> forall o k, m fuel o k = (Ok a, k)) -> can m P.
Proof.
  intros HP (n0 & H) F. exists [], n0, a. cbn. split; [constructor|]. split; [constructor|]. split; [tauto|]. split; auto.
  intros s k fuel _ Hf. rewrite Nat.add_0_r. auto.
Qed.
Lemma can_ret {A} (a : A) (P : A -> Prop) : P a -> can (fun _ => ret a) P.
Proof. intros H. apply (can_det _ _ a H). exists 0%nat. reflexivity. Qed.
Lemma can_lift {A} (r : res A) a (P : A -> Prop) : r = Ok a -> P a -> can (fun _ => lift r) P.
Proof. intros -> H. apply (can_det _ _ a H). exists 0%nat. reflexivity. Qed.
Lemma can_lift_opt {A} e (r : option A) a (P : A -> Prop) : r = Some a -> P a -> can (fun _ => lift_opt e r) P.
Proof. intros -> H. apply (can_det _ _ a H). exists 0%nat. reflexivity. Qed.
Lemma can_assert b (P : unit -> Prop) : b = true -> P tt -> can (fun _ => assert_ b) P.
Proof. intros -> H. apply (can_det _ _ tt H). exists 0%nat. reflexivity. Qed.
Lemma can_bind {A B} (m : nat -> M A) (f : nat -> A -> M B) (P : A -> Prop) (Q : B -> Prop) :
  can m P -> (forall a, P a -> can (fun n => f n a) Q) -> can (fun n => bind (m n) (f n)) Q.
Proof.
  intros Hm Hf F. destruct (Hm F) as (l1 & n1 & a & A1 & A2 & A3 & A4 & A5).
  destruct (Hf a A4 (F ++ map n_u l1)) as (l2 & n2 & b & B1 & B2 & B3 & B4 & B5).
  exists (l1 ++ l2), (Nat.max n1 n2), b. split; [apply Forall_app; auto|]. rewrite map_app. split; [|split; [|split; [exact B4|]]].
  - clear - A2 B2 B3. induction l1 as [|x l1 IH]; cbn in *; auto. inversion A2; subst. constructor.
    + rewrite in_app_iff. intros [H|H]; auto. apply (B3 _ H). rewrite in_app_iff. right. cbn. auto.
    + apply IH; auto. intros u Hu H. apply (B3 _ Hu). rewrite in_app_iff in *. cbn. tauto.
  - intros u. rewrite in_app_iff. intros [H|H] HF; [exact (A3 u H HF)|]. apply (B3 u H). rewrite in_app_iff. auto.
  - intros s k fuel H Hn. apply agrees_app in H as [H1 H2]. unfold bind.
    rewrite (A5 s k fuel H1) by lia. rewrite (B5 s _ fuel H2) by lia. rewrite app_length. f_equal. lia.
Qed.
Lemma can_bind0 {A B} (m : M A) (f : nat -> A -> M B) (P : A -> Prop) (Q : B -> Prop) :
  can (fun _ => m) P -> (forall a, P a -> can (fun n => f n a) Q) -> can (fun n => bind m (f n)) Q.
Proof. apply (can_bind (fun _ => m)). Qed.
(** a value in an interval that avoids finitely many *)
Lemma avoid (F : list R) : forall a b, a < b -> exists u, a < u < b /\ ~ In u F.
Proof.
  induction F as [|x F IH]; intros a b Hab.
  - exists ((a + b) / 2). split; [lra|auto].
  - destruct (Rlt_dec a x) as [H|H].
    + destruct (IH a (Rmin x b)) as (u & H1 & H2). { unfold Rmin. destruct (Rle_dec x b); lra. }
      exists u. pose proof (Rmin_l x b). pose proof (Rmin_r x b). split; [lra|]. intros [->|K]; [lra|auto].
    + destruct (IH a b Hab) as (u & H1 & H2). exists u. split; auto. intros [->|K]; [lra|auto].
Qed.
Definition ans0 (u e b n w g l : R) (p c k : nat) : ans := mk_ans u e b n w g l p c k.
Ltac one_step F mk :=
  destruct (avoid F 0 1 Rlt_0_1) as (u & Hu1 & Hu2);
  exists [mk u].
Lemma can_step {A} (m : M A) (P : A -> Prop) (mk : R -> ans) a : (forall u, n_u (mk u) = u) -> (forall u, 0 < u < 1 -> ans_ok (mk u)) -> P a ->
  (forall s k u, at_step s k = mk u -> m (oracle_of s) k = (Ok a, S k)) -> can (fun _ => m) P.
Proof.
  intros E O HP H F. destruct (avoid F 0 1 Rlt_0_1) as (u & Hu1 & Hu2). exists [mk u], 0%nat, a. cbn.
  split; [constructor; auto|]. split; [constructor; [auto|constructor]|]. split; [|split; [auto|]].
  - intros v [<-|[]]. rewrite E. auto.
  - intros s k _ HA _. rewrite (H s k u); [f_equal; lia|]. rewrite <- (HA 0%nat (mk u) eq_refl). f_equal. lia.
Qed.
Lemma can_unif lo hi a b (P : R -> Prop) : 0 <= a -> a < b -> b <= 1 -> (forall u, a < u < b -> P (lo + (hi - lo) * u)) -> can (fun _ => draw_r (DUniform lo hi)) P.
Proof.
  intros H0 Hab H1 HP F. destruct (avoid F a b Hab) as (u & Hu1 & Hu2). exists [mk_ans u 1 (1/2) 0 1 1 1 0 0 0], 0%nat, (lo + (hi - lo) * u). cbn.
  split; [constructor; [constructor; cbn; lra|constructor]|]. split; [constructor; [auto|constructor]|]. split; [|split; [auto|]].
  - intros v [<-|[]]. auto.
  - intros s k _ HA _. unfold draw_r. cbn. specialize (HA 0%nat _ eq_refl). injection HA as HA _ _ _ _ _ _ _ _ _. rewrite Nat.add_0_r in HA. rewrite HA. f_equal. lia.
Qed.
Lemma can_unif01 a b (P : R -> Prop) : 0 <= a -> a < b -> b <= 1 -> (forall u, a < u < b -> P u) -> can (fun _ => draw_r (DUniform 0 1)) P.
Proof. intros H0 Hab H1 HP. apply (can_unif _ _ a b); auto. intros u Hu. replace (0 + (1 - 0) * u) with u by ring. auto. Qed.
Lemma can_unif_any lo hi : lo < hi -> can (fun _ => draw_r (DUniform lo hi)) (fun x => lo < x < hi).
Proof. intros H. apply (can_unif _ _ 0 1); try lra. intros u Hu. nra. Qed.
Lemma can_exp sc x (P : R -> Prop) : 0 < x -> P x -> can (fun _ => draw_r (DExp sc)) P.
Proof.
  intros Hx HP. apply (can_step _ _ (fun u => mk_ans u x (1/2) 0 1 1 1 0 0 0) x); auto.
  - intros u Hu. constructor; cbn; lra.
  - intros s k u H. unfold draw_r. cbn. injection H as _ H _ _ _ _ _ _ _ _. rewrite H. reflexivity.
Qed.
Lemma can_beta p q x (P : R -> Prop) : 0 < x < 1 -> P x -> can (fun _ => draw_r (DBeta p q)) P.
Proof.
  intros Hx HP. apply (can_step _ _ (fun u => mk_ans u 1 x 0 1 1 1 0 0 0) x); auto.
  - intros u Hu. constructor; cbn; lra.
  - intros s k u H. unfold draw_r. cbn. injection H as _ _ H _ _ _ _ _ _ _. rewrite H. reflexivity.
Qed.
Lemma can_normal x (P : R -> Prop) : P x -> can (fun _ => draw_r DNormal) P.
Proof.
  intros HP. apply (can_step _ _ (fun u => mk_ans u 1 (1/2) x 1 1 1 0 0 0) x); auto.
  - intros u Hu. constructor; cbn; lra.
  - intros s k u H. unfold draw_r. cbn. injection H as _ _ _ H _ _ _ _ _ _. rewrite H. reflexivity.
Qed.
Lemma can_wald p q x (P : R -> Prop) : 0 < x -> P x -> can (fun _ => draw_r (DWald p q)) P.
Proof.
  intros Hx HP. apply (can_step _ _ (fun u => mk_ans u 1 (1/2) 0 x 1 1 0 0 0) x); auto.
  - intros u Hu. constructor; cbn; lra.
  - intros s k u H. unfold draw_r. cbn. injection H as _ _ _ _ H _ _ _ _ _. rewrite H. reflexivity.
Qed.
Lemma can_gamma p q x (P : R -> Prop) : 0 < x -> P x -> can (fun _ => draw_r (DGamma p q)) P.
Proof.
  intros Hx HP. apply (can_step _ _ (fun u => mk_ans u 1 (1/2) 0 1 x 1 0 0 0) x); auto.
  - intros u Hu. constructor; cbn; lra.
  - intros s k u H. unfold draw_r. cbn. injection H as _ _ _ _ _ H _ _ _ _. rewrite H. reflexivity.
Qed.
Lemma can_poisson lam n (P : nat -> Prop) : (lam = 0 -> n = 0%nat) -> P n -> can (fun _ => draw_n (DPoisson lam)) P.
Proof.
  intros Hn HP. apply (can_step _ _ (fun u => mk_ans u 1 (1/2) 0 1 1 1 n 0 0) n); auto.
  - intros u Hu. constructor; cbn; lra.
  - intros s k u H. unfold draw_n. cbn. injection H as _ _ _ _ _ _ _ H _ _. destruct (Reqb_dec lam 0) as [[E ->]|[E ->]]; [rewrite Hn; auto|]. rewrite H. reflexivity.
Qed.
Lemma can_choice p n (P : nat -> Prop) : is_prob_vector p = true -> 0 < nth n p 0 -> P n -> can (fun _ => choice p) P.
Proof.
  intros Hp Hn HP. unfold choice. rewrite Hp. apply (can_step _ _ (fun u => mk_ans u 1 (1/2) 0 1 1 1 0 n 0) n); auto.
  - intros u Hu. constructor; cbn; lra.
  - intros s k u H. unfold draw_n. cbn. injection H as _ _ _ _ _ _ _ _ H _. rewrite H. destruct (Rltb_dec 0 (nth n p 0)) as [[E ->]|[E ->]]; [|lra]. reflexivity.
Qed.
Lemma can_pick m n (P : nat -> Prop) : (n < m)%nat -> P n -> can (fun _ => draw_n (DPick m)) P.
Proof.
  intros Hn HP. apply (can_step _ _ (fun u => mk_ans u 1 (1/2) 0 1 1 1 0 0 n) n); auto.
  - intros u Hu. constructor; cbn; lra.
  - intros s k u H. unfold draw_n. cbn. injection H as _ _ _ _ _ _ _ _ _ H. rewrite H. rewrite Nat.mod_small by auto. reflexivity.
Qed.
Lemma can_map_m {A B} (f : nat -> A -> M B) (P : A -> B -> Prop) l : (forall a, In a l -> can (fun n => f n a) (P a)) ->
  can (fun n => map_m (f n) l) (fun bs => Forall2 P l bs).
Proof.
  induction l as [|a l IH]; intros H; cbn [map_m].
  - apply can_ret. constructor.
  - apply (can_bind _ (fun n b => do bs <- map_m (f n) l; ret (b :: bs)) (P a)); [apply H; left; auto|]. intros b Hb.
    apply (can_bind _ (fun n bs => ret (b :: bs)) (Forall2 P l)); [apply IH; intros; apply H; right; auto|]. intros bs Hbs. apply can_ret. constructor; auto.
Qed.
(** from [can] to [feasible] *)
Definition fill (l : list ans) (d : R) : script :=
  let g i := nth i l (mk_ans (d / INR (i + 2)) 1 (1/2) 0 1 1 1 0 0 0) in
  {| sc_u := fun i => n_u (g i); sc_e := fun i => n_e (g i); sc_b := fun i => n_b (g i); sc_n := fun i => n_n (g i); sc_w := fun i => n_w (g i);
     sc_g := fun i => n_g (g i); sc_l := fun i => n_l (g i); sc_p := fun i => n_p (g i); sc_c := fun i => n_c (g i); sc_k := fun i => n_k (g i) |}.
Lemma below_all (l : list R) : (forall u, In u l -> 0 < u) -> exists d, 0 < d <= 1 /\ forall u, In u l -> d <= u.
Proof.
  induction l as [|x l IH]; intros H.
  - exists 1. split; [lra|intros u []].
  - destruct IH as (d & H1 & H2). { intros; apply H; right; auto. } exists (Rmin d x). pose proof (Rmin_l d x). pose proof (Rmin_r d x).
    specialize (H x (or_introl eq_refl)). split.
    + split; [unfold Rmin; destruct (Rle_dec d x); lra|lra].
    + intros u [<-|Hu]; auto. specialize (H2 u Hu). lra.
Qed.
Lemma can_feasible {A} (m : nat -> M A) P : can m P -> feasible m P.
Proof.
  intros H. destruct (H []) as (l & n0 & a & H1 & H2 & _ & H4 & H5).
  assert (HU : forall u, In u (map n_u l) -> 0 < u < 1).
  { intros u Hu. apply in_map_iff in Hu as (x & <- & Hx). rewrite Forall_forall in H1. apply H1; auto. }
  destruct (below_all (map n_u l)) as (d & Hd & Hl). { intros u Hu. apply HU; auto. }
  assert (HI : forall i, 0 < / INR (i + 2) < 1).
  { intros i. rewrite plus_INR. cbn. pose proof (pos_INR i). split; [apply Rinv_0_lt_compat; lra|]. rewrite <- Rinv_1. apply Rinv_lt_contravar; lra. }
  assert (Hin : forall i, (i < length l)%nat -> exists x, nth_error l i = Some x /\ In x l).
  { intros i Hi. destruct (nth_error l i) as [x|] eqn:E; [|apply nth_error_None in E; lia]. exists x. split; auto. eapply nth_error_In; eauto. }
  set (s := fill l d).
  assert (Hs : script_ok s).
  { assert (Hg : forall i, ans_ok (nth i l (mk_ans (d / INR (i + 2)) 1 (1/2) 0 1 1 1 0 0 0))).
    { intros i. destruct (Nat.lt_ge_cases i (length l)) as [Hi|Hi].
      - rewrite Forall_forall in H1. apply H1. apply nth_In. auto.
      - rewrite nth_overflow by auto. specialize (HI i). constructor; cbn; try lra. unfold Rdiv. nra. }
    constructor; intros i; specialize (Hg i); destruct Hg; cbn; try lra; auto. }
  assert (Hpos : forall i, 0 < sc_u s i).
  { intros i. cbn. destruct (Nat.lt_ge_cases i (length l)) as [Hi|Hi].
    - apply HU. apply in_map. apply nth_In. auto.
    - rewrite nth_overflow by auto. cbn. specialize (HI i). unfold Rdiv. nra. }
  assert (Hdis : forall i j, (i < j)%nat -> sc_u s i <> sc_u s j).
  { intros i j Hij. cbn. destruct (Nat.lt_ge_cases j (length l)) as [Hj|Hj].
    - rewrite (nth_indep _ _ (mk_ans 0 1 (1/2) 0 1 1 1 0 0 0)) by lia. rewrite (nth_indep l _ (mk_ans 0 1 (1/2) 0 1 1 1 0 0 0) Hj).
      rewrite <- !(map_nth n_u). intros E. apply (NoDup_nth (map n_u l) (n_u (mk_ans 0 1 (1/2) 0 1 1 1 0 0 0))) in E; auto; rewrite ?map_length; lia.
    - rewrite (nth_overflow l _ Hj). cbn [n_u]. specialize (HI j) as HIj. destruct (Nat.lt_ge_cases i (length l)) as [Hi|Hi].
      + assert (d <= n_u (nth i l (mk_ans (d / INR (i + 2)) 1 (1/2) 0 1 1 1 0 0 0))). { apply Hl. apply in_map, nth_In. auto. } unfold Rdiv. nra.
      + rewrite nth_overflow by auto. cbn [n_u]. assert (/ INR (j + 2) < / INR (i + 2)).
        { apply Rinv_lt_contravar; [|apply lt_INR; lia]. apply Rmult_lt_0_compat; apply lt_0_INR; lia. } unfold Rdiv. nra. }
  exists (oracle_of s), n0, a. split; [apply oracle_of_valid; auto|]. split; [|split; [auto|]].
  - split.
    + intros k lo hi L. cbn [ora_r oracle_of]. specialize (Hpos k). nra.
    + intros k k' lo hi L N E. cbn [ora_r oracle_of] in E. assert (E' : sc_u s k = sc_u s k') by nra.
      destruct (Nat.lt_total k k') as [K|[K|K]]; [exact (Hdis _ _ K E')|exact (N K)|exact (Hdis _ _ K (eq_sym E'))].
  - intros fuel Hf. rewrite (H5 s 0%nat fuel); auto.
    intros i x Hx. cbn [Nat.add]. unfold at_step, s, fill. cbn. rewrite (nth_error_nth _ _ _ Hx). destruct x; reflexivity.
Qed.
