(** Runs with chosen draws, continued: draws chosen together with further inputs. *)
From Coq Require Import Reals List Bool Arith Lia Lra Sorting.Sorted.
From Verif Require Import Base Np Rng L_rng SpecCan L_can.
Import ListNotations.
Local Open Scope R_scope.

(** the answers [l] make [m] return [a]; their uniforms avoid [F] *)
Definition runs {A} (F : list R) (m : nat -> M A) (l : list ans) (n0 : nat) (a : A) : Prop :=
  Forall ans_ok l /\ NoDup (map n_u l) /\ (forall u, In u (map n_u l) -> ~ In u F) /\
  forall s k fuel, agrees s k l -> (n0 <= fuel)%nat -> m fuel (oracle_of s) k = (Ok a, (k + length l)%nat).
Lemma can_runs {A} (m : nat -> M A) P F : can m P -> exists l n0 a, runs F m l n0 a /\ P a.
Proof. intros H. destruct (H F) as (l & n0 & a & H1 & H2 & H3 & H4 & H5). exists l, n0, a. split; [repeat split; auto|auto]. Qed.
Lemma runs_can {A} (m : nat -> M A) (P : A -> Prop) : (forall F, exists l n0 a, runs F m l n0 a /\ P a) -> can m P.
Proof. intros H F. destruct (H F) as (l & n0 & a & (H1 & H2 & H3 & H4) & H5). exists l, n0, a. auto. Qed.
Lemma runs_bind {A B} F (m : nat -> M A) (f : nat -> A -> M B) l1 n1 a l2 n2 b : runs F m l1 n1 a -> runs (F ++ map n_u l1) (fun n => f n a) l2 n2 b ->
  runs F (fun n => bind (m n) (f n)) (l1 ++ l2) (Nat.max n1 n2) b.
Proof.
  intros (A1 & A2 & A3 & A5) (B1 & B2 & B3 & B5). split; [apply Forall_app; auto|]. rewrite map_app. split; [|split].
  - clear - A2 B2 B3. induction l1 as [|x l1 IH]; cbn in *; auto. inversion A2; subst. constructor.
    + rewrite in_app_iff. intros [H|H]; auto. apply (B3 _ H). rewrite in_app_iff. right. cbn. auto.
    + apply IH; auto. intros u Hu H. apply (B3 _ Hu). rewrite in_app_iff in *. cbn. tauto.
  - intros u. rewrite in_app_iff. intros [H|H] HF; [exact (A3 u H HF)|]. apply (B3 u H). rewrite in_app_iff. auto.
  - intros s k fuel H Hn. apply agrees_app in H as [H1 H2]. unfold bind.
    rewrite (A5 s k fuel H1) by lia. rewrite (B5 s _ fuel H2) by lia. rewrite app_length. f_equal. lia.
Qed.
Lemma runs_ext {A} F (m m' : nat -> M A) l n0 a : (forall n, (n0 <= n)%nat -> forall o k, m n o k = m' n o k) -> runs F m l n0 a -> runs F m' l n0 a.
Proof. intros E (H1 & H2 & H3 & H4). repeat split; auto. intros s k fuel HA Hn. rewrite <- E by auto. auto. Qed.
Lemma runs_more {A} F (m : nat -> M A) l n0 n1 a : (n0 <= n1)%nat -> runs F m l n0 a -> runs F m l n1 a.
Proof. intros E (H1 & H2 & H3 & H4). repeat split; auto. intros s k fuel HA Hn. apply H4; auto. lia. Qed.
Lemma runs_oracle {A} F (m : nat -> M A) l n0 a : runs F m l n0 a -> exists o, valid o /\ generic o /\ forall fuel, (n0 <= fuel)%nat -> m fuel o 0%nat = (Ok a, length l).
Proof.
  intros (H1 & H2 & _ & H5).
  assert (C : exists s, agrees s 0 l /\ valid (oracle_of s) /\ generic (oracle_of s)).
  { assert (HU : forall u, In u (map n_u l) -> 0 < u < 1).
    { intros u Hu. apply in_map_iff in Hu as (x & <- & Hx). rewrite Forall_forall in H1. apply H1; auto. }
    destruct (below_all (map n_u l)) as (d & Hd & Hl). { intros u Hu. apply HU; auto. }
    assert (HI : forall i, 0 < / INR (i + 2) < 1).
    { intros i. rewrite plus_INR. cbn. pose proof (pos_INR i). split; [apply Rinv_0_lt_compat; lra|]. rewrite <- Rinv_1. apply Rinv_lt_contravar; lra. }
    exists (fill l d).
    assert (Hs : script_ok (fill l d)).
    { assert (Hg : forall i, ans_ok (nth i l (mk_ans (d / INR (i + 2)) 1 (1/2) 0 1 1 1 0 0 0))).
      { intros i. destruct (Nat.lt_ge_cases i (length l)) as [Hi|Hi].
        - rewrite Forall_forall in H1. apply H1. apply nth_In. auto.
        - rewrite nth_overflow by auto. specialize (HI i). constructor; cbn; try lra. unfold Rdiv. nra. }
      constructor; intros i; specialize (Hg i); destruct Hg; cbn; try lra; auto. }
    assert (Hpos : forall i, 0 < sc_u (fill l d) i).
    { intros i. cbn. destruct (Nat.lt_ge_cases i (length l)) as [Hi|Hi].
      - apply HU. apply in_map. apply nth_In. auto.
      - rewrite nth_overflow by auto. cbn. specialize (HI i). unfold Rdiv. nra. }
    assert (Hdis : forall i j, (i < j)%nat -> sc_u (fill l d) i <> sc_u (fill l d) j).
    { intros i j Hij. cbn. destruct (Nat.lt_ge_cases j (length l)) as [Hj|Hj].
      - rewrite (nth_indep _ _ (mk_ans 0 1 (1/2) 0 1 1 1 0 0 0)) by lia. rewrite (nth_indep l _ (mk_ans 0 1 (1/2) 0 1 1 1 0 0 0) Hj).
        rewrite <- !(map_nth n_u). intros E. apply (NoDup_nth (map n_u l) (n_u (mk_ans 0 1 (1/2) 0 1 1 1 0 0 0))) in E; auto; rewrite ?map_length; lia.
      - rewrite (nth_overflow l _ Hj). cbn [n_u]. specialize (HI j) as HIj. destruct (Nat.lt_ge_cases i (length l)) as [Hi|Hi].
        + assert (d <= n_u (nth i l (mk_ans (d / INR (i + 2)) 1 (1/2) 0 1 1 1 0 0 0))). { apply Hl. apply in_map, nth_In. auto. } unfold Rdiv. nra.
        + rewrite nth_overflow by auto. cbn [n_u]. assert (/ INR (j + 2) < / INR (i + 2)).
          { apply Rinv_lt_contravar; [|apply lt_INR; lia]. apply Rmult_lt_0_compat; apply lt_0_INR; lia. } unfold Rdiv. nra. }
    split; [intros i x Hx; cbn [Nat.add]; unfold at_step, fill; cbn; rewrite (nth_error_nth _ _ _ Hx); destruct x; reflexivity|].
    split; [apply oracle_of_valid; auto|]. split.
    - intros k lo hi L. cbn [ora_r oracle_of]. specialize (Hpos k). nra.
    - intros k k' lo hi L N E. cbn [ora_r oracle_of] in E. assert (E' : sc_u (fill l d) k = sc_u (fill l d) k') by nra.
      destruct (Nat.lt_total k k') as [K|[K|K]]; [exact (Hdis _ _ K E')|exact (N K)|exact (Hdis _ _ K (eq_sym E'))]. }
  destruct C as (s & S1 & S2 & S3). exists (oracle_of s). split; [auto|]. split; [auto|]. intros fuel Hf. rewrite (H5 s 0%nat fuel); auto.
Qed.
Lemma runs_feasible {A} (m : nat -> M A) (P : A -> Prop) F l n0 a : runs F m l n0 a -> P a -> feasible m P.
Proof. intros H HP. destruct (runs_oracle _ _ _ _ _ H) as (o & V & G & E). exists o, n0, a. split; [exact V|]. split; [exact G|]. split; [exact HP|]. intros fuel Hf. rewrite E by auto. reflexivity. Qed.
(** what holds of every returned value holds of a value that can be returned *)
Lemma can_returns {A} (m : nat -> M A) (P Q : A -> Prop) : can m P -> (forall fuel, returns_if generic (m fuel) Q) -> can m (fun a => P a /\ Q a).
Proof.
  intros HC HR F. destruct (HC F) as (l & n0 & a & H1 & H2 & H3 & H4 & H5).
  assert (RR : runs F m l n0 a) by (repeat split; auto). destruct (runs_oracle _ _ _ _ _ RR) as (o & V & G & E).
  pose proof (HR n0 o 0%nat V G) as X. rewrite (E n0 (le_n _)) in X. cbn [fst] in X. exists l, n0, a. auto 10.
Qed.
