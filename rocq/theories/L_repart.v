(** Lemmas on repartition_skeleton and Skeleton.__eq__. *)
From Coq Require Import Reals List ZArith Bool Lra Lia Sorted.
From Verif Require Import Base Np M_mjp SpecMjp L_list L_path L_part L_path2.
Import ListNotations.
Local Open Scope R_scope.

Lemma repartition_roundtrip (s : skel R) (old new : list R) :
  wf_skel s -> StronglySorted Rle old -> (forall b, In b old -> 0 <= b <= sk_fin s) ->
  repartition_skeleton (partition_skeleton s old) new = Ok (partition_skeleton s new).
Proof.
  intros W So Ho. unfold repartition_skeleton.
  rewrite (roundtrip s (proj1 W) (proj2 W) old So Ho). reflexivity.
Qed.

Lemma repartition_correct (ps : list (skel R)) (new : list R) :
  (forall p, In p ps -> sk_fin p = 0 \/ timed p) -> (exists p, In p ps /\ timed p) ->
  StronglySorted Rle new -> (forall b, In b new -> 0 <= b <= total_dur ps) ->
  exists qs, repartition_skeleton ps new = Ok qs /\ length qs = S (length new) /\
    total_dur qs = total_dur ps /\
    forall k p j u a b i, nth_error ps k = Some p -> timed p -> 0 <= u < sk_fin p ->
      nth_error (0 :: new ++ [total_dur ps]) j = Some a ->
      nth_error (0 :: new ++ [total_dur ps]) (S j) = Some b ->
      a <= total_dur (firstn k ps) + u < b ->
      exists q, nth_error qs j = Some q /\ sk_fin q = b - a /\ wf_skel q /\
        (state_at q (total_dur (firstn k ps) + u - a) i <-> state_at p u i).
Proof.
  intros H1 H2 So Hn.
  destruct (paste_correct ps H1 H2) as (s & E & W & F & St).
  exists (partition_skeleton s new).
  rewrite <- F in *.
  destruct (partition_correct s new W So Hn) as (L & D & Q).
  split; [unfold repartition_skeleton; rewrite E; reflexivity|].
  split; [exact L|]. split; [exact D|].
  intros k p j u a b i Ep Tp Hu Ea Eb Hab.
  destruct (Q j a b Ea Eb) as (q & Eq & Fq & _ & Wq & _ & Sq).
  exists q. split; [exact Eq|]. split; [exact Fq|]. split; [apply Wq; lra|].
  rewrite (Sq (total_dur (firstn k ps) + u - a) i) by lra.
  replace (a + (total_dur (firstn k ps) + u - a)) with (total_dur (firstn k ps) + u) by lra.
  symmetry. apply (St k p u i Ep Tp); [lra|left; lra].
Qed.

Lemma forallb_combine_eq {A} (eqb : A -> A -> bool) (Heq : forall x y, eqb x y = true <-> x = y) :
  forall a b : list A, Nat.eqb (length a) (length b)
    && forallb (fun p => eqb (fst p) (snd p)) (combine a b) = true <-> a = b.
Proof.
  induction a as [|x a IH]; intros [|y b]; cbn [length combine forallb fst snd Nat.eqb];
    try (split; intro H; [discriminate H|discriminate H]).
  - split; auto.
  - split; intro H.
    + apply andb_prop in H as (H1 & H2). apply andb_prop in H2 as (H2 & H3).
      apply Heq in H2. subst y. f_equal. apply IH. now rewrite H1, H3.
    + injection H as <- <-. pose proof (proj2 (IH a) eq_refl) as H. apply andb_prop in H as (-> & ->).
      now rewrite (proj2 (Heq x x) eq_refl).
Qed.

Lemma skel_eq_correct (a b : skel R) : skel_eq a b = true <-> a = b.
Proof.
  unfold skel_eq. rewrite !andb_true_iff, <- !andb_true_iff.
  destruct a as [ta xa fa], b as [tb xb fb]; cbn [sk_t sk_x sk_fin].
  assert (HR : forall x y : R, neqb x y = true <-> x = y).
  { exact Reqb_true. }
  pose proof (forallb_combine_eq (@neqb R _) HR ta tb) as Ht.
  pose proof (forallb_combine_eq Nat.eqb Nat.eqb_eq xa xb) as Hx.
  rewrite !andb_true_iff in *. rewrite HR. 
  split.
  - intros ((A & B) & C). f_equal; [apply Ht; tauto|apply Hx; tauto|exact C].
  - intro E. injection E as -> -> ->. tauto.
Qed.

(** ** A canonical skeleton is determined by the path it represents *)
Lemma state_tail t0 t1 ts x0 xs fin u i : t1 <= u ->
  state_at (mk_skel (t0 :: t1 :: ts) (x0 :: xs) fin) u i <-> state_at (mk_skel (t1 :: ts) xs fin) u i.
Proof.
  intro Hu. split.
  - intros (k & tk & E1 & E2 & Hk & Hn). destruct k as [|k].
    + exfalso. specialize (Hn 1%nat t1 (Nat.lt_0_succ 0) eq_refl). lra.
    + exists k, tk. repeat split; auto. intros j tj Hj Ej. apply (Hn (S j)); [lia|exact Ej].
  - intros (k & tk & E1 & E2 & Hk & Hn). exists (S k), tk. repeat split; auto.
    intros [|j] tj Hj Ej; [lia|]. apply (Hn j); [lia|exact Ej].
Qed.

Lemma state_head ts t0 x0 xs fin u : t0 <= u -> (forall t, In t ts -> u < t) ->
  state_at (mk_skel (t0 :: ts) (x0 :: xs) fin) u x0.
Proof.
  intros Hu Hn. exists 0%nat, t0. repeat split; auto.
  intros [|j] tj Hj Ej; [lia|]. apply Hn. exact (nth_error_In ts j Ej).
Qed.

Lemma no_repeat_tl x0 xs : no_repeat (x0 :: xs) -> no_repeat xs.
Proof. intros H i a b Ea Eb. exact (H (S i) a b Ea Eb). Qed.

Lemma canonical_unique fin : forall ta xa tb xb t0,
  length (t0 :: ta) = length xa -> length (t0 :: tb) = length xb ->
  StronglySorted Rlt (t0 :: ta) -> StronglySorted Rlt (t0 :: tb) ->
  (forall t, In t ta -> t < fin) -> (forall t, In t tb -> t < fin) -> t0 < fin ->
  no_repeat xa -> no_repeat xb ->
  (forall u i, t0 <= u < fin ->
     state_at (mk_skel (t0 :: ta) xa fin) u i <-> state_at (mk_skel (t0 :: tb) xb fin) u i) ->
  ta = tb /\ xa = xb.
Proof.
  induction ta as [|t1 ta IH]; intros xa tb xb t0 La Lb Sa Sb Fa Fb F0 Na Nb H;
    (destruct xa as [|x0 xa]; [discriminate La|]); (destruct xb as [|y0 xb]; [discriminate Lb|]).
  all: pose proof (StronglySorted_inv Sa) as (Sa' & Ta); pose proof (StronglySorted_inv Sb) as (Sb' & Tb);
    rewrite Forall_forall in Ta, Tb.
  all: assert (E0 : x0 = y0) by
    (apply (state_at_unique (mk_skel (t0 :: tb) (y0 :: xb) fin) t0);
       [apply H; [lra|]|]; apply state_head; auto; lra).
  all: subst y0.
  - destruct tb as [|s1 tb].
    + destruct xa; [|discriminate La]. destruct xb; [|discriminate Lb]. auto.
    + exfalso. destruct xb as [|y1 xb]; [discriminate Lb|].
      apply (Nb 0%nat x0 y1 eq_refl eq_refl).
      assert (t0 < s1) by (apply Tb; left; auto).
      assert (s1 < fin) by (apply Fb; left; auto).
      apply (state_at_unique (mk_skel (t0 :: s1 :: tb) (x0 :: y1 :: xb) fin) s1).
      * apply H; [lra|]. apply state_head; [lra|intros ? []].
      * apply state_tail; [lra|]. apply state_head; [lra|].
        apply StronglySorted_inv in Sb' as (_ & Q). now rewrite Forall_forall in Q.
  - destruct xa as [|x1 xa]; [discriminate La|].
    assert (H01 : t0 < t1) by (apply Ta; left; auto).
    assert (H1f : t1 < fin) by (apply Fa; left; auto).
    pose proof (StronglySorted_inv Sa') as (_ & Ta'). rewrite Forall_forall in Ta'.
    assert (A1 : state_at (mk_skel (t0 :: t1 :: ta) (x0 :: x1 :: xa) fin) t1 x1).
    { apply state_tail; [lra|]. apply state_head; [lra|exact Ta']. }
    destruct tb as [|s1 tb].
    + exfalso. apply (Na 0%nat x0 x1 eq_refl eq_refl).
      apply (state_at_unique (mk_skel [t0] (x0 :: xb) fin) t1); [apply state_head; [lra|intros ? []]|].
      apply H; [lra|exact A1].
    + destruct xb as [|y1 xb]; [discriminate Lb|].
      assert (H0s : t0 < s1) by (apply Tb; left; auto).
      assert (Hsf : s1 < fin) by (apply Fb; left; auto).
      pose proof (StronglySorted_inv Sb') as (_ & Tb'). rewrite Forall_forall in Tb'.
      assert (B1 : state_at (mk_skel (t0 :: s1 :: tb) (x0 :: y1 :: xb) fin) s1 y1).
      { apply state_tail; [lra|]. apply state_head; [lra|exact Tb']. }
      assert (t1 = s1).
      { destruct (Rtotal_order t1 s1) as [C|[C|C]]; [|exact C|]; exfalso.
        - apply (Na 0%nat x0 x1 eq_refl eq_refl).
          apply (state_at_unique (mk_skel (t0 :: s1 :: tb) (x0 :: y1 :: xb) fin) t1);
            [|apply H; [lra|exact A1]].
          apply state_head; [lra|]. intros t [<-|I]; [lra|]. specialize (Tb' t I). lra.
        - apply (Nb 0%nat x0 y1 eq_refl eq_refl).
          apply (state_at_unique (mk_skel (t0 :: t1 :: ta) (x0 :: x1 :: xa) fin) s1);
            [|apply H; [lra|exact B1]].
          apply state_head; [lra|]. intros t [<-|I]; [lra|]. specialize (Ta' t I). lra. }
      subst s1.
      destruct (IH (x1 :: xa) tb (y1 :: xb) t1) as (-> & E); auto.
      * intros t I; apply Fa; right; auto.
      * intros t I; apply Fb; right; auto.
      * eapply no_repeat_tl; eauto.
      * eapply no_repeat_tl; eauto.
      * intros u i Hu. rewrite <- (state_tail t0 t1 ta x0 (x1 :: xa)) by lra.
        rewrite <- (state_tail t0 t1 tb x0 (y1 :: xb)) by lra. apply H. lra.
      * now rewrite E.
Qed.

Lemma skel_eq_canonical (a b : skel R) : wf_skel a -> wf_skel b ->
  skel_eq a b = true <->
  sk_fin a = sk_fin b /\ forall u i, 0 <= u < sk_fin a -> (state_at a u i <-> state_at b u i).
Proof.
  intros (Wa & Na) (Wb & Nb). rewrite skel_eq_correct. split; [intros ->; split; tauto|].
  intros (F & H).
  destruct a as [ta xa fa], b as [tb xb fb]; cbn [sk_fin] in F; subst fb.
  destruct Wa as [La Fa Sa Ba], Wb as [Lb Fb Sb Bb]; cbn [sk_t sk_x sk_fin] in *.
  destruct ta as [|a0 ta]; [discriminate Fa|]. destruct tb as [|b0 tb]; [discriminate Fb|].
  injection Fa as ->. injection Fb as ->.
  destruct (canonical_unique fa ta xa tb xb 0) as (-> & ->); auto.
  - intros t I; apply Ba; right; auto.
  - intros t I; apply Bb; right; auto.
  - apply Ba; left; auto.
Qed.
