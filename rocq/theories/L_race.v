(** sample_forwards runs competing exponential clocks (mjplib/skeleton.py, lines 102-134). *)
From Coq Require Import Reals List ZArith Bool Arith Lia Lra Sorted.
From Verif Require Import Base Np Rng Mat M_mjp SpecMjp SpecLin L_list L_path L_rng L_mat L_sim.
Import ListNotations.
Local Open Scope R_scope.

Lemma eargmin_from_min (best : ext) bi i l (all : list ext) :
  nth_error all bi = Some best -> (forall j, nth_error l j = nth_error all (i + j)) ->
  (bi < i)%nat -> (forall j a, (j < i)%nat -> nth_error all j = Some a -> ele best a) ->
  exists b, nth_error all (eargmin_from best bi i l) = Some b /\
    forall j a, nth_error all j = Some a -> ele b a.
Proof.
  revert best bi i. induction l as [|a l IH]; intros best bi i HB HN HI HM; cbn [eargmin_from].
  - exists best. split; auto. intros j a Ha. destruct (Nat.lt_ge_cases j i) as [H|H]; [eauto|].
    specialize (HN (j - i)%nat). replace (i + (j - i))%nat with j in HN by lia. rewrite Ha in HN. destruct (j - i)%nat; discriminate.
  - assert (Ea : nth_error all i = Some a) by (specialize (HN 0%nat); rewrite Nat.add_0_r in HN; rewrite <- HN; reflexivity).
    assert (HN' : forall j, nth_error l j = nth_error all (S i + j)).
    { intros j. specialize (HN (S j)). simpl in HN. rewrite HN. f_equal. lia. }
    assert (TR : forall x y z, ele x y -> ele y z -> ele x z).
    { intros [|x|] [|y|] [|z|]; simpl; intros; try tauto; try lra. }
    destruct (eltb a best) eqn:E.
    + apply IH; auto. intros j c Hj Hc. destruct (Nat.eq_dec j i) as [->|N].
      * replace c with a by congruence. destruct a; simpl; auto; lra.
      * apply TR with best; [|apply (HM j); auto; lia]. apply eltb_true in E. destruct a, best; simpl in *; auto; try tauto; lra.
    + apply IH; auto. intros j c Hj Hc. destruct (Nat.eq_dec j i) as [->|N].
      * replace c with a by congruence.
        assert (~ elt a best) by (rewrite <- eltb_true; congruence). destruct a, best; simpl in *; auto; try tauto; lra.
      * apply (HM j); auto. lia.
Qed.
Lemma eargmin_min l m : eargmin l = Some m -> exists b, nth_error l m = Some b /\ forall j a, nth_error l j = Some a -> ele b a.
Proof.
  destruct l as [|a l]; [discriminate|]. intros E; inversion E; subst. apply eargmin_from_min; auto.
  intros [|j] c Hj Hc; [|lia]. inversion Hc; subst. destruct c; simpl; auto; lra.
Qed.

Section Race.
Variables (dim : nat) (gen : mat) (fin_t : R) (o : oracle).
Hypothesis Hdim : (2 <= dim)%nat.
Hypothesis Hoff : pos_off dim gen.

(** clock of the move x -> j among the dim - 1 draws starting at position k *)
Definition clock_at (k x j : nat) : R :=
  ora_r o (k + (if Nat.ltb j x then j else j - 1)) (DExp (1 / gen x j)).

Lemma draw_holds_clocks rates : Forall (fun r => 0 < r) rates -> forall k,
  draw_holds rates o k = (Ok (map (fun p => Fin (ora_r o (k + fst p)%nat (DExp (1 / snd p)))) (combine (seq 0 (length rates)) rates)),
                          (k + length rates)%nat).
Proof.
  intros HF. enough (HG : forall b k : nat, draw_holds rates o (b + k)%nat =
    (Ok (map (fun p => Fin (ora_r o (b + fst p)%nat (DExp (1 / snd p)))) (combine (seq k (length rates)) rates)), (b + k + length rates)%nat)).
  { intros k. specialize (HG k 0%nat). rewrite Nat.add_0_r in HG. auto. }
  induction HF as [|r rates Hr HF IH]; intros b k; cbn [draw_holds].
  - unfold ret. simpl. f_equal; lia.
  - destruct (Rltb_dec r 0) as [[? _]|[_ ->]]; [lra|]. destruct (Reqb_dec r 0) as [[? _]|[_ ->]]; [lra|].
    unfold bind, draw_r, ret. replace (S (b + k)) with (b + S k)%nat by lia. rewrite IH. cbn [length seq combine map fst snd].
    f_equal. lia.
Qed.

Lemma delete_nth {A} (l : list A) i j : (i < length l)%nat ->
  nth_error (np_delete l i) j = nth_error l (if Nat.ltb j i then j else S j).
Proof.
  intros Hi. unfold np_delete. destruct (Nat.ltb_spec j i).
  - rewrite nth_error_app1 by (rewrite firstn_length; lia). revert l Hi H. revert j.
    induction i; intros j l Hi H; [lia|]. destruct l; simpl in *; [lia|]. destruct j; simpl; auto. apply IHi; lia.
  - rewrite nth_error_app2 by (rewrite firstn_length; lia). rewrite firstn_length, Nat.min_l by lia.
    enough (forall m, nth_error (skipn (S i) l) m = nth_error l (S i + m)) as H0.
    { rewrite H0. f_equal. lia. }
    clear. revert l; induction (S i) as [|n IH]; intros l m; auto. destruct l; simpl; auto. destruct m; auto.
Qed.

Lemma row_nth x j : (j < dim)%nat -> nth_error (row_list dim gen x) j = Some (gen x j).
Proof.
  intros Hj. unfold row_list. rewrite nth_error_map. rewrite (nth_error_nth' (seq 0 dim) 0%nat) by (rewrite seq_length; auto).
  rewrite seq_nth by auto. reflexivity.
Qed.
Lemma delete_row_nth x j : (x < dim)%nat -> (j < dim - 1)%nat ->
  nth_error (np_delete (row_list dim gen x) x) j = Some (gen x (if Nat.ltb j x then j else S j)).
Proof.
  intros Hx Hj. rewrite delete_nth by (unfold row_list; rewrite map_length, seq_length; auto).
  apply row_nth. destruct (Nat.ltb_spec j x); lia.
Qed.
Lemma delete_row_length x : (x < dim)%nat -> length (np_delete (row_list dim gen x) x) = (dim - 1)%nat.
Proof. intros Hx. rewrite np_delete_length; unfold row_list; rewrite map_length, seq_length; auto. Qed.

Lemma hold_nth x k j : (x < dim)%nat -> (j < dim - 1)%nat ->
  let rates := np_delete (row_list dim gen x) x in
  nth_error (map (fun p => Fin (ora_r o (k + fst p)%nat (DExp (1 / snd p)))) (combine (seq 0 (length rates)) rates)) j
  = Some (Fin (clock_at k x (if Nat.ltb j x then j else S j))).
Proof.
  intros Hx Hj rates. rewrite nth_error_map.
  assert (E : nth_error (combine (seq 0 (length rates)) rates) j = Some (j, gen x (if Nat.ltb j x then j else S j))).
  { assert (HC : forall (A B : Type) (l : list A) (m : list B) n a b, nth_error l n = Some a -> nth_error m n = Some b ->
      nth_error (combine l m) n = Some (a, b)).
    { clear. induction l; intros m n a0 b0 Ha Hb; destruct n, m; simpl in *; try discriminate; [congruence|auto]. }
    apply HC; [|apply delete_row_nth; auto].
    rewrite (nth_error_nth' (seq 0 (length rates)) 0%nat) by (rewrite seq_length; unfold rates; rewrite delete_row_length; auto).
    rewrite seq_nth by (unfold rates; rewrite delete_row_length; auto). reflexivity. }
  rewrite E. cbn [option_map fst snd]. do 2 f_equal. unfold clock_at. f_equal.
  destruct (Nat.ltb_spec j x) as [H|H].
  - destruct (Nat.ltb_spec j x); lia.
  - destruct (Nat.ltb_spec (S j) x); lia.
Qed.

Fixpoint race (k : nat) (u : R) (lx : nat) (t : list R) (x : list nat) : Prop :=
  match t, x with
  | [], [] => fin_t <= u
  | a :: t', b :: x' => a = u /\ b = lx /\ u < fin_t /\ exists y, (y < dim)%nat /\ y <> lx /\
      (forall j, (j < dim)%nat -> j <> lx -> clock_at k lx y <= clock_at k lx j) /\
      race (k + (dim - 1)) (u + clock_at k lx y) y t' x'
  | _, _ => False
  end.

Lemma forwards_race fuel : forall t x u lx k s k', (lx < dim)%nat ->
  forwards_loop fuel fin_t dim gen t x (Fin u) lx o k = (Ok s, k') ->
  exists t2 x2, s = mk_skel (t ++ t2) (x ++ x2) fin_t /\ race k u lx t2 x2.
Proof.
  induction fuel as [|fuel IH]; intros t x u lx k s k' Hlx H; cbn [forwards_loop] in H; [discriminate|].
  destruct (Rltb_dec u fin_t) as [[Hu E]|[Hu E]]; rewrite E in H.
  - unfold bind at 1 in H. set (rates := np_delete (row_list dim gen lx) lx) in *.
    assert (RL : length rates = (dim - 1)%nat) by (apply delete_row_length; auto).
    assert (RP : Forall (fun r => 0 < r) rates).
    { rewrite Forall_forall. intros r Hr. apply in_delete in Hr as (j & Hj & N).
      assert (Jd : (j < dim)%nat).
      { assert (HH : nth_error (row_list dim gen lx) j <> None) by congruence.
        apply nth_error_Some in HH. unfold row_list in HH. rewrite map_length, seq_length in HH. auto. }
      rewrite (row_nth lx j Jd) in Hj. inversion Hj; subst. apply Hoff; auto. }
    rewrite (draw_holds_clocks rates RP) in H. set (hold := map _ _) in H.
    assert (HL : length hold = (dim - 1)%nat) by (unfold hold; rewrite map_length, combine_length, seq_length; lia).
    unfold bind at 1 in H. unfold lift_opt in H. destruct (eargmin hold) as [mv|] eqn:EM; [|discriminate].
    assert (Hm : (mv < dim - 1)%nat) by (rewrite <- HL; apply eargmin_lt; auto).
    assert (HN : forall j, (j < dim - 1)%nat -> nth_error hold j = Some (Fin (clock_at k lx (if Nat.ltb j lx then j else S j))))
      by (intros j Hj; apply hold_nth; auto).
    set (y := (mv + (if Nat.leb lx mv then 1 else 0))%nat) in *.
    assert (Ey : y = if Nat.ltb mv lx then mv else S mv).
    { unfold y. destruct (Nat.leb_spec lx mv), (Nat.ltb_spec mv lx); lia. }
    assert (Yd : (y < dim)%nat /\ y <> lx) by (rewrite Ey; destruct (Nat.ltb_spec mv lx); lia).
    rewrite (nth_error_nth hold mv PosInf (HN mv Hm)) in H. rewrite <- Ey in H. cbn [eadd_r] in H.
    replace (k + length rates)%nat with (k + (dim - 1))%nat in H by lia.
    destruct (IH _ _ _ _ _ _ _ (proj1 Yd) H) as (t2 & x2 & -> & HR).
    exists (u :: t2), (lx :: x2). split; [rewrite <- !app_assoc; reflexivity|].
    cbn [race]. repeat split; auto. exists y. repeat split; try tauto.
    intros j Hj Nj. destruct (eargmin_min hold mv EM) as (b & Hb & Hmin). rewrite (HN mv Hm), <- Ey in Hb. inversion Hb; subst b.
    set (j' := if Nat.ltb j lx then j else (j - 1)%nat).
    assert (Ej : (if Nat.ltb j' lx then j' else S j') = j /\ (j' < dim - 1)%nat).
    { unfold j'. destruct (Nat.ltb_spec j lx).
      - destruct (Nat.ltb_spec j lx); lia.
      - destruct (Nat.ltb_spec (j - 1) lx); lia. }
    specialize (Hmin j' _ (HN j' (proj2 Ej))). rewrite (proj1 Ej) in Hmin. exact Hmin.
  - unfold ret in H. inversion H; subst. exists [], []. rewrite !app_nil_r. split; auto.
Qed.

(** per-jump form *)
Lemma race_nth t : forall k u lx x m tm xm, race k u lx t x ->
  nth_error t m = Some tm -> nth_error x m = Some xm ->
  let c := clock_at (k + m * (dim - 1)) xm in
  match nth_error t (S m), nth_error x (S m) with
  | Some t', Some x' => (x' < dim)%nat /\ x' <> xm /\ t' = tm + c x' /\ (forall j, (j < dim)%nat -> j <> xm -> c x' <= c j)
  | None, None => forall j, (j < dim)%nat -> j <> xm -> fin_t <= tm + c j
  | _, _ => False
  end.
Proof.
  induction t as [|a t IH]; intros k u lx x m tm xm HR Ht Hx; [destruct m; discriminate|].
  destruct x as [|b x]; [destruct m; discriminate|]. cbn [race] in HR.
  destruct HR as (-> & -> & Hu & y & Hy & Ny & Hmin & HR).
  destruct m as [|m].
  - cbn [nth_error] in Ht, Hx. inversion Ht; inversion Hx; subst tm xm. rewrite Nat.mul_0_l, Nat.add_0_r. cbv zeta.
    cbn [nth_error]. destruct t as [|t' t], x as [|x' x]; cbn [race] in HR; try contradiction; cbn [nth_error].
    + intros j Hj Nj. specialize (Hmin j Hj Nj). lra.
    + destruct HR as (-> & -> & _). repeat split; auto.
  - specialize (IH _ _ _ _ m tm xm HR Ht Hx). replace (k + S m * (dim - 1))%nat with (k + (dim - 1) + m * (dim - 1))%nat by lia.
    exact IH.
Qed.
End Race.

Lemma forwards_clocks L fuel fin_t x0 dim gen o k s : (2 <= dim)%nat -> pos_off dim gen -> (x0 < dim)%nat ->
  fst (sample_forwards L fuel fin_t (Some x0) dim gen o k) = Ok s ->
  forall m tm xm, nth_error (sk_t s) m = Some tm -> nth_error (sk_x s) m = Some xm ->
  let c j := ora_r o (k + m * (dim - 1) + (if Nat.ltb j xm then j else j - 1)) (DExp (1 / gen xm j)) in
  match nth_error (sk_t s) (S m), nth_error (sk_x s) (S m) with
  | Some t', Some x' => (x' < dim)%nat /\ x' <> xm /\ t' = tm + c x' /\ (forall j, (j < dim)%nat -> j <> xm -> c x' <= c j)
  | None, None => forall j, (j < dim)%nat -> j <> xm -> fin_t <= tm + c j
  | _, _ => False
  end.
Proof.
  intros HD HO Hx E. unfold sample_forwards in E. unfold bind at 1, ret in E.
  destruct (forwards_loop fuel fin_t dim gen [] [] (Fin 0) x0 o k) as [r k'] eqn:EF. cbn [fst] in E. subst r.
  destruct (forwards_race dim gen fin_t o HD HO fuel [] [] 0 x0 k s k' Hx EF) as (t2 & x2 & -> & HR).
  cbn [app sk_t sk_x]. intros m tm xm Ht Hxm. exact (race_nth dim gen fin_t o HD t2 k 0 x0 x2 m tm xm HR Ht Hxm).
Qed.
