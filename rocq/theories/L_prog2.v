(** Whole bridge paths in terms of the chain of positions. *)
From Coquelicot Require Import Hierarchy.
From Coq Require Import Reals List Bool Arith Lia Lra Sorted Permutation.
From Verif Require Import Base Np Rng L_rng M_mjp SpecMjp SpecLin SpecLaw SpecFdd SpecJumps L_list L_path L_law L_law2 L_law4 L_law5 L_bridge L_unif L_bridge2 L_fdd1 L_fdd2 L_fdd3 L_lindemo L_mat L_prog1 Mat.
Import ListNotations.
Local Open Scope R_scope.

Definition lsum {A} (g : A -> R) (l : list A) : R := fold_right Rplus 0 (map g l).
Lemma lsum_cons : forall A (g : A -> R) a l, lsum g (a :: l) = g a + lsum g l.
Proof. reflexivity. Qed.
Lemma lsum_app : forall A (g : A -> R) l l', lsum g (l ++ l') = lsum g l + lsum g l'.
Proof. intros A g l l'. induction l as [|a l IH]; [unfold lsum; cbn; ring|]. rewrite <- app_comm_cons, !lsum_cons, IH. ring. Qed.
Lemma lsum_ext : forall A (g h : A -> R) l, (forall a, In a l -> g a = h a) -> lsum g l = lsum h l.
Proof. intros A g h l. induction l as [|a l IH]; intros H; [reflexivity|]. rewrite !lsum_cons, (H a (or_introl eq_refl)), IH; [reflexivity|]. intros b Hb. apply H. right. exact Hb. Qed.
Lemma lsum_scal : forall A (g : A -> R) c l, lsum (fun a => c * g a) l = c * lsum g l.
Proof. intros A g c l. induction l as [|a l IH]; [unfold lsum; cbn; ring|]. rewrite !lsum_cons, IH. ring. Qed.
Lemma lsum_map : forall A B (h : A -> B) (g : B -> R) l, lsum g (map h l) = lsum (fun a => g (h a)) l.
Proof. intros A B h g l. unfold lsum. rewrite map_map. reflexivity. Qed.
Lemma lsum_flat : forall A B (h : A -> list B) (g : B -> R) l, lsum g (flat_map h l) = lsum (fun a => lsum g (h a)) l.
Proof. intros A B h g l. induction l as [|a l IH]; [reflexivity|]. cbn [flat_map]. rewrite lsum_app, lsum_cons, IH. reflexivity. Qed.
Lemma lsum_pick : forall c V n m, lsum (fun k => ind (Nat.eqb c k) * V) (seq m n) = ind (Nat.leb m c && Nat.ltb c (m + n)) * V.
Proof.
  intros c V. induction n as [|n IH]; intros m; cbn [seq].
  - unfold lsum. cbn [map fold_right]. destruct (Nat.leb_spec m c), (Nat.ltb_spec c (m + 0)); cbn [andb ind]; try lia; ring.
  - rewrite lsum_cons, IH. destruct (Nat.eqb_spec c m), (Nat.leb_spec (S m) c), (Nat.ltb_spec c (S m + n)), (Nat.leb_spec m c), (Nat.ltb_spec c (m + S n)); cbn [andb ind]; try lia; ring.
Qed.
Lemma average_lsum : forall A B (m : M A) (l : list B) (g : B -> A -> R) (v : B -> R) h w, average m h w ->
  (forall b, In b l -> average m (g b) (v b)) -> average m (fun a => lsum (fun b => g b a) l) (lsum v l).
Proof.
  intros A B m l g v h w H0. induction l as [|b l IH]; intros H.
  - refine (average_ext _ _ _ _ _ _ (average_eq _ _ _ _ _ _ (average_scal _ _ _ _ 0 H0))); [intros a; unfold lsum; cbn; ring|unfold lsum; cbn; ring].
  - rewrite lsum_cons. refine (average_ext _ _ _ _ _ _ (average_plus _ _ _ _ _ _ (H b (or_introl eq_refl)) (IH (fun c Hc => H c (or_intror Hc))))).
    intros a. rewrite lsum_cons. reflexivity.
Qed.
Lemma ind_and : forall a b, ind (a && b) = ind a * ind b.
Proof. intros [|] [|]; cbn; ring. Qed.

(** the tuples of positions seen at the bounds when the k-th jump is no later than the k-th bound *)
Fixpoint tups (K m : nat) (bs : list R) : list (list (R * nat)) :=
  match bs with
  | [] => [[]]
  | b :: r => flat_map (fun k => map (cons (b, k)) (tups K (S m) r)) (seq m (S K - m))
  end.
Lemma tups_in : forall K bs m o, In o (tups K m bs) -> map fst o = bs /\ Forall (fun p => (snd p <= K)%nat) o.
Proof.
  intros K. induction bs as [|b bs IH]; intros m o H; cbn [tups] in H.
  - destruct H as [<-|[]]. split; [reflexivity|apply Forall_nil].
  - apply in_flat_map in H as (k & Hk & H). apply in_seq in Hk. apply in_map_iff in H as (o' & <- & H). destruct (IH _ _ H) as [I1 I2].
    split; [cbn; rewrite I1; reflexivity|]. apply Forall_cons; [cbn; lia|exact I2].
Qed.
Lemma lsum_tups : forall K (a : R -> nat) bs m, (forall u, (a u <= K)%nat) ->
  lsum (fun o => ind (forallb (fun p => Nat.eqb (a (fst p)) (snd p)) o)) (tups K m bs) = ind (forallb (fun c => Nat.leb (fst c) (a (snd c))) (combine (seq m (length bs)) bs)).
Proof.
  intros K a. induction bs as [|b bs IH]; intros m H.
  - cbn. unfold lsum. cbn. ring.
  - cbn [tups length seq combine forallb fst snd]. rewrite lsum_flat, ind_and, <- (IH (S m) H).
    rewrite (lsum_ext _ _ (fun k => ind (Nat.eqb (a b) k) * lsum (fun o => ind (forallb (fun p => Nat.eqb (a (fst p)) (snd p)) o)) (tups K (S m) bs))).
    + rewrite lsum_pick. f_equal. pose proof (H b). destruct (Nat.leb_spec m (a b)), (Nat.ltb_spec (a b) (m + (S K - m))); cbn [andb]; try reflexivity; lia.
    + intros k _. rewrite lsum_map, <- lsum_scal. apply lsum_ext. intros o _. cbn [forallb fst snd]. apply ind_and.
Qed.
Lemma in_order_fst : forall T o lo, climbs T lo (map fst o) -> in_order lo o T.
Proof. intros T. induction o as [|[u y] o IH]; intros lo H; cbn in *; [exact H|]. destruct H as [H1 H2]. split; [exact H1|apply IH; exact H2]. Qed.

Section Entries.
  Variables (x0 : nat) (xs : list nat).
  Hypothesis Hmv : moves_on x0 xs.
  Notation K := (length xs).
  Notation at' := (at_ x0 xs).
  Notation st' := (st x0 xs).
  Notation lift' := (lift x0 xs).
  Fixpoint liftj (k : nat) (J : list (R * nat)) : list (R * nat) :=
    match J with [] => [] | (t, z) :: r => (t, st' k z) :: liftj (st' k z) r end.
  Lemma liftj_combine : forall ts zs k, liftj k (combine ts zs) = combine ts (lift' k zs).
  Proof. induction ts as [|t ts IH]; intros [|z zs] k; try reflexivity. cbn. rewrite IH. reflexivity. Qed.
  Lemma liftj_times : forall J k p, In p (liftj k J) -> In (fst p) (map fst J).
  Proof. induction J as [|[t z] J IH]; intros k p H; [destruct H|]. cbn in H. destruct H as [<-|H]; [left; reflexivity|right; apply (IH _ _ H)]. Qed.
  Lemma skip_at : forall k, (k < K)%nat -> skipn k xs = at' (S k) :: skipn (S k) xs.
  Proof.
    intros k. unfold at_. change (nth (S k) (x0 :: xs) 0%nat) with (nth k xs 0%nat). clear. revert k. induction xs as [|y l IH]; intros k H; [cbn in H; lia|].
    destruct k as [|k]; [reflexivity|]. cbn in H. cbn [skipn nth]. rewrite (IH k) by lia. reflexivity.
  Qed.
  Lemma st_ge : forall k z, (k <= S (S K))%nat -> (k <= st' k z <= S (S K))%nat.
  Proof.
    intros k z H. destruct (Nat.le_gt_cases k K) as [L|L]; [|rewrite st_dead by exact L; lia].
    destruct (st_cases (S x0) x0 xs (Nat.lt_succ_diag_r x0) k z L) as [[_ ->]|[(A & _ & _ & ->)|(_ & _ & ->)]]; lia.
  Qed.
  Lemma seen_ge : forall J k u, (k <= S (S K))%nat -> (k <= seen k (liftj k J) u)%nat.
  Proof.
    induction J as [|[t z] J IH]; intros k u H; cbn [liftj seen]; [lia|]. pose proof (st_ge k z H) as B.
    destruct (Rle_dec t u); [|lia]. pose proof (IH (st' k z) u ltac:(lia)). lia.
  Qed.
  Lemma seen_low : forall J k u, last (lift' k (map snd J)) k = K -> (seen k (liftj k J) u <= K)%nat.
  Proof.
    induction J as [|[t z] J IH]; intros k u H; cbn [liftj seen map snd lift] in *; [cbn in H; lia|]. rewrite last_cons in H.
    destruct (Rle_dec t u); [apply IH; exact H|]. destruct (Nat.le_gt_cases k K) as [L|L]; [exact L|].
    exfalso. pose proof (lift_dead (S x0) x0 xs (Nat.lt_succ_diag_r x0) (map snd J) (st' k z)) as B. rewrite st_dead in * by exact L. specialize (B ltac:(lia)). lia.
  Qed.

  Definition good (k : nat) (bs : list R) (J : list (R * nat)) : bool :=
    if list_eq_dec Nat.eq_dec (map snd (dv (at' k) J)) (skipn k xs) then forallb (fun c => Rleb (fst c) (snd c)) (combine (map fst (dv (at' k) J)) bs) else false.
  Definition chk (k : nat) (bs : list R) (J : list (R * nat)) : bool :=
    Nat.eqb (last (lift' k (map snd J)) k) K && forallb (fun c => Nat.leb (fst c) (seen k (liftj k J) (snd c))) (combine (seq (S k) (length bs)) bs).

  Lemma late : forall t u J k, Forall (Rle t) (map fst J) -> ~ t <= u -> seen k (liftj k J) u = k.
  Proof.
    intros t u J k F N. apply seen_late. intros p Hp. apply liftj_times in Hp. rewrite Forall_forall in F. specialize (F _ Hp). lra.
  Qed.
  Lemma forallb_in : forall A (g h : A -> bool) l, (forall a, In a l -> g a = h a) -> forallb g l = forallb h l.
  Proof. intros A g h l. induction l as [|a l IH]; intros H; cbn; [reflexivity|]. rewrite (H a (or_introl eq_refl)), IH; [reflexivity|]. intros b Hb. apply H. right. exact Hb. Qed.

  Lemma good_chk : forall J k bs, (k <= K)%nat -> length bs = (K - k)%nat -> StronglySorted Rle (map fst J) -> good k bs J = chk k bs J.
  Proof.
    induction J as [|[t z] J IH]; intros k bs Hk HL HS.
    - unfold good, chk. cbn [dv map lift last liftj seen]. destruct (Nat.eqb_spec k K) as [E|E].
      + subst k. rewrite skipn_all. assert (bs = []) by (destruct bs; [reflexivity|cbn in HL; lia]). subst bs. destruct (list_eq_dec Nat.eq_dec [] []); [reflexivity|congruence].
      + rewrite skip_at by lia. destruct (list_eq_dec Nat.eq_dec [] (at' (S k) :: skipn (S k) xs)) as [D|D]; [discriminate D|reflexivity].
    - cbn [map fst] in HS. inversion HS as [|? ? HS' F]; subst.
      destruct (st_cases (S x0) x0 xs (Nat.lt_succ_diag_r x0) k z Hk) as [[E Es]|[(L & E & N & Es)|(N & N2 & Es)]].
      + transitivity (good k bs J); [unfold good; cbn [dv]; rewrite (proj2 (Nat.eqb_eq _ _) E), E; reflexivity|].
        rewrite (IH k bs Hk HL HS'). unfold chk. cbn [map snd lift liftj]. rewrite Es, last_cons. f_equal. apply forallb_ext'. intros c. f_equal.
        cbn [seen]. destruct (Rle_dec t (snd c)) as [B|B]; [reflexivity|]. apply (late t); assumption.
      + destruct bs as [|b bs]; [cbn in HL; lia|]. cbn [length] in HL.
        transitivity (Rleb t b && good (S k) bs J)%bool.
        * unfold good. cbn [dv]. rewrite (proj2 (Nat.eqb_neq _ _) N), (skip_at k L). cbn [map fst snd combine forallb]. rewrite E.
          destruct (list_eq_dec Nat.eq_dec (at' (S k) :: map snd (dv (at' (S k)) J)) (at' (S k) :: skipn (S k) xs)) as [D|D];
          destruct (list_eq_dec Nat.eq_dec (map snd (dv (at' (S k)) J)) (skipn (S k) xs)) as [D2|D2]; [reflexivity| | |rewrite andb_false_r; reflexivity].
          -- injection D as D. contradiction.
          -- rewrite D2 in D. congruence.
        * rewrite (IH (S k) bs L ltac:(lia) HS'). unfold chk. cbn [map snd lift liftj]. rewrite Es, last_cons. cbn [length seq combine forallb fst snd].
          rewrite andb_assoc, (andb_comm (Rleb t b)), <- andb_assoc. f_equal. f_equal.
          -- cbn [seen]. destruct (Rle_dec t b) as [B|B].
             ++ rewrite (proj2 (Rleb_true _ _) B). symmetry. apply Nat.leb_le. apply seen_ge. lia.
             ++ rewrite (proj2 (Rleb_false _ _)) by lra. symmetry. apply Nat.leb_gt. lia.
          -- apply forallb_in. intros [m c] Hm. apply in_combine_l in Hm. apply in_seq in Hm. cbn [fst snd seen].
             destruct (Rle_dec t c) as [B|B]; [reflexivity|]. rewrite (late t c J (S k) F B).
             rewrite (proj2 (Nat.leb_gt m (S k))), (proj2 (Nat.leb_gt m k)) by lia. reflexivity.
      + unfold good, chk. cbn [dv map snd lift]. rewrite Es, last_cons. pose proof (lift_dead (S x0) x0 xs (Nat.lt_succ_diag_r x0) (map snd J) (S K) ltac:(lia)) as B.
        rewrite (proj2 (Nat.eqb_neq (last (lift' (S K) (map snd J)) (S K)) K)) by lia. cbn [andb].
        rewrite (proj2 (Nat.eqb_neq _ _) N). cbn [map snd].
        match goal with |- (if list_eq_dec _ ?a ?b then _ else _) = _ => destruct (list_eq_dec Nat.eq_dec a b) as [D|D] end; [|reflexivity].
        destruct (Nat.eq_dec k K) as [EK|EK]; [subst k; rewrite skipn_all in D; discriminate D|]. rewrite skip_at in D by lia. injection D as D _. exfalso. exact (N2 ltac:(lia) D).
  Qed.
  Lemma goes_good : forall bs t0 J T, goes (x0 :: xs) bs (mk_skel (t0 :: map fst (dv x0 J)) (x0 :: map snd (dv x0 J)) T) = good 0 bs J.
  Proof.
    intros bs t0 J T. unfold goes, good. cbn [sk_t sk_x tl]. change (at' 0) with x0. change (skipn 0 xs) with xs.
    destruct (list_eq_dec Nat.eq_dec (x0 :: map snd (dv x0 J)) (x0 :: xs)) as [D|D]; destruct (list_eq_dec Nat.eq_dec (map snd (dv x0 J)) xs) as [D2|D2]; try reflexivity.
    - injection D as D. contradiction.
    - rewrite D2 in D. congruence.
  Qed.
  Lemma chk_tups : forall bs J, ind (chk 0 bs J) =
    lsum (fun o => ind (forallb (fun p => Nat.eqb (seen 0 (liftj 0 J) (fst p)) (snd p)) o && Nat.eqb (last (lift' 0 (map snd J)) 0%nat) K)) (tups K 1 bs).
  Proof.
    intros bs J. unfold chk. rewrite ind_and. rewrite (lsum_ext _ _ (fun o => ind (Nat.eqb (last (lift' 0 (map snd J)) 0%nat) K) * ind (forallb (fun p => Nat.eqb (seen 0 (liftj 0 J) (fst p)) (snd p)) o))).
    2:{ intros o _. rewrite ind_and. ring. }
    rewrite lsum_scal. destruct (Nat.eqb_spec (last (lift' 0 (map snd J)) 0%nat) K) as [E|E]; [|cbn [ind]; ring]. f_equal.
    symmetry. apply (lsum_tups K (fun u => seen 0 (liftj 0 J) u)). intros u. apply seen_low. exact E.
  Qed.
End Entries.
