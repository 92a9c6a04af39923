(** sample_aug: the augmentation of a regime path. *)
From Coq Require Import Reals List Bool Arith ZArith Lia Lra Sorted.
From Verif Require Import Base Np Rng M_mjp M_path M_skel M_seed M_sw SpecMjp SpecSw.
From Verif Require Import L_rng L_list L_path L_path2 L_part L_prop L_occ L_adapt2 L_ars2 L_sde L_sde2 L_sw L_sw2.
Import ListNotations.
Local Open Scope R_scope.
Notation sk_t := M_mjp.sk_t.
Notation sk_x := M_mjp.sk_x.
Notation sk_fin := M_mjp.sk_fin.

Lemma brownbr_len G t T a b : returns_if G (sample_brownbr t T a b) (fun x => length x = length t).
Proof.
  unfold sample_brownbr. eapply returns_bind with (Q := fun _ => True); [apply returns_lift; auto|]. intros m _.
  eapply returns_bind with (Q := fun _ => True); [apply returns_lift; auto|]. intros m' _.
  eapply returns_bind with (Q := fun _ => True); [apply returns_assert; auto|]. intros _ _.
  eapply returns_bind with (Q := fun w => length (nth 0 w []) = length t).
  - unfold sample_wiener. eapply returns_bind with (Q := fun _ => True); [apply returns_lift; auto|]. intros q _.
    eapply returns_bind with (Q := fun _ => True); [apply returns_assert; auto|]. intros _ _.
    eapply returns_bind; [apply total_returns, total_draw_rs|]. intros z Hz. apply returns_ret. cbn [length seq map nth].
    unfold brownbr_times. rewrite wiener_coord_length; [apply map_length|]. unfold col. rewrite map_length, seq_length. reflexivity.
  - intros w Hw. apply returns_ret. rewrite map_length, combine_length, Hw. apply Nat.min_id.
Qed.
Lemma anchors_ok G vol t yt fin a b : length t = length yt -> t <> [] ->
  returns_if G (sample_anchors vol t yt fin a b) (fun xs => length xs = length t /\ exists r, xs = a :: r).
Proof.
  intros HL HN. unfold sample_anchors. destruct (Nat.eqb (length t) 1) eqn:E.
  - apply Nat.eqb_eq in E. apply returns_ret. rewrite E. split; [reflexivity|eauto].
  - eapply returns_bind with (Q := fun _ => True); [apply returns_lift_opt; auto|]. intros s _.
    eapply returns_bind; [apply brownbr_len|]. intros xt Hx. apply returns_ret. split; [|eauto]. cbn [length]. rewrite Hx, removelast_len, cumsum_0, cumsum_from_seq.
    rewrite map_length, seq_length, map_length, combine_length, np_diff_length, app_length. cbn [length]. destruct t; [congruence|]. simpl in *. lia.
Qed.

Section Aug.
Context (y : jump_path) (W : wf_skel y).
Let Hs := proj1 W.
Fixpoint incr (a : R) (l : list R) : Prop := match l with [] => True | b :: r => a < b /\ incr b r end.
Lemma incr_sorted a l : StronglySorted Rlt (a :: l) -> incr a l.
Proof. revert a; induction l as [|b l IH]; intros a H; simpl; auto. inversion H as [|? ? H1 H2]; subst. inversion H2; subst. split; auto. Qed.
Fixpoint augK (l : list R) (xs : list (list R)) : list ent :=
  match l, xs with
  | a :: ((b :: _) as r), x :: xs' => combine (map (shift a) (jumps (piece y a b))) x ++ augK r xs'
  | _, _ => []
  end.
Definition anchored (l vs : list R) (xs : list (list R)) : Prop :=
  Forall2 (fun p x => length x = length (sk_t (fst (fst p))) /\ exists r, x = snd (fst p) :: r) (zip3 (pieces y l) vs (tl vs)) xs.
Lemma pieces_two a b r : pieces y (a :: b :: r) = piece y a b :: pieces y (b :: r).
Proof. reflexivity. Qed.
Lemma piece_start a b : 0 <= a -> a <= b -> exists x r, jumps (piece y a b) = (0, x) :: r.
Proof. intros Ha Hb. destruct (look_J_total y Hs a Ha) as [xa Hx]. rewrite (piece_jumps y Hs a b xa) by auto. eauto. Qed.
Lemma piece_lens a b : 0 <= a -> a <= b -> length (sk_t (piece y a b)) = length (sk_x (piece y a b)).
Proof.
  intros Ha Hb. destruct (look_J_total y Hs a Ha) as [xa Hx]. destruct (piece_eq y Hs a b xa Ha Hb Hx) as [-> ->].
  cbn [length]. rewrite !map_length. reflexivity.
Qed.
Lemma combine_fst_len {A B} (l : list A) (m : list B) : length m = length l -> map fst (combine l m) = l.
Proof. revert m; induction l as [|a l IH]; intros [|b m] H; simpl in *; try discriminate; auto. f_equal; auto. Qed.
Lemma combine_snd_len {A B} (l : list A) (m : list B) : length m = length l -> map snd (combine l m) = m.
Proof. revert m; induction l as [|a l IH]; intros [|b m] H; simpl in *; try discriminate; auto. f_equal; auto. Qed.
Lemma jumps_len a b : 0 <= a -> a <= b -> length (jumps (piece y a b)) = length (sk_t (piece y a b)).
Proof. intros Ha Hb. unfold jumps. rewrite combine_length, <- piece_lens by auto. apply Nat.min_id. Qed.

Lemma aug_lists l : forall a vs xs, 0 <= a -> incr a l -> length vs = S (length l) -> anchored (a :: l) vs xs ->
  map fst (augK (a :: l) xs) = raw a (pieces y (a :: l)) /\
  map tm (augK (a :: l) xs) = concat (map (fun p => map (Rplus (fst p)) (sk_t (snd p))) (combine (a :: l) (pieces y (a :: l)))) /\
  map st (augK (a :: l) xs) = concat (map (fun s => sk_x s) (pieces y (a :: l))) /\
  map vl (augK (a :: l) xs) = concat xs.
Proof.
  induction l as [|b l IH]; intros a vs xs Ha HI HV HA.
  - destruct vs as [|v [|]]; try discriminate. cbn in HA. inversion HA; subst. repeat split; reflexivity.
  - destruct HI as [Hab HI]. destruct vs as [|v [|v' vs]]; try discriminate.
    unfold anchored in HA. rewrite pieces_two in HA. cbn [tl zip3 combine] in HA. unfold zip3 in HA. cbn [combine] in HA.
    inversion HA as [|p x ps xs' [Hx _] HA']; subst. cbn [fst] in Hx.
    destruct (IH b (v' :: vs) xs' ltac:(lra) HI ltac:(simpl in *; lia)) as (I1 & I2 & I3 & I4).
    { unfold anchored, zip3. exact HA'. }
    change (augK (a :: b :: l) (x :: xs')) with (combine (map (shift a) (jumps (piece y a b))) x ++ augK (b :: l) xs').
    assert (LX : length x = length (map (shift a) (jumps (piece y a b)))) by (rewrite map_length, jumps_len by lra; auto).
    rewrite pieces_two. change (combine (a :: b :: l) (piece y a b :: pieces y (b :: l))) with ((a, piece y a b) :: combine (b :: l) (pieces y (b :: l))).
    cbn [raw map concat fst snd]. rewrite !map_app, I1, I2, I3, I4. repeat split.
    + rewrite combine_fst_len by auto. f_equal. f_equal. change (sk_fin (piece y a b)) with (b - a). lra.
    + f_equal. rewrite map_tm, combine_fst_len by auto. rewrite map_map. unfold shift. cbn [fst].
      rewrite <- (map_map fst (Rplus a)). f_equal. unfold jumps. apply combine_fst_len. symmetry. apply piece_lens; lra.
    + f_equal. rewrite map_st, combine_fst_len by auto. rewrite map_map. unfold shift. cbn [snd]. unfold jumps. apply combine_snd_len. symmetry. apply piece_lens; lra.
    + f_equal. unfold vl. apply combine_snd_len; auto.
Qed.
Lemma aug_data l : forall a vs xs u v, 0 <= a -> incr a l -> length vs = S (length l) -> anchored (a :: l) vs xs ->
  In (u, v) (combine (a :: l) vs) -> (exists e, In e (augK (a :: l) xs) /\ tm e = u /\ vl e = v) \/ (u = last (a :: l) 0 /\ v = last vs 0).
Proof.
  induction l as [|b l IH]; intros a vs xs u v Ha HI HV HA H.
  - destruct vs as [|w [|]]; try discriminate. destruct H as [H|[]]. inversion H; subst. right. auto.
  - destruct HI as [Hab HI]. destruct vs as [|w [|v' vs]]; try discriminate.
    unfold anchored in HA. rewrite pieces_two in HA. unfold zip3 in HA. cbn [tl combine] in HA.
    inversion HA as [|p x ps xs' [Hx [r Hr]] HA']; subst. cbn [fst snd] in *.
    destruct H as [H|H].
    + inversion H; subst. left. destruct (piece_start u b ltac:(lra) ltac:(lra)) as (x0 & q & E).
      exists (u + 0, x0, v). split; [|unfold tm, vl; simpl; split; [lra|auto]].
      change (augK (u :: b :: l) ((v :: r) :: xs')) with (combine (map (shift u) (jumps (piece y u b))) (v :: r) ++ augK (b :: l) xs'). rewrite E. left. reflexivity.
    + destruct (IH b (v' :: vs) xs' u v ltac:(lra) HI ltac:(simpl in *; lia)) as [(e & He & E1 & E2)|[E1 E2]].
      * unfold anchored, zip3. exact HA'.
      * exact H.
      * left. exists e. split; [|auto]. change (augK (a :: b :: l) ((w :: r) :: xs')) with (combine (map (shift a) (jumps (piece y a b))) (w :: r) ++ augK (b :: l) xs').
        apply in_or_app; right; auto.
      * right. split; auto.
Qed.
Lemma adj_snoc {A} (a b m : A) p : adj a b (p ++ [m]) -> adj a b p \/ (b = m /\ exists q, p = q ++ [a]).
Proof.
  intros (q & r & E). destruct r as [|x r] using rev_ind.
  - replace (q ++ [a; b]) with ((q ++ [a]) ++ [b]) in E by (rewrite <- app_assoc; reflexivity). apply app_inj_tail in E as [E ->]. right. eauto.
  - clear IHr. replace (q ++ a :: b :: r ++ [x]) with ((q ++ a :: b :: r) ++ [x]) in E by (rewrite <- app_assoc; reflexivity).
    apply app_inj_tail in E as [-> ->]. left. exists q, r. reflexivity.
Qed.
Lemma no_repeat_adj (l : list (R * nat)) a b : no_repeat (map snd l) -> adj a b l -> snd a <> snd b.
Proof.
  intros H (p & r & ->). apply (H (length p)); rewrite map_app.
  - rewrite nth_error_app2 by (rewrite map_length; lia). rewrite map_length, Nat.sub_diag. reflexivity.
  - rewrite nth_error_app2 by (rewrite map_length; lia). rewrite map_length. replace (S (length p) - length p)%nat with 1%nat by lia. reflexivity.
Qed.
Lemma raw_adj l : forall a q q', 0 <= a -> incr a l -> adj q q' (raw a (pieces y (a :: l))) -> snd q = snd q' -> In (fst q') (removelast l).
Proof.
  induction l as [|b l IH]; intros a q q' Ha HI H Hq.
  - destruct (adj_nil _ _ H).
  - destruct HI as [Hab HI]. rewrite pieces_two in H. cbn [raw] in H. change (sk_fin (piece y a b)) with (b - a) in H. replace (a + (b - a)) with b in H by lra.
    assert (NB : forall x x', adj x x' (map (shift a) (jumps (piece y a b))) -> snd x <> snd x').
    { intros x x'. apply no_repeat_adj. rewrite map_map. unfold shift. cbn [snd]. unfold jumps. rewrite combine_snd_len by (symmetry; apply piece_lens; lra).
      apply piece_no_repeat; auto; try lra. apply W. }
    destruct l as [|c l].
    + cbn [pieces raw] in H. rewrite app_nil_r in H. destruct (NB _ _ H Hq).
    + assert (ER : exists x r, raw b (pieces y (b :: c :: l)) = (b + 0, x) :: r).
      { rewrite pieces_two. cbn [raw]. destruct HI as [Hbc _]. destruct (piece_start b c ltac:(lra) ltac:(lra)) as (x & r & E). rewrite E. simpl. unfold shift at 1. simpl. eauto. }
      destruct ER as (x & r & ER). rewrite ER in H. change (removelast (b :: c :: l)) with (b :: removelast (c :: l)).
      apply adj_app_inv in H as [H|H].
      * apply adj_snoc in H as [H|[-> _]]; [destruct (NB _ _ H Hq)|]. left. simpl. lra.
      * right. apply (IH b q q'); auto; [lra|]. rewrite ER. exact H.
Qed.
Lemma dv_last i J : last (map snd (dv i J)) i = last (map snd J) i.
Proof.
  revert i; induction J as [|[u s] J IH]; intros i; [reflexivity|].
  assert (G : forall (l : list nat) s d, last (s :: l) d = last l s).
  { clear. induction l as [|x l IHl]; intros; [reflexivity|]. change (last (x :: l) d = last (x :: l) s). rewrite !IHl. reflexivity. }
  cbn [dv map snd]. rewrite G. destruct (Nat.eqb s i) eqn:E.
  - apply Nat.eqb_eq in E; subst. apply IH.
  - cbn [map snd]. rewrite G. apply IH.
Qed.
End Aug.
Lemma sorted_last_pos t vt fin : obs_grid t vt fin -> 0 < last t 0.
Proof.
  intros [H1 H2 H3 H4 H5]. destruct t as [|a t]; [simpl in H2; lia|]. simpl in H4. inversion H4; subst a. destruct t as [|b t] using rev_ind; [simpl in H2; lia|].
  change (0 :: t ++ [b]) with ((0 :: t) ++ [b]). rewrite last_last. inversion H3 as [|? ? Q1 Q2]; subst. rewrite Forall_forall in Q2. apply Q2. apply in_or_app; right; left; auto.
Qed.
Lemma grid_shape t vt fin : obs_grid t vt fin -> exists m, t = 0 :: m ++ [fin] /\ pyslice t 1 (-1) = m /\ incr 0 (m ++ [fin]).
Proof.
  intros [H1 H2 H3 H4 H5]. destruct t as [|a t]; [simpl in H2; lia|]. simpl in H4. inversion H4; subst a. destruct t as [|b t] using rev_ind; [simpl in H2; lia|].
  change (0 :: t ++ [b]) with ((0 :: t) ++ [b]) in H5. rewrite last_last in H5. subst b. exists t. split; [reflexivity|]. split; [apply inner_slice|]. apply incr_sorted; auto.
Qed.
Lemma partition_raw y m : wf_skel y -> StronglySorted Rlt (0 :: m ++ [sk_fin y]) ->
  devirt (raw 0 (pieces y (0 :: m ++ [sk_fin y]))) = jumps y /\ Forall timed (pieces y (0 :: m ++ [sk_fin y])).
Proof.
  intros W HS. destruct (sorted_inner _ _ _ HS) as [SM IM].
  assert (FT : Forall timed (pieces y (0 :: m ++ [sk_fin y]))).
  { apply incr_sorted in HS. assert (G : forall l a, 0 <= a -> incr a l -> Forall timed (pieces y (a :: l))); [|apply G; auto; lra].
    clear -W. induction l as [|b l IH]; intros a Ha HI; [constructor|]. destruct HI as [Hab HI]. rewrite pieces_two. constructor; [apply piece_timed; auto; apply W|]. apply IH; auto; lra. }
  split; [|exact FT].
  assert (RT := roundtrip y (proj1 W) (proj2 W) m (SS_lt_le _ SM)). rewrite partition_pieces in RT.
  rewrite paste_eq in RT.
  - assert (EF : filter positive (pieces y (0 :: m ++ [sk_fin y])) = pieces y (0 :: m ++ [sk_fin y])).
    { clear RT. induction FT as [|p ps Hp FT IH]; [reflexivity|]. simpl. rewrite IH. replace (positive p) with true; [reflexivity|]. symmetry. apply positive_spec. pose proof (timed_pos p Hp). lra. }
    rewrite EF in RT. specialize (RT ltac:(intros b Hb; specialize (IM b Hb); lra)).
    destruct (pieces y (0 :: m ++ [sk_fin y])) as [|p ps] eqn:EP; [discriminate|].
    injection RT as RT'. unfold pasted in RT'. apply (f_equal jumps) in RT'. unfold jumps at 1 in RT'. cbn [M_mjp.sk_t M_mjp.sk_x] in RT'.
    rewrite <- RT'. clear. generalize (devirt (raw 0 (p :: ps))). intros l. induction l as [|[a b] l IH]; simpl; [reflexivity|]. rewrite <- IH. reflexivity.
  - intros p Hp _. rewrite Forall_forall in FT. apply timed_len_t. auto.
Qed.
