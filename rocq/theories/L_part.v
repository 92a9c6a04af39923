(** Lemmas about partition_skeleton and its round trip with paste_partition. *)
From Coq Require Import Reals List ZArith Bool Arith Lia Lra Sorted.
From Verif Require Import Base Np Rng Mat M_mjp SpecMjp L_list L_path.
Import ListNotations.
Local Open Scope R_scope.

Definition piece (s : skel R) (a b : R) : skel R :=
  let i0 := searchsorted_right (sk_t s) a in
  let i1 := searchsorted_left (sk_t s) b in
  let t_ := 0 :: map (fun u => u - a) (pyslice (sk_t s) (Z.of_nat i0) (Z.of_nat i1)) in
  mk_skel t_ (pyslice (sk_x s) (Z.of_nat i0 - 1) (Z.of_nat i0 - 1 + Z.of_nat (length t_))) (b - a).
Fixpoint pieces (s : skel R) (l : list R) : list (skel R) :=
  match l with
  | a :: ((b :: _) as r) => piece s a b :: pieces s r
  | _ => []
  end.

Lemma partition_pieces s bs : partition_skeleton s bs = pieces s (0 :: bs ++ [sk_fin s]).
Proof.
  unfold partition_skeleton. change (n0 (T:=R)) with 0.
  generalize (0 :: bs ++ [sk_fin s]); intros l. generalize (sk_fin s) at 1; intros e.
  assert (G : forall l, map (fun p => let '(t_, x_, fin_t) := p in mk_skel t_ x_ fin_t)
    (zip3
       (map (fun p : R * nat * nat => let '(init_t, i0, i1) := p in
            0 :: map (fun u : R => nsub u init_t) (pyslice (sk_t s) (Z.of_nat i0) (Z.of_nat i1)))
          (zip3 l (map (searchsorted_right (sk_t s)) l) (tl (map (searchsorted_left (sk_t s)) l))))
       (map (fun p : nat * list R => let '(i0, t_) := p in
            pyslice (sk_x s) (Z.of_nat i0 - 1) (Z.of_nat i0 - 1 + Z.of_nat (length t_)))
          (combine (map (searchsorted_right (sk_t s)) l)
             (map (fun p : R * nat * nat => let '(init_t, i0, i1) := p in
                  0 :: map (fun u : R => nsub u init_t) (pyslice (sk_t s) (Z.of_nat i0) (Z.of_nat i1)))
                (zip3 l (map (searchsorted_right (sk_t s)) l) (tl (map (searchsorted_left (sk_t s)) l))))))
       (np_diff (l ++ [e]))) = pieces s l).
  2: apply G.
  clear l. induction l as [|a l IH]; auto.
  destruct l as [|b l]; auto.
  specialize (IH). revert IH. unfold zip3. cbn [map tl combine app np_diff pieces].
  intros IH. rewrite <- IH. reflexivity.
Qed.

Definition between (a b : R) (p : R * nat) : bool := Rltb a (fst p) && Rltb (fst p) b.

Lemma filter_fst_len (f : R -> bool) (t : list R) (x : list nat) : length t = length x ->
  length (filter f t) = length (filter (fun p => f (fst p)) (combine t x)).
Proof.
  intros HL. rewrite <- (map_combine_fst t x HL) at 1.
  rewrite filter_map_comm, map_length. reflexivity.
Qed.

Lemma firstn_len_firstn {A} n (l : list A) : firstn (length (firstn n l)) l = firstn n l.
Proof.
  rewrite firstn_length. destruct (Nat.le_ge_cases n (length l)) as [H|H].
  - rewrite Nat.min_l; auto.
  - rewrite Nat.min_r by auto. rewrite firstn_all, firstn_all2; auto.
Qed.

Section Wf.
Variable s : skel R.
Hypothesis Hs : timed s.
Let J := jumps s.

Lemma J_sorted : StronglySorted (fun p q => fst p < fst q) J.
Proof.
  assert (H : StronglySorted Rlt (map fst J)).
  { unfold J, jumps. rewrite map_combine_fst; [apply (td_sorted s Hs)|apply (td_len s Hs)]. }
  clearbody J. induction J as [|p l IH]; [constructor|].
  simpl in H. inversion H as [|? ? H1 F]; subst. constructor; auto.
  rewrite Forall_map in F. auto.
Qed.
Lemma J_dc_le a : down_closed (fun p => Rleb (fst p) a) J.
Proof.
  eapply sorted_down_closed; [apply J_sorted|]. simpl. intros p q H.
  rewrite !Rleb_false. lra.
Qed.
Lemma J_dc_lt a : down_closed (fun p => Rltb (fst p) a) J.
Proof.
  eapply sorted_down_closed; [apply J_sorted|]. simpl. intros p q H.
  rewrite !Rltb_false. lra.
Qed.
Lemma J_split a : J = filter (fun p => Rleb (fst p) a) J ++ filter (fun p => Rltb a (fst p)) J.
Proof.
  destruct (filter_prefix _ _ (J_dc_le a)) as [H1 H2].
  rewrite <- (firstn_skipn (length (filter (fun p => Rleb (fst p) a) J)) J) at 1.
  rewrite H1, H2. f_equal. apply filter_ext. intros p.
  destruct (Rleb_dec (fst p) a) as [[? ->]|[? ->]]; simpl; symmetry;
    [apply Rltb_false|apply Rltb_true]; lra.
Qed.
Lemma J_split_lt a : J = filter (fun p => Rltb (fst p) a) J ++ filter (fun p => Rleb a (fst p)) J.
Proof.
  destruct (filter_prefix _ _ (J_dc_lt a)) as [H1 H2].
  rewrite <- (firstn_skipn (length (filter (fun p => Rltb (fst p) a) J)) J) at 1.
  rewrite H1, H2. f_equal. apply filter_ext. intros p.
  destruct (Rltb_dec (fst p) a) as [[? ->]|[? ->]]; simpl; symmetry;
    [apply Rleb_false|apply Rleb_true]; lra.
Qed.

Lemma J_first : exists x r, J = (0, x) :: r.
Proof. apply timed_jumps; auto. Qed.

Lemma J_le_nonempty a : 0 <= a -> exists A' ta xa,
  filter (fun p => Rleb (fst p) a) J = A' ++ [(ta, xa)] /\ ta <= a.
Proof.
  intros Ha. destruct J_first as (x & r & E).
  destruct (filter (fun p => Rleb (fst p) a) J) as [|p l] eqn:F.
  - exfalso. assert (In (0, x) (filter (fun p => Rleb (fst p) a) J)).
    { apply filter_In; rewrite E; split; [simpl; auto|apply Rleb_true; auto]. }
    rewrite F in H; auto.
  - destruct (exists_last (l := p :: l)) as [A' [[ta xa] EA]]; [discriminate|].
    rewrite EA in F |- *. exists A', ta, xa; split; auto.
    assert (In (ta, xa) (filter (fun p => Rleb (fst p) a) J)) by (rewrite F; apply in_app_iff; simpl; auto).
    apply filter_In in H as [_ H]. apply Rleb_true in H; auto.
Qed.

Lemma look_J a A' ta xa : filter (fun p => Rleb (fst p) a) J = A' ++ [(ta, xa)] ->
  look None J a = Some xa.
Proof.
  intros F. rewrite (J_split a), F.
  assert (HA : forall p, In p (A' ++ [(ta, xa)]) -> fst p <= a).
  { rewrite <- F. intros p Hp. apply filter_In in Hp as [_ Hp]. apply Rleb_true in Hp; auto. }
  rewrite look_app by auto. rewrite look_late.
  - rewrite look_app by (intros; apply HA; apply in_app_iff; auto). simpl.
    assert (ta <= a) by (apply (HA (ta, xa)); apply in_app_iff; simpl; auto).
    destruct (Rleb_dec ta a) as [[_ ->]|[? ?]]; [auto|lra].
  - intros p Hp. apply filter_In in Hp as [_ Hp]. apply Rltb_true in Hp; auto.
Qed.

Lemma slice_between a b : a <= b ->
  firstn (length (filter (fun p => Rltb (fst p) b) J) - length (filter (fun p => Rleb (fst p) a) J))
    (skipn (length (filter (fun p => Rleb (fst p) a) J)) J) = filter (between a b) J.
Proof.
  intros Hab. destruct (filter_prefix _ _ (J_dc_le a)) as [_ H2]. rewrite H2.
  assert (E2 : filter (fun p => negb (Rleb (fst p) a)) J = filter (fun p => Rltb a (fst p)) J).
  { apply filter_ext. intros p. destruct (Rleb_dec (fst p) a) as [[? ->]|[? ->]]; simpl; symmetry;
    [apply Rltb_false|apply Rltb_true]; lra. }
  rewrite E2. clear E2 H2.
  destruct Hab as [Hab|<-].
  - assert (E : length (filter (fun p => Rltb (fst p) b) J) =
      (length (filter (fun p => Rleb (fst p) a) J) + length (filter (between a b) J))%nat).
    { rewrite (J_split a) at 1. rewrite filter_app, app_length, !filter_filter. f_equal.
      f_equal. apply filter_ext. intros p.
      destruct (Rleb_dec (fst p) a) as [[? ->]|[? ->]]; simpl; auto. apply Rltb_true; lra. }
    rewrite E. replace (_ + _ - _)%nat with (length (filter (between a b) J)) by lia.
    assert (D : down_closed (fun p => Rltb (fst p) b) (filter (fun p => Rltb a (fst p)) J)).
    { eapply sorted_down_closed; [apply StronglySorted_filter, J_sorted|]. simpl. intros p q H.
      rewrite !Rltb_false. lra. }
    destruct (filter_prefix _ _ D) as [F _]. rewrite filter_filter in F. exact F.
  - rewrite (filter_none (between a a) J).
    + replace (_ - _)%nat with 0%nat; [reflexivity|].
      assert (length (filter (fun p => Rltb (fst p) a) J) <= length (filter (fun p => Rleb (fst p) a) J))%nat; [|lia].
      clear. clearbody J. induction J as [|p l IH]; simpl; auto.
      destruct (Rltb_dec (fst p) a) as [[? ->]|[? ->]], (Rleb_dec (fst p) a) as [[? ->]|[? ->]]; simpl; try lia; lra.
    + intros p _. unfold between. destruct (Rltb_dec a (fst p)) as [[? ->]|[? ->]]; auto.
      simpl. apply Rltb_false; lra.
Qed.

Lemma piece_eq a b xa : 0 <= a -> a <= b -> look None J a = Some xa ->
  sk_t (piece s a b) = 0 :: map (fun u => u - a) (map fst (filter (between a b) J)) /\
  sk_x (piece s a b) = xa :: map snd (filter (between a b) J).
Proof.
  intros Ha Hab Hx. destruct (J_le_nonempty a Ha) as (A' & ta & xa' & F & Hta).
  rewrite (look_J _ _ _ _ F) in Hx. inversion Hx; subst xa'; clear Hx.
  assert (HL := td_len s Hs).
  assert (E0 : searchsorted_right (sk_t s) a = length (filter (fun p => Rleb (fst p) a) J)).
  { unfold searchsorted_right. apply (filter_fst_len (fun u => Rleb u a)); auto. }
  assert (E1 : searchsorted_left (sk_t s) b = length (filter (fun p => Rltb (fst p) b) J)).
  { unfold searchsorted_left. apply (filter_fst_len (fun u => Rltb u b)); auto. }
  assert (HJ : length J = length (sk_t s)) by (unfold J, jumps; rewrite combine_length; lia).
  assert (FL : forall f, (length (filter f J) <= length J)%nat).
  { intros f. clear. clearbody J. induction J as [|p l IH]; simpl; auto. destruct (f p); simpl; lia. }
  assert (ET : pyslice (sk_t s) (Z.of_nat (searchsorted_right (sk_t s) a)) (Z.of_nat (searchsorted_left (sk_t s) b))
     = map fst (filter (between a b) J)).
  { rewrite E0, E1. rewrite pyslice_nat by (rewrite <- HJ; apply FL).
    rewrite <- (slice_between a b Hab). rewrite <- firstn_map, <- skipn_map.
    replace (map fst J) with (sk_t s) by (unfold J, jumps; rewrite map_combine_fst; auto). reflexivity. }
  unfold piece. cbn [sk_t sk_x]. rewrite ET. split; auto.
  rewrite E0. cbn [length]. rewrite !map_length. rewrite F, app_length. cbn [length].
  replace (Z.of_nat (length A' + 1) - 1)%Z with (Z.of_nat (length A')) by lia.
  rewrite <- Nat2Z.inj_add.
  assert (EJ : J = A' ++ (ta, xa) :: filter (fun p => Rltb a (fst p)) J).
  { rewrite (J_split a) at 1. rewrite F, <- app_assoc. reflexivity. }
  set (K := filter (fun p => Rltb a (fst p)) J) in *.
  set (S := filter (between a b) J) in *.
  assert (ES : exists m, S = firstn m K).
  { unfold S. rewrite <- (slice_between a b Hab). rewrite F, app_length; cbn [length].
    assert (SK : skipn (length A' + 1) J = K).
    { rewrite EJ. replace (length A' + 1)%nat with (length (A' ++ [(ta, xa)])) by (rewrite app_length; auto).
      change ((ta, xa) :: K) with ([(ta, xa)] ++ K). rewrite app_assoc.
      rewrite skipn_app, skipn_all, Nat.sub_diag. reflexivity. }
    rewrite SK. eexists; reflexivity. }
  destruct ES as [m ES].
  assert (LS : (length S <= length K)%nat) by (rewrite ES, firstn_length; lia).
  assert (LJ : length J = (length A' + 1 + length K)%nat).
  { rewrite EJ at 1. rewrite app_length; simpl; lia. }
  rewrite pyslice_nat by lia.
  replace (length A' + Datatypes.S (length S) - length A')%nat with (Datatypes.S (length S)) by lia.
  assert (EX : sk_x s = map snd J) by (unfold J, jumps; rewrite map_combine_snd; auto).
  rewrite EX, EJ, skipn_map, skipn_app, skipn_all, Nat.sub_diag. cbn [app skipn].
  rewrite firstn_map. cbn [firstn map]. f_equal. f_equal. rewrite ES. apply firstn_len_firstn.
Qed.

Lemma piece_jumps a b xa : 0 <= a -> a <= b -> look None J a = Some xa ->
  jumps (piece s a b) = (0, xa) :: map (shift (- a)) (filter (between a b) J).
Proof.
  intros Ha Hab Hx. destruct (piece_eq a b xa Ha Hab Hx) as [E1 E2].
  unfold jumps at 1. rewrite E1, E2. cbn [combine]. f_equal.
  rewrite combine_map_l, combine_fst_snd. apply map_ext. intros p. unfold shift. f_equal. lra.
Qed.

Lemma look_J_total a : 0 <= a -> exists xa, look None J a = Some xa.
Proof.
  intros Ha. destruct (J_le_nonempty a Ha) as (A' & ta & xa & F & _). exists xa. eapply look_J; eauto.
Qed.

Lemma piece_timed a b : 0 <= a -> a < b -> timed (piece s a b).
Proof.
  intros Ha Hab. destruct (look_J_total a Ha) as [xa Hx].
  destruct (piece_eq a b xa Ha (Rlt_le _ _ Hab) Hx) as [E1 E2].
  constructor; rewrite ?E1, ?E2.
  - simpl. rewrite !map_length; auto.
  - reflexivity.
  - constructor.
    + eapply StronglySorted_map with (P := Rlt); [intros; lra|].
      eapply StronglySorted_map; [|apply StronglySorted_filter, J_sorted]. simpl; auto.
    + rewrite Forall_forall. intros t Ht. apply in_map_iff in Ht as (u & <- & Hu).
      apply in_map_iff in Hu as (p & <- & Hp). apply filter_In in Hp as [_ Hp].
      unfold between in Hp. apply andb_true_iff in Hp as [H1 _]. apply Rltb_true in H1. lra.
  - simpl. intros t [<-|Ht]; [lra|]. apply in_map_iff in Ht as (u & <- & Hu).
    apply in_map_iff in Hu as (p & <- & Hp). apply filter_In in Hp as [_ Hp].
    unfold between in Hp. apply andb_true_iff in Hp as [_ H1]. apply Rltb_true in H1. lra.
Qed.

Lemma look_filter_between c a b u : a <= u -> u < b ->
  look c (filter (between a b) J) u = look c (filter (fun p => Rltb a (fst p)) J) u.
Proof.
  intros Hau Hub.
  assert (E : filter (fun p => Rltb a (fst p)) J =
    filter (between a b) J ++ filter (fun p => Rltb a (fst p) && Rleb b (fst p)) J).
  { assert (D : down_closed (fun p => Rltb (fst p) b) (filter (fun p => Rltb a (fst p)) J)).
    { eapply sorted_down_closed; [apply StronglySorted_filter, J_sorted|]. simpl. intros p q H.
      rewrite !Rltb_false. lra. }
    destruct (filter_prefix _ _ D) as [F G].
    rewrite <- (firstn_skipn (length (filter (fun p => Rltb (fst p) b) (filter (fun p => Rltb a (fst p)) J)))
                  (filter (fun p => Rltb a (fst p)) J)) at 1.
    rewrite F, G, !filter_filter. f_equal. apply filter_ext. intros p. f_equal.
    destruct (Rltb_dec (fst p) b) as [[? ->]|[? ->]]; simpl; symmetry;
      [apply Rleb_false|apply Rleb_true]; lra. }
  rewrite E. symmetry. apply look_app_late. intros p Hp. apply filter_In in Hp as [_ Hp].
  apply andb_true_iff in Hp as [_ Hp]. apply Rleb_true in Hp. lra.
Qed.

Lemma look_after a u xa : 0 <= a -> a <= u -> look None J a = Some xa ->
  look None J u = look (Some xa) (filter (fun p => Rltb a (fst p)) J) u.
Proof.
  intros Ha Hau Hx. rewrite (J_split a) at 1. rewrite look_app.
  - f_equal. destruct (J_le_nonempty a Ha) as (A' & ta & xa' & F & Hta).
    rewrite (look_J _ _ _ _ F) in Hx. inversion Hx; subst xa'. rewrite F, look_app.
    + simpl. destruct (Rleb_dec ta u) as [[_ ->]|[? ?]]; [auto|lra].
    + intros p Hp. assert (In p (filter (fun p => Rleb (fst p) a) J)) by (rewrite F; apply in_app_iff; auto).
      apply filter_In in H as [_ H]. apply Rleb_true in H. lra.
  - intros p Hp. apply filter_In in Hp as [_ H]. apply Rleb_true in H. lra.
Qed.

Lemma piece_look a b u : 0 <= a -> 0 <= u -> u < b - a ->
  look None (jumps (piece s a b)) u = look None J (a + u).
Proof.
  intros Ha Hu Hub. destruct (look_J_total a Ha) as [xa Hx].
  rewrite (piece_jumps a b xa) by (auto; lra). simpl.
  destruct (Rleb_dec 0 u) as [[_ ->]|[? ?]]; [|lra].
  rewrite (look_after a (a + u) xa) by (auto; lra).
  rewrite <- (look_filter_between (Some xa) a b) by lra.
  replace u with (- a + (a + u)) at 1 by lra. apply look_map_shift.
Qed.

Lemma piece_state a b u i : 0 <= a -> 0 <= u -> u < b - a ->
  (state_at (piece s a b) u i <-> state_at s (a + u) i).
Proof.
  intros Ha Hu Hub. assert (T : timed (piece s a b)) by (apply piece_timed; lra).
  rewrite (state_at_look (piece s a b)) by (try apply SS_lt_le; apply T).
  rewrite (state_at_look s) by (try apply SS_lt_le; apply Hs).
  rewrite piece_look by auto. reflexivity.
Qed.

(** ** Round trip *)
Hypothesis Hn : no_repeat (sk_x s).

Lemma nr_last_app (l1 l2 : list nat) d : l1 <> [] -> no_repeat (l1 ++ l2) -> nr (last l1 d) l2.
Proof.
  revert d; induction l1 as [|a l1 IH]; intros d H; [congruence|]. intros HN.
  rewrite last_cons'. destruct l1 as [|b l1].
  - apply nr_no_repeat in HN. auto.
  - apply IH; [discriminate|]. eapply no_repeat_tl; eauto.
Qed.
Lemma no_repeat_app_l (l1 l2 : list nat) : no_repeat (l1 ++ l2) -> no_repeat l1.
Proof.
  intros H i a b Ha Hb. apply (H i a b).
  - rewrite nth_error_app1; auto. apply nth_error_Some; congruence.
  - rewrite nth_error_app1; auto. apply nth_error_Some; congruence.
Qed.

Lemma J_snd : map snd J = sk_x s.
Proof. unfold J, jumps. apply map_combine_snd, (td_len s Hs). Qed.

Lemma last_default {A} (l : list A) d d' : l <> [] -> last l d = last l d'.
Proof. destruct l; [congruence|]. intros _. rewrite !last_cons'. reflexivity. Qed.

Lemma look_all c K u : (forall p, In p K -> fst p <= u) -> look (Some c) K u = Some (last (map snd K) c).
Proof.
  revert c; induction K as [|[a i] K IH]; intros c H; auto.
  cbn [look map snd]. rewrite last_cons'.
  assert (a <= u) by (apply (H (a, i)); simpl; auto).
  destruct (Rleb_dec a u) as [[_ ->]|[? ?]]; [|lra]. apply IH. intros; apply H; simpl; auto.
Qed.

Lemma step_dv a b xa xb (Rr : list (R * nat)) : 0 <= a -> a < b ->
  look None J a = Some xa -> look None J b = Some xb ->
  dv xb Rr = filter (fun p => Rltb b (fst p)) J ->
  dv xa (filter (between a b) J ++ (b, xb) :: Rr) = filter (fun p => Rltb a (fst p)) J.
Proof.
  intros Ha Hab Hxa Hxb HR.
  destruct (J_le_nonempty a Ha) as (A' & ta & xa' & F & Hta).
  pose proof (look_J _ _ _ _ F) as Hx'. rewrite Hxa in Hx'. inversion Hx'; subst xa'; clear Hx'.
  set (S := filter (between a b) J).
  assert (EK : filter (fun p => Rltb a (fst p)) J = S ++ filter (fun p => Rleb b (fst p)) J).
  { rewrite (J_split_lt b) at 1. rewrite filter_app, !filter_filter. f_equal.
    - apply filter_ext. intros p. unfold between. apply andb_comm.
    - apply filter_ext. intros p. destruct (Rleb_dec b (fst p)) as [[? ->]|[? ->]]; simpl; auto.
      apply Rltb_true; lra. }
  assert (EJ : J = A' ++ [(ta, xa)] ++ S ++ filter (fun p => Rleb b (fst p)) J).
  { rewrite (J_split a) at 1. rewrite F, <- app_assoc, EK. reflexivity. }
  pose proof Hn as HnJ. rewrite <- J_snd, EJ in HnJ. rewrite !map_app in HnJ.
  set (G := filter (fun p => Rleb b (fst p)) J) in *.
  rewrite app_assoc in HnJ.
  assert (N1 : nr xa (map snd S ++ map snd G)).
  { apply (nr_last_app _ _ 0%nat) in HnJ; [|intro QQ; apply app_eq_nil in QQ as [_ QQ]; discriminate].
    cbn [map snd] in HnJ. rewrite last_last in HnJ. exact HnJ. }
  assert (N2 : nr (last (map snd S) xa) (map snd G)).
  { apply nr_no_repeat in N1.
    pose proof (nr_last_app (xa :: map snd S) (map snd G) 0%nat ltac:(discriminate) N1) as N.
    rewrite last_cons' in N. exact N. }
  assert (NS : nr xa (map snd S)).
  { apply nr_no_repeat. apply nr_no_repeat in N1. apply (no_repeat_app_l (xa :: map snd S) (map snd G)). exact N1. }
  rewrite dv_app, (dv_id xa S) by auto. rewrite EK. f_equal.
  set (y := last (map snd S) xa) in *.
  (* state at b *)
  assert (HG : G = filter (fun p => Reqb b (fst p)) G ++ filter (fun p => Rltb b (fst p)) J).
  { assert (D : down_closed (fun p => Reqb b (fst p)) G).
    { eapply sorted_down_closed with (P := fun p q => b <= fst p /\ fst p < fst q).
      - unfold G. pose proof J_sorted as HJ. clear -HJ. clearbody J.
        induction HJ as [|p l H IH F]; simpl; [constructor|].
        destruct (Rleb_dec b (fst p)) as [[? ->]|[? ->]]; auto. constructor; auto.
        rewrite Forall_forall in *. intros q Hq. apply filter_In in Hq as [Hq _]. auto.
      - simpl. intros p q [H1 H2]. rewrite !Reqb_false. lra. }
    destruct (filter_prefix _ _ D) as [F1 F2].
    rewrite <- (firstn_skipn (length (filter (fun p => Reqb b (fst p)) G)) G) at 1.
    rewrite F1, F2. f_equal. unfold G. rewrite filter_filter. apply filter_ext. intros p.
    destruct (Rleb_dec b (fst p)) as [[? ->]|[? ->]]; simpl.
    - destruct (Reqb_dec b (fst p)) as [[? ->]|[? ->]]; simpl; symmetry; [apply Rltb_false|apply Rltb_true]; lra.
    - symmetry; apply Rltb_false; lra. }
  assert (LB : look (Some y) G b = Some xb).
  { rewrite <- Hxb. rewrite (look_after a b xa) by (auto; lra). rewrite EK. fold G.
    assert (LS : forall p, In p S -> fst p <= b).
    { intros p Hp; apply filter_In in Hp as [_ Hp]; apply andb_true_iff in Hp as [_ Hp].
      apply Rltb_true in Hp; lra. }
    rewrite look_app by exact LS. rewrite (look_all xa S) by exact LS. reflexivity. }
  destruct (filter (fun p => Reqb b (fst p)) G) as [|[b1 x1] l1] eqn:EG.
  - simpl in HG. (* b is not a jump time *)
    rewrite HG in LB. rewrite look_late in LB.
    2:{ intros p Hp. apply filter_In in Hp as [_ Hp]. apply Rltb_true in Hp; auto. }
    inversion LB; subst xb. cbn [dv]. rewrite Nat.eqb_refl, HR, HG. reflexivity.
  - assert (In (b1, x1) (filter (fun p => Reqb b (fst p)) G)) as I1 by (rewrite EG; simpl; auto).
    apply filter_In in I1 as [_ I1]. apply Reqb_true in I1. simpl in I1. subst b1.
    assert (l1 = []) as ->.
    { destruct l1 as [|[b2 x2] l1]; auto. exfalso.
      assert (SS : StronglySorted (fun p q => fst p < fst q) (filter (fun p => Reqb b (fst p)) G)).
      { apply StronglySorted_filter. unfold G. apply StronglySorted_filter, J_sorted. }
      assert (In (b2, x2) (filter (fun p => Reqb b (fst p)) G)) as I2 by (rewrite EG; simpl; auto).
      apply filter_In in I2 as [_ I2]. apply Reqb_true in I2. simpl in I2. subst b2.
      rewrite EG in SS. inversion SS as [|? ? _ FF]; subst. inversion FF; subst. simpl in *; lra. }
    simpl in HG. rewrite HG in LB, N2. simpl in LB, N2.
    destruct (Rleb_dec b b) as [[_ E]|[? ?]]; [|lra]. rewrite E in LB.
    rewrite look_late in LB.
    2:{ intros p Hp. apply filter_In in Hp as [_ Hp]. apply Rltb_true in Hp; auto. }
    inversion LB; subst x1. destruct N2 as [N2 _]. cbn [dv].
    destruct (Nat.eqb_spec xb y); [contradiction|]. rewrite HR, HG. reflexivity.
Qed.

(** sorted breakpoints ending at the horizon *)
Fixpoint chain (a : R) (r : list R) : Prop :=
  match r with [] => a = sk_fin s | b :: r' => a <= b /\ chain b r' end.
Lemma chain_le a r : chain a r -> a <= sk_fin s.
Proof. revert a; induction r as [|b r IH]; simpl; intros a; [lra|]. intros [H1 H2]. apply IH in H2. lra. Qed.

Lemma pieces_end a r : chain a r -> a = sk_fin s -> filter positive (pieces s (a :: r)) = [].
Proof.
  revert a; induction r as [|b r IH]; intros a HC E; auto.
  destruct HC as [H1 H2]. pose proof (chain_le _ _ H2).
  assert (b = a) by lra. subst b. cbn [pieces filter].
  replace (positive (piece s a a)) with false.
  - apply (IH a); auto.
  - symmetry. unfold positive. simpl. apply negb_false_iff, Reqb_true. lra.
Qed.

Lemma raw_pieces r : forall a xa, 0 <= a -> chain a r -> a < sk_fin s -> look None J a = Some xa ->
  exists p ps Rr, filter positive (pieces s (a :: r)) = p :: ps /\ Forall timed (p :: ps) /\
    raw a (p :: ps) = (a, xa) :: Rr /\ dv xa Rr = filter (fun q => Rltb a (fst q)) J /\
    total_dur (p :: ps) = sk_fin s - a.
Proof.
  induction r as [|b r IH]; intros a xa Ha HC Hf Hx; simpl in HC; [lra|].
  destruct HC as [Hab HC].
  change (pieces s (a :: b :: r)) with (piece s a b :: pieces s (b :: r)). cbn [filter].
  destruct (Req_dec a b) as [<-|Nab].
  - replace (positive (piece s a a)) with false.
    + apply IH; auto.
    + symmetry. unfold positive. simpl. apply negb_false_iff, Reqb_true. lra.
  - assert (a < b) by lra. replace (positive (piece s a b)) with true.
    2:{ symmetry. apply positive_spec. simpl. lra. }
    pose proof (piece_timed a b Ha H) as HT.
    destruct (Rle_lt_or_eq_dec _ _ (chain_le _ _ HC)) as [Hbf|Hbf].
    + destruct (look_J_total b ltac:(lra)) as [xb Hb].
      destruct (IH b xb ltac:(lra) HC Hbf Hb) as (p & ps & Rr & E & FT & ER & ED & TD).
      exists (piece s a b), (p :: ps), (filter (between a b) J ++ (b, xb) :: Rr).
      rewrite E. split; [reflexivity|]. split; [constructor; auto|]. split; [|split].
      * change (raw a (piece s a b :: p :: ps)) with
          (map (shift a) (jumps (piece s a b)) ++ raw (a + (b - a)) (p :: ps)).
        rewrite (piece_jumps a b xa) by (auto; lra).
        replace (a + (b - a)) with b by lra. rewrite ER. cbn [map]. rewrite map_map.
        unfold shift at 1. cbn [fst snd]. rewrite Rplus_0_r. cbn [app]. f_equal. f_equal.
        rewrite <- (map_id (filter (between a b) J)) at 2. apply map_ext. intros [q i].
        unfold shift; simpl. f_equal. lra.
      * apply step_dv; auto.
      * unfold total_dur in *. cbn [map fold_right] in *. cbn [sk_fin piece]. lra.
    + rewrite (pieces_end b r HC Hbf).
      exists (piece s a b), [], (filter (between a b) J).
      split; [reflexivity|]. split; [constructor; auto|]. split; [|split].
      * change (raw a [piece s a b]) with (map (shift a) (jumps (piece s a b)) ++ []).
        rewrite app_nil_r, (piece_jumps a b xa) by (auto; lra). cbn [map]. rewrite map_map.
        unfold shift at 1. cbn [fst snd]. rewrite Rplus_0_r. f_equal.
        rewrite <- (map_id (filter (between a b) J)) at 2. apply map_ext. intros [q i].
        unfold shift; simpl. f_equal. lra.
      * rewrite dv_id.
        -- apply filter_ext_in. intros q Hq. unfold between.
           apply in_jumps in Hq; auto. rewrite Hbf.
           replace (Rltb (fst q) (sk_fin s)) with true; [apply andb_true_r|].
           symmetry; apply Rltb_true; lra.
        -- destruct (J_le_nonempty a Ha) as (A' & ta & xa' & F & Hta).
           pose proof (look_J _ _ _ _ F) as Hx'. rewrite Hx in Hx'. inversion Hx'; subst xa'; clear Hx'.
           assert (EB : filter (between a b) J = filter (fun q => Rltb a (fst q)) J).
           { apply filter_ext_in. intros q Hq. unfold between. apply in_jumps in Hq; auto. rewrite Hbf.
             replace (Rltb (fst q) (sk_fin s)) with true; [apply andb_true_r|].
             symmetry; apply Rltb_true; lra. }
           rewrite EB. pose proof Hn as HnJ. rewrite <- J_snd, (J_split a), F in HnJ.
           rewrite map_app in HnJ.
           apply (nr_last_app _ _ 0%nat) in HnJ; [|rewrite map_app; intro QQ; apply app_eq_nil in QQ as [_ QQ]; discriminate].
           rewrite map_app in HnJ. cbn [map snd] in HnJ. rewrite last_last in HnJ. exact HnJ.
      * unfold total_dur. cbn [map fold_right sk_fin piece]. lra.
Qed.

Lemma chain_breaks bs : StronglySorted Rle bs -> (forall b, In b bs -> 0 <= b <= sk_fin s) ->
  chain 0 (bs ++ [sk_fin s]).
Proof.
  intros H HB. assert (forall a, a <= sk_fin s -> (forall b, In b bs -> a <= b <= sk_fin s) -> chain a (bs ++ [sk_fin s])).
  { clear HB. induction H as [|b bs H IH F]; intros a Ha HB; simpl; [split; auto; lra|].
    split; [apply HB; simpl; auto|]. rewrite Forall_forall in F. apply IH.
    - apply HB; simpl; auto.
    - intros c Hc; split; auto. apply HB; simpl; auto. }
  apply H0; auto. apply timed_pos in Hs. lra.
Qed.

Lemma roundtrip bs : StronglySorted Rle bs -> (forall b, In b bs -> 0 <= b <= sk_fin s) ->
  paste_partition (partition_skeleton s bs) = Ok s.
Proof.
  intros HB HI. rewrite partition_pieces.
  pose proof (chain_breaks bs HB HI) as HC. set (r := bs ++ [sk_fin s]) in *. clearbody r.
  destruct (look_J_total 0 ltac:(lra)) as [x0 Hx].
  destruct (raw_pieces r 0 x0 ltac:(lra) HC (timed_pos s Hs) Hx) as (p & ps & Rr & E & FT & ER & ED & TD).
  rewrite paste_eq.
  - rewrite E. unfold pasted. rewrite ER. cbn [devirt]. rewrite ED, TD.
    destruct J_first as (x & J' & EJ).
    assert (x = x0) as ->.
    { rewrite EJ in Hx. simpl in Hx. destruct (Rleb_dec 0 0) as [[_ Q]|[? ?]]; [|lra]. rewrite Q in Hx.
      rewrite look_late in Hx; [congruence|]. intros q Hq. pose proof J_sorted as SJ. rewrite EJ in SJ.
      inversion SJ as [|? ? _ F]; subst. rewrite Forall_forall in F. apply (F q Hq). }
    assert (EF : (0, x0) :: filter (fun q => Rltb 0 (fst q)) J = J).
    { rewrite EJ. cbn [filter fst]. destruct (Rltb_dec 0 0) as [[? ?]|[_ ->]]; [lra|]. f_equal.
      apply filter_all. intros q Hq. apply Rltb_true. pose proof J_sorted as SJ. rewrite EJ in SJ.
      inversion SJ as [|? ? _ F]; subst. rewrite Forall_forall in F. apply (F q Hq). }
    rewrite EF. unfold J, jumps.
    rewrite map_combine_fst, map_combine_snd by apply (td_len s Hs). rewrite Rminus_0_r.
    destruct s; reflexivity.
  - intros q Hq Hp. assert (In q (p :: ps)) by (rewrite <- E; apply filter_In; auto).
    rewrite Forall_forall in FT. specialize (FT q H). split; [apply FT|].
    pose proof (td_first q FT) as F0. destruct (sk_t q); discriminate.
Qed.
End Wf.

Lemma pieces_length s l : length (pieces s l) = (length l - 1)%nat.
Proof.
  induction l as [|a l IH]; auto. destruct l as [|b l]; auto.
  cbn [pieces length] in *. rewrite IH. simpl. lia.
Qed.
Lemma pieces_nth s l k a b : nth_error l k = Some a -> nth_error l (S k) = Some b ->
  nth_error (pieces s l) k = Some (piece s a b).
Proof.
  revert k; induction l as [|c l IH]; intros [|k] Ha Hb; try discriminate.
  - simpl in Ha. inversion Ha; subst. destruct l as [|d l]; [discriminate|]. simpl in Hb. inversion Hb; subst. reflexivity.
  - destruct l as [|d l]; [destruct k; discriminate|]. cbn [pieces nth_error] in *. apply IH; auto.
Qed.
Lemma pieces_total s a r e : last (a :: r) 0 = e -> total_dur (pieces s (a :: r)) = e - a.
Proof.
  revert a; induction r as [|b r IH]; intros a H.
  - simpl in *. unfold total_dur; simpl. lra.
  - change (pieces s (a :: b :: r)) with (piece s a b :: pieces s (b :: r)).
    unfold total_dur in *. cbn [map fold_right]. rewrite (IH b).
    + cbn [piece sk_fin]. lra.
    + rewrite <- H. reflexivity.
Qed.
