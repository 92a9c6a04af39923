(** Poisson point processes (mjplib/skeleton.py, lines 28-99). *)
From Coq Require Import Reals List ZArith Bool Arith Lia Lra Sorted Permutation.
From Verif Require Import Base Np Rng Mat M_mjp SpecMjp L_list L_path L_rng L_mat L_sim L_bridge.
Import ListNotations.
Local Open Scope R_scope.

(** other coordinates of a point *)
Definition in_box (bs : list R) (pt : list R) : Prop := Forall2 (fun b u => 0 <= u < b) bs pt.

Lemma total_rows G n bs : Forall (fun b => 0 < b) bs ->
  total_if G (draw_rows n (map (DUniform 0) bs)) (fun l => length l = n /\ Forall (in_box bs) l).
Proof.
  intros HB. induction n as [|n IH]; cbn [draw_rows].
  - apply total_ret; auto.
  - eapply total_bind; [apply total_draw_rs|]. intros r Hr.
    eapply total_bind; [apply IH|]. intros rs [H1 H2]. apply total_ret. simpl; split; auto. constructor; auto.
    clear -HB Hr. revert r Hr. induction HB as [|b bs Hb HB IH]; intros r Hr; inversion Hr; subst; constructor.
    + destruct H1 as (u & Hu & ->). replace (0 + (b - 0) * u) with (b * u) by ring. split; [apply Rmult_le_pos; lra|].
      rewrite <- (Rmult_1_r b) at 2. apply Rmult_lt_compat_l; lra.
    + apply IH; auto.
Qed.

Section PPP.
Variables (b0 : R) (bs : list R).
Hypothesis Hb0 : 0 < b0.
Hypothesis Hbs : Forall (fun b => 0 < b) bs.

Definition ok_point (pt : list R) : Prop :=
  exists t r, pt = t :: r /\ 0 <= t /\ in_box bs r.

Lemma combine_points i u0 (u : list (list R)) lo : length u0 = i -> length u = i -> StronglySorted Rle u0 ->
  Forall (fun t => lo <= t) u0 -> 0 <= lo -> Forall (in_box bs) u ->
  let b := map (fun p => fst p :: snd p) (combine u0 u) in
  length b = i /\ map (hd 0) b = u0 /\ Forall ok_point b.
Proof.
  intros H1 H2 HS HL H0 HF b. unfold b. repeat split.
  - rewrite map_length, combine_length. lia.
  - rewrite map_map. cbn [hd]. rewrite map_combine_fst; auto. lia.
  - rewrite Forall_forall. intros pt Hpt. apply in_map_iff in Hpt as ((t & r) & <- & Hp). exists t, r. split; auto.
    split.
    + apply in_combine_l in Hp. rewrite Forall_forall in HL. specialize (HL t Hp). lra.
    + apply in_combine_r in Hp. rewrite Forall_forall in HF. auto.
Qed.

Lemma ppp_next_ok G s i rest : pp_sizes s = i :: rest -> (1 <= i <= pp_n s)%nat -> 0 <= pp_ub s ->
  total_if G (ppp_next (b0 :: bs) s)
    (fun r => exists b s', r = Some (b, s') /\ pp_n s' = pp_n s /\ pp_sizes s' = rest /\
       pp_ub s < pp_ub s' < pp_ub s + b0 /\ length b = i /\ Forall ok_point b /\
       StronglySorted Rle (map (hd 0) b) /\ Forall (fun t => pp_ub s <= t <= pp_ub s') (map (hd 0) b)).
Proof.
  intros HS Hi HU. unfold ppp_next. rewrite HS. cbn [hd tl].
  eapply total_bind; [apply total_draw_r|]. intros x Hx. simpl in Hx.
  assert (X : 0 < x < 1).
  { apply Hx; [apply lt_0_INR; lia|]. assert (INR i <= INR (pp_n s)) by (apply le_INR; lia). lra. }
  set (ub := pp_ub s + b0 * x).
  assert (UB : pp_ub s < ub < pp_ub s + b0).
  { unfold ub. assert (0 < b0 * x) by (apply Rmult_lt_0_compat; lra).
    assert (b0 * x < b0 * 1) by (apply Rmult_lt_compat_l; lra). lra. }
  eapply total_bind with (Q := fun u0 => length u0 = i /\ StronglySorted Rle u0 /\ Forall (fun t => pp_ub s <= t <= ub) u0).
  - destruct (Nat.eqb_spec i 1) as [->|N].
    + apply total_ret. repeat split; auto; [repeat constructor|repeat constructor; lra].
    + eapply total_bind; [apply draw_uniforms with (G := G); apply UB|]. intros us [U1 U2]. apply total_ret.
      assert (PM := np_sort_perm us). repeat split.
      * rewrite app_length, (Permutation_length PM). cbn [length]. lia.
      * apply StronglySorted_app. repeat split; [apply np_sort_sorted|repeat constructor|].
        intros a b Ha [<-|[]]. apply (Permutation_in a PM) in Ha. rewrite Forall_forall in U2. specialize (U2 a Ha). lra.
      * apply Forall_app; split; [|repeat constructor; lra]. rewrite Forall_forall in *. intros a Ha.
        apply (Permutation_in a PM) in Ha. specialize (U2 a Ha). lra.
  - intros u0 (V1 & V2 & V3). eapply total_bind; [apply total_rows; auto|]. intros u [W1 W2].
    apply total_ret.
    destruct (combine_points i u0 u (pp_ub s) V1 W1 V2) as (C1 & C2 & C3); auto.
    { eapply Forall_impl; [|apply V3]. simpl; intros; lra. }
    eexists _, _. split; [reflexivity|]. cbn [pp_n pp_sizes pp_ub]. rewrite C2. repeat split; auto; apply UB.
Qed.

Definition sizes_ok (n : nat) (l : list nat) : Prop := Forall (fun i => (1 <= i <= n)%nat) l.

Lemma ppp_drain_ok G : forall l fuel s, pp_sizes s = l -> sizes_ok (pp_n s) l -> 0 <= pp_ub s -> (length l < fuel)%nat ->
  total_if G (ppp_drain fuel (b0 :: bs) s)
    (fun bts => map (@length _) bts = l /\ Forall ok_point (concat bts) /\
       StronglySorted Rle (map (hd 0) (concat bts)) /\
       Forall (fun t => pp_ub s <= t <= pp_ub s + INR (length l) * b0) (map (hd 0) (concat bts))).
Proof.
  induction l as [|i l IH]; intros fuel s HS HO HU HF; destruct fuel as [|fuel]; try (cbn [length] in HF; lia); cbn [ppp_drain].
  - eapply total_bind with (Q := fun r => r = None).
    + unfold ppp_next. rewrite HS. apply total_ret; auto.
    + intros r ->. apply total_ret. simpl. repeat split; constructor.
  - inversion HO as [|? ? Hi HO']; subst. eapply total_bind; [apply (ppp_next_ok G s i l); auto|].
    intros r (b & s' & -> & N1 & N2 & N3 & N4 & N5 & N6 & N7).
    eapply total_bind; [apply (IH fuel s'); auto|].
    + rewrite N1; auto.
    + lra.
    + cbn [length] in HF; lia.
    + intros bts (B1 & B2 & B3 & B4). apply total_ret. cbn [map concat]. repeat split.
      * congruence.
      * apply Forall_app; auto.
      * rewrite map_app. apply StronglySorted_app. repeat split; auto. intros a c Ha Hc.
        rewrite Forall_forall in N7, B4. specialize (N7 a Ha). specialize (B4 c Hc). lra.
      * assert (IL : INR (length (i :: l)) = INR (length l) + 1) by (cbn [length]; apply S_INR).
        pose proof (Rmult_le_pos _ _ (pos_INR (length l)) (Rlt_le _ _ Hb0)).
        rewrite IL, map_app. apply Forall_app; split.
        -- eapply Forall_impl; [|apply N7]. simpl; intros t Ht. lra.
        -- eapply Forall_impl; [|apply B4]. simpl; intros t Ht. lra.
Qed.

Lemma batch_sizes_spec n m : (0 < m)%nat -> sizes_ok n (batch_sizes n m) /\ fold_right plus 0%nat (batch_sizes n m) = n.
Proof.
  intros Hm. unfold batch_sizes. pose proof (Nat.div_mod_eq n m) as D. pose proof (Nat.mod_upper_bound n m ltac:(lia)) as U.
  assert (RS : forall k a, fold_right plus 0%nat (repeat a k) = (k * a)%nat) by (induction k; simpl; auto).
  assert (FA : forall l1 l2, fold_right plus 0%nat (l1 ++ l2) = (fold_right plus 0%nat l1 + fold_right plus 0%nat l2)%nat)
    by (induction l1; simpl; intros; auto; rewrite IHl1; lia).
  split.
  - apply Forall_app; split.
    + rewrite Forall_forall. intros i Hi. assert (E := repeat_spec _ _ _ Hi). subst i.
      destruct (n / m)%nat eqn:Q; [destruct Hi|]. nia.
    + destruct (Nat.eqb_spec (n mod m) 0); constructor; [|constructor]. nia.
  - rewrite FA, RS. destruct (Nat.eqb_spec (n mod m) 0); simpl; nia.
Qed.

Lemma length_concat {A} (l : list (list A)) : length (concat l) = fold_right plus 0%nat (map (@length A) l).
Proof. induction l; simpl; auto. rewrite app_length. lia. Qed.

Lemma np_min_pos d l : 0 < d -> Forall (fun b => 0 < b) l -> Rltb 0 (np_min_from d l) = true.
Proof.
  intros H1 H2. apply Rltb_true. destruct (np_min_from_mem d l) as [->|H]; auto.
  rewrite Forall_forall in H2; auto.
Qed.

Lemma sample_batch_ppp_ok intensity m o k : 0 < intensity -> (0 < m)%nat -> valid o ->
  exists bts, fst (sample_batch_ppp intensity (b0 :: bs) m o k) = Ok bts /\
    map (@length _) bts = batch_sizes (ora_n o k (DPoisson (intensity * np_prod (b0 :: bs)))) m /\
    Forall ok_point (concat bts) /\ StronglySorted Rle (map (hd 0) (concat bts)) /\
    Forall (fun t => 0 <= t <= INR (length bts) * b0) (map (hd 0) (concat bts)).
Proof.
  intros HI Hm V.
  set (n := ora_n o k (DPoisson (intensity * np_prod (b0 :: bs)))).
  assert (E : fst (sample_batch_ppp intensity (b0 :: bs) m o k) =
     fst (ppp_drain (S (length (batch_sizes n m))) (b0 :: bs) (mk_ppp n (batch_sizes n m) 0) o (S k))).
  { unfold sample_batch_ppp, ppp_start, bind, assert_, lift_opt, draw_n, ret. cbn [hd_error tl].
    rewrite (proj2 (Rltb_true _ _) HI). rewrite np_min_pos by auto.
    destruct (Nat.ltb_spec 0 m); [|lia]. reflexivity. }
  rewrite E. clear E.
  destruct (batch_sizes_spec n m Hm) as [S1 S2].
  pose proof (ppp_drain_ok (fun _ => True) (batch_sizes n m) (S (length (batch_sizes n m))) (mk_ppp n (batch_sizes n m) 0)
    eq_refl S1 (Rle_refl 0) (Nat.lt_succ_diag_r _) o (S k) V I) as H.
  destruct (fst (ppp_drain _ _ _ o (S k))) as [bts|e|]; try contradiction.
  destruct H as (H1 & H2 & H3 & H4). exists bts. repeat split; auto.
  rewrite <- (map_length (@length _) bts), H1. cbn [pp_ub] in H4.
  eapply Forall_impl; [|apply H4]. simpl; intros; lra.
Qed.
End PPP.

(** ** sample_ppp *)
Lemma row_ins_perm a l : Permutation (row_ins a l) (a :: l).
Proof.
  induction l as [|b l IH]; simpl; auto. destruct (Rleb (hd 0 a) (hd 0 b)); auto.
  rewrite IH. apply perm_swap.
Qed.
Lemma row_sort_perm l : Permutation (row_sort l) l.
Proof. induction l; simpl; auto. rewrite row_ins_perm. auto. Qed.
Lemma row_ins_sorted a l : StronglySorted Rle (map (hd 0) l) -> StronglySorted Rle (map (hd 0) (row_ins a l)).
Proof.
  induction l as [|b l IH]; intros H; simpl; [repeat constructor|].
  inversion H as [|? ? H1 H2]; subst.
  destruct (Rleb_dec (hd 0 a) (hd 0 b)) as [[Lab ->]|[Lab ->]]; cbn [map].
  - constructor; auto. constructor; auto. eapply Forall_impl; [|apply H2]. simpl; intros; lra.
  - constructor; auto. rewrite Forall_forall in *. intros x Hx. apply in_map_iff in Hx as (r & <- & Hr).
    apply (Permutation_in _ (row_ins_perm a l)) in Hr. destruct Hr as [<-|Hr]; [lra|]. apply H2, in_map; auto.
Qed.
Lemma row_sort_sorted l : StronglySorted Rle (map (hd 0) (row_sort l)).
Proof. induction l; simpl; [constructor|]. apply row_ins_sorted; auto. Qed.

Lemma draw_rs_spec ds o k : exists l, draw_rs ds o k = (Ok l, (k + length ds)%nat) /\ length l = length ds /\
  forall c d, nth_error ds c = Some d -> nth_error l c = Some (ora_r o (k + c) d).
Proof.
  revert k; induction ds as [|d ds IH]; intros k; cbn [draw_rs].
  - exists []. rewrite Nat.add_0_r. repeat split. intros [|c] d; discriminate.
  - destruct (IH (S k)) as (l & E & HL & HN). exists (ora_r o k d :: l). unfold bind, draw_r, ret. rewrite E.
    repeat split; [f_equal; cbn [length]; lia|simpl; auto|].
    intros [|c] d' H; simpl in *; [inversion H; rewrite Nat.add_0_r; auto|].
    rewrite (HN c d' H). f_equal. f_equal. lia.
Qed.
Lemma draw_rows_spec ds o n : forall k, exists l, draw_rows n ds o k = (Ok l, (k + n * length ds)%nat) /\ length l = n /\
  forall r, (r < n)%nat -> exists row, nth_error l r = Some row /\ length row = length ds /\
    forall c d, nth_error ds c = Some d -> nth_error row c = Some (ora_r o (k + r * length ds + c) d).
Proof.
  induction n as [|n IH]; intros k; cbn [draw_rows].
  - exists []. rewrite Nat.add_0_r. repeat split. intros; lia.
  - destruct (draw_rs_spec ds o k) as (row & E1 & L1 & N1).
    destruct (IH (k + length ds)%nat) as (l & E2 & L2 & N2).
    exists (row :: l). unfold bind, ret. rewrite E1, E2. repeat split; [f_equal; lia|simpl; auto|].
    intros [|r] Hr.
    + exists row. repeat split; auto. intros c d H. rewrite Nat.add_0_r. auto.
    + destruct (N2 r ltac:(lia)) as (row' & A1 & A2 & A3). exists row'. repeat split; auto.
      intros c d H. rewrite (A3 c d H). f_equal. f_equal. simpl. lia.
Qed.

Lemma sample_ppp_ok intensity bound o k : 0 < intensity -> bound <> [] -> Forall (fun b => 0 < b) bound -> valid o ->
  exists pts rows, fst (sample_ppp intensity bound o k) = Ok pts /\
    length rows = ora_n o k (DPoisson (intensity * np_prod bound)) /\
    (forall r c b, (r < length rows)%nat -> nth_error bound c = Some b ->
       exists row, nth_error rows r = Some row /\ length row = length bound /\
         nth_error row c = Some (ora_r o (S k + r * length bound + c) (DUniform 0 b))) /\
    Permutation pts rows /\ StronglySorted Rle (map (hd 0) pts) /\ Forall (in_box bound) pts.
Proof.
  intros HI HN HB V. destruct bound as [|b0 bs]; [contradiction|]. inversion HB as [|? ? H0 H1]; subst.
  set (n := ora_n o k (DPoisson (intensity * np_prod (b0 :: bs)))).
  destruct (draw_rows_spec (map (DUniform 0) (b0 :: bs)) o n (S k)) as (rows & E & HL & HR).
  exists (row_sort rows), rows.
  assert (EQ : sample_ppp intensity (b0 :: bs) o k = (Ok (row_sort rows), (S k + n * length (map (DUniform 0) (b0 :: bs)))%nat)).
  { unfold sample_ppp, bind, assert_, lift_opt, draw_n, ret. cbn [hd_error tl].
    rewrite (proj2 (Rltb_true _ _) HI). rewrite np_min_pos by auto. unfold ret. fold n. rewrite E. reflexivity. }
  rewrite EQ. cbn [fst]. split; auto. split; auto. split; [|split; [apply row_sort_perm|split; [apply row_sort_sorted|]]].
  - intros r c b Hr Hc. rewrite HL in Hr. destruct (HR r Hr) as (row & R1 & R2 & R3). exists row.
    rewrite map_length in R2, R3. split; auto. split; auto. apply R3. rewrite nth_error_map, Hc. reflexivity.
  - pose proof (total_rows (fun _ => True) n (b0 :: bs) HB o (S k) V I) as T. rewrite E in T. cbn [fst] in T.
    destruct T as [_ T]. eapply Permutation_Forall; [symmetry; apply row_sort_perm|auto].
Qed.
