(** Lemmas about ctbayes/misc/ars.py: sampling from the envelope. *)
From Coq Require Import Reals List ZArith Bool Arith Lia Lra Sorted.
From Coquelicot Require Import Rbar Hierarchy Continuity Derive AutoDerive RInt RInt_gen.
From Verif Require Import Base Np Rng Mat M_adapt M_ars SpecArs L_list L_path L_mat L_adapt L_ars.
Import ListNotations.
Local Open Scope R_scope.

(** ** integrals of exponentials *)
Section Int.
Context (f df : R -> R) (a : R).
Hypothesis HD : df a <> 0.
(** value of the antiderivative (times df a) at a limit *)
Definition val (e : ext) : R := match e with Fin v => exp (tangent f df a v) | _ => 0 end.
Definition okl (e : ext) : Prop := match e with Fin _ => True | NegInf => 0 < df a | PosInf => df a < 0 end.
Let G (v : R) : R := exp (tangent f df a v) / df a.
Lemma G_derive v : is_derive G v (exp (tangent f df a v)).
Proof.
  unfold G, tangent. auto_derive; [auto|]. unfold Rminus. field. auto.
Qed.
Lemma G_lim e : okl e -> filterlim G (lim e) (locally (val e / df a)).
Proof.
  destruct e as [|v|]; simpl; intros HO.
  - apply filterlim_locally. intros [eps He]. 
    exists (a + (ln (eps * df a) - f a) / df a). intros v Hv. replace (0 / df a) with 0 by (field; auto). 
    assert (Q : exp (tangent f df a v) < eps * df a).
    { rewrite <- (exp_ln (eps * df a)) by (apply Rmult_lt_0_compat; auto). apply exp_increasing. unfold tangent.
      assert (K : (v - a) * df a < (ln (eps * df a) - f a) / df a * df a) by (apply Rmult_lt_compat_r; lra).
      unfold Rdiv in K. rewrite Rmult_assoc, Rinv_l, Rmult_1_r in K by auto. simpl in *. lra. }
    unfold ball; simpl. unfold AbsRing_ball, abs, minus, plus, opp; simpl. rewrite Ropp_0, Rplus_0_r. unfold G.
    pose proof (exp_pos (tangent f df a v)). rewrite Rabs_right.
    + apply (Rmult_lt_reg_r (df a)); auto. unfold Rdiv. rewrite Rmult_assoc, Rinv_l, Rmult_1_r by auto. auto.
    + apply Rle_ge. apply Rmult_le_pos; [lra|left; apply Rinv_0_lt_compat; auto].
  - intros P [eps HP]. apply HP. apply ball_center.
  - apply filterlim_locally. intros [eps He]. 
    exists (a + (ln (eps * - df a) - f a) / df a). intros v Hv. replace (0 / df a) with 0 by (field; auto).
    assert (P : 0 < - df a) by lra.
    assert (Q : exp (tangent f df a v) < eps * - df a).
    { rewrite <- (exp_ln (eps * - df a)) by (apply Rmult_lt_0_compat; auto). apply exp_increasing. unfold tangent.
      assert (K : (ln (eps * - df a) - f a) / df a * - df a < (v - a) * - df a) by (apply Rmult_lt_compat_r; lra).
      replace ((ln (eps * - df a) - f a) / df a * - df a) with (- (ln (eps * - df a) - f a)) in K by (field; auto). simpl in *. lra. }
    unfold ball; simpl. unfold AbsRing_ball, abs, minus, plus, opp; simpl. rewrite Ropp_0, Rplus_0_r. unfold G.
    pose proof (exp_pos (tangent f df a v)). rewrite Rabs_left1.
    + apply (Rmult_lt_reg_r (- df a)); auto. replace (- (exp (tangent f df a v) / df a) * - df a) with (exp (tangent f df a v)) by (field; auto). auto.
    + replace (exp (tangent f df a v) / df a) with (- (exp (tangent f df a v) * / - df a)) by (field; lra).
      assert (0 <= exp (tangent f df a v) * / - df a) by (apply Rmult_le_pos; [lra|left; apply Rinv_0_lt_compat; auto]). lra.
Qed.
Lemma mass_ok lo hi : okl lo -> okl hi -> mass f df a lo hi ((val hi - val lo) / df a).
Proof.
  intros H1 H2. unfold mass. replace ((val hi - val lo) / df a) with (val hi / df a - val lo / df a) by (field; auto).
  assert (FL : forall e, Filter (lim e)) by (intros [| |]; simpl; typeclasses eauto).
  apply (is_RInt_gen_ext (Derive G)).
  - apply filter_forall. intros [p q] v _. apply is_derive_unique, G_derive.
  - apply is_RInt_gen_Derive; try apply FL; try apply G_lim; auto.
    + apply filter_forall. intros [p q] v _. eexists. apply G_derive.
    + apply filter_forall. intros [p q] v _. apply (continuous_ext (fun v => exp (tangent f df a v))).
      * intros w. symmetry. apply is_derive_unique, G_derive.
      * apply (continuous_ext (fun v => df a * G v)); [intros w; change (df a * (exp (tangent f df a w) / df a) = exp (tangent f df a w)); field; auto|].
        apply (continuous_mult (fun _ => df a) G); [apply continuous_const|]. apply (ex_derive_continuous (K := R_AbsRing) (V := R_NormedModule)). eexists. apply G_derive.
Qed.
End Int.

Lemma val_lt f df a lo hi : df a <> 0 -> okl df a lo -> okl df a hi -> elt lo hi ->
  0 < (val f df a hi - val f df a lo) / df a.
Proof.
  intros HD H1 H2 L.
  assert (Q : (0 < df a -> val f df a lo < val f df a hi) /\ (df a < 0 -> val f df a hi < val f df a lo)).
  { destruct lo as [|u|], hi as [|v|]; simpl in *; try contradiction; try lra; try (split; intros; try apply exp_pos; lra).
    split; intros; apply exp_increasing; unfold tangent; nra. }
  destruct (Rtotal_order (df a) 0) as [N|[E|P]]; [|contradiction|].
  - replace ((val f df a hi - val f df a lo) / df a) with ((val f df a lo - val f df a hi) / - df a) by (field; auto).
    apply Rdiv_lt_0_compat; [|lra]. apply Q in N. lra.
  - apply Rdiv_lt_0_compat; auto. apply Q in P. lra.
Qed.
Lemma emax_fin l : forall a, (forall e, In e (a :: l) -> e <> PosInf) -> (exists r, In (Fin r) (a :: l)) ->
  exists off, fold_left emax l a = Fin off.
Proof.
  induction l as [|b l IH]; intros a NP (r & HF).
  - destruct HF as [->|[]]. eexists; reflexivity.
  - cbn [fold_left]. assert (Na : a <> PosInf) by (apply NP; left; auto). assert (Nb : b <> PosInf) by (apply NP; right; left; auto).
    apply IH.
    + intros e [<-|He]; [|apply NP; right; right; auto]. unfold emax. destruct (eltb a b); auto.
    + destruct HF as [->|[->|HF]]; [| |exists r; right; auto].
      * unfold emax. destruct b as [|s|]; simpl; [exists r; left; auto| |contradiction]. destruct (Rltb r s); eexists; left; reflexivity.
      * unfold emax. destruct a as [|s|]; simpl; [exists r; left; auto| |contradiction]. destruct (Rltb s r); eexists; left; reflexivity.
Qed.
Lemma rsum_S n g : rsum (S n) g = rsum n g + g n.
Proof. reflexivity. Qed.
Lemma cumsum_from_seq l : forall acc, np_cumsum_from acc l = map (fun j => acc + rsum (S j) (fun i => nth i l 0)) (seq 0 (length l)).
Proof.
  induction l as [|b l IH]; intros acc; [reflexivity|]. cbn [np_cumsum_from length seq map]. f_equal; [simpl; ring|].
  rewrite IH. rewrite <- seq_shift, map_map. apply map_ext. intros j. rewrite (rsum_shift (S j)). simpl (nth 0 _ _). cbn [nadd RNum]. simpl (nth (S _) _ _). ring.
Qed.
Lemma cdf_seq g n : 0 :: np_cumsum (map g (seq 0 n)) = map (fun k => rsum k g) (seq 0 (S n)).
Proof.
  destruct n as [|n]; [reflexivity|]. cbn [seq map]. f_equal. cbn [np_cumsum]. f_equal; [simpl; ring|].
  rewrite cumsum_from_seq, map_length, seq_length. rewrite <- (seq_shift n 0), map_map. rewrite <- (seq_shift n 1), <- (seq_shift n 0), !map_map.
  apply map_ext_in. intros j Hj. apply in_seq in Hj. rewrite (rsum_shift (S j)).
  f_equal. apply rsum_ext. intros i Hi. rewrite nth_map_seq by lia. auto.
Qed.

Lemma last_nth_ (l : list R) : last l 0 = nth (length l - 1) l 0.
Proof.
  destruct l as [|a l] using rev_ind; [reflexivity|]. rewrite last_last, app_length. cbn [length].
  replace (length l + 1 - 1)%nat with (length l) by lia. rewrite app_nth2, Nat.sub_diag by lia. auto.
Qed.
Section Env.
Context (lb ub : ext) (f df : R -> R) (x : list R).
Hypothesis HC : strictly_concave_on lb ub f df.
Hypothesis HSup : supports lb ub x.
Hypothesis NZ : forall a, In a x -> df a <> 0.
Hypothesis HLB : lb = NegInf -> 0 < df (hd 0 x).
Hypothesis HUB : ub = PosInf -> df (last x 0) < 0 /\ (2 <= length x)%nat.
Notation n := (length x).
Notation X j := (nth j x 0).
Notation Y j := (nth j (breaks lb ub f df x) PosInf).
Notation V j e := (val f df (nth j x 0) e).
Lemma n_pos : (0 < n)%nat.
Proof. destruct HSup as (_ & _ & H). destruct x; [contradiction|simpl; lia]. Qed.
Lemma nzj j : (j < n)%nat -> df (X j) <> 0.
Proof. intros H. apply NZ, nth_In; auto. Qed.
Lemma domj j : (j < n)%nat -> dom lb ub (X j).
Proof. intros H. destruct HSup as (_ & D & _). rewrite Forall_forall in D. apply D, nth_In; auto. Qed.
Lemma last_X : last x 0 = X (n - 1).
Proof. apply last_nth_. Qed.
Lemma okl_lo j : (j < n)%nat -> okl df (X j) (Y j).
Proof.
  intros H. destruct j as [|j]; [|rewrite breaks_mid by lia; exact I].
  rewrite breaks_0. pose proof (domj 0 H) as [D1 _]. destruct lb as [|v|]; simpl in *; auto; [|contradiction].
  specialize (HLB eq_refl). destruct x; simpl in *; auto.
Qed.
Lemma okl_hi j : (j < n)%nat -> okl df (X j) (Y (S j)).
Proof.
  intros H. destruct (Nat.eq_dec (S j) n) as [E|N]; [|rewrite breaks_mid by lia; exact I].
  rewrite E, breaks_last by (apply HSup). pose proof (domj j H) as [_ D1]. destruct ub as [|v|]; simpl in *; auto; [contradiction|].
  specialize (HUB eq_refl). rewrite last_X in HUB. replace (n - 1)%nat with j in HUB by lia. apply HUB.
Qed.
Definition se (j : nat) (e : ext) : ext := match e with Fin v => Fin (df (X j) * (v - X j) + f (X j)) | _ => NegInf end.
Lemma seg_exp_ok j e : okl df (X j) e -> seg_exp (X j) (f (X j)) (df (X j)) e = Some (se j e).
Proof.
  destruct e as [|v|]; simpl; intros H; auto.
  - apply Rltb_true in H. rewrite H. auto.
  - destruct (Rltb_dec 0 (df (X j))) as [[Q _]|[_ ->]]; [lra|]. apply Rltb_true in H. rewrite H. auto.
Qed.
Lemma seg_exps_ok (g : nat -> ext) l : length l = n -> (forall j, (j < n)%nat -> nth j l PosInf = g j /\ okl df (X j) (g j)) ->
  seg_exps x (map f x) (map df x) l = Some (map (fun j => se j (g j)) (seq 0 n)).
Proof.
  intros HL H. unfold seg_exps, zip3.
  rewrite (combine_seq x (map f x) n 0 (f 0)) by (rewrite ?map_length; auto).
  rewrite (combine_seq _ (map df x) n (0, f 0) (df 0)) by (rewrite !map_length, ?seq_length; auto).
  rewrite (map2_seq _ _ l n ((0, f 0), df 0) PosInf) by (rewrite ?map_length, ?seq_length; auto).
  apply opt_list_seq. intros j Hj. rewrite !nth_map_seq by auto. cbn [fst snd].
  rewrite !map_nth. destruct (H j Hj) as [-> HO]. apply seg_exp_ok; auto.
Qed.
Lemma exps_lo : seg_exps x (map f x) (map df x) (removelast (breaks lb ub f df x)) = Some (map (fun j => se j (Y j)) (seq 0 n)).
Proof.
  pose proof (breaks_length lb ub f df x ltac:(apply HSup)) as L.
  apply seg_exps_ok.
  - rewrite (removelast_seq _ PosInf), map_length, seq_length, L. lia.
  - intros j Hj. rewrite (removelast_seq _ PosInf), L. rewrite nth_map_seq by lia. split; [auto|apply okl_lo; auto].
Qed.
Lemma exps_hi : seg_exps x (map f x) (map df x) (tl (breaks lb ub f df x)) = Some (map (fun j => se j (Y (S j))) (seq 0 n)).
Proof.
  pose proof (breaks_length lb ub f df x ltac:(apply HSup)) as L.
  apply seg_exps_ok.
  - rewrite (tl_seq _ PosInf), map_length, seq_length, L. lia.
  - intros j Hj. rewrite (tl_seq _ PosInf), L. rewrite nth_map_seq by lia. split; [auto|apply okl_hi; auto].
Qed.
Lemma se_not_inf j e : se j e <> PosInf.
Proof. destruct e; simpl; discriminate. Qed.
Lemma off_ok : exists off, np_emax (map (fun j => se j (Y (S j))) (seq 0 n)) = Some (Fin off).
Proof.
  pose proof n_pos as NP. destruct n as [|m] eqn:E; [lia|]. cbn [seq map np_emax].
  destruct (emax_fin (map (fun j => se j (Y (S j))) (seq 1 m)) (se 0 (Y 1))) as (off & H).
  - intros e He. assert (exists j e', e = se j e') as (j & e' & ->); [|apply se_not_inf].
    destruct He as [<-|He]; eauto. apply in_map_iff in He. destruct He as (j & <- & _). eauto.
  - assert (exists v, Y 1 = Fin v) as (v & EV).
    { destruct (Nat.eq_dec m 0) as [->|N]; [|eexists; apply breaks_mid; lia].
      pose proof (breaks_last lb ub f df x (proj2 (proj2 HSup))) as Q. rewrite E in Q. rewrite Q.
      pose proof (domj 0 ltac:(lia)) as [_ D]. 
      destruct ub as [|v|]; [contradiction|eauto|destruct (HUB eq_refl); lia]. }
    rewrite EV. simpl. eexists. left. reflexivity.
  - rewrite H. eauto.
Qed.
Lemma vol_ok off j e : (j < n)%nat -> vol off (df (X j)) (se j e) = Some (V j e * exp (- off) / df (X j)).
Proof.
  intros H. pose proof (nzj j H) as Z. unfold vol, fdiv, se, val.
  destruct (Reqb_dec (df (X j)) 0) as [[Q _]|[_ ->]]; [contradiction|].
  destruct e as [|v|]; f_equal; try (field; auto; fail).
  unfold tangent. rewrite <- exp_plus. do 2 f_equal. ring.
Qed.
Definition m_ (off : R) (j : nat) : R := V j (Y (S j)) * exp (- off) / df (X j) - V j (Y j) * exp (- off) / df (X j).
Lemma table_ok : exists off, envelope_table x (map f x) (map df x) (breaks lb ub f df x)
  = Some (off, map (fun j => V j (Y j) * exp (- off) / df (X j)) (seq 0 n), map (fun k => rsum k (m_ off)) (seq 0 (S n))).
Proof.
  destruct off_ok as (off & E). exists off. unfold envelope_table. rewrite exps_hi, exps_lo. cbn [obind]. rewrite E. cbn [obind].
  assert (VV : forall g, opt_list (map2 (vol off) (map df x) (map (fun j => se j (g j)) (seq 0 n))) = Some (map (fun j => V j (g j) * exp (- off) / df (X j)) (seq 0 n))).
  { intros g. rewrite (map2_seq _ _ _ n (df 0) PosInf) by (rewrite map_length, ?seq_length; auto).
    apply opt_list_seq. intros j Hj. rewrite map_nth, nth_map_seq by auto. apply vol_ok; auto. }
  rewrite (VV (fun j => Y j)), (VV (fun j => Y (S j))). cbn [obind]. do 2 f_equal.
  rewrite (map2_seq _ _ _ n 0 0) by (rewrite map_length, ?seq_length; auto).
  rewrite <- cdf_seq. do 2 f_equal. apply map_seq_ext. intros j Hj. rewrite !nth_map_seq by auto. reflexivity.
Qed.
Lemma m_pos off j : (j < n)%nat -> 0 < m_ off j.
Proof.
  intros H. unfold m_. replace (_ - _) with (exp (- off) * ((V j (Y (S j)) - V j (Y j)) / df (X j))) by (field; apply nzj; auto).
  apply Rmult_lt_0_compat; [apply exp_pos|]. apply val_lt; auto using nzj, okl_lo, okl_hi.
  apply breaks_sorted; auto; lia.
Qed.
Lemma rsum_incr g i j : (i < j)%nat -> (forall k, (k < j)%nat -> 0 < g k) -> rsum i g < rsum j g.
Proof.
  intros H. induction H as [|j H IH]; intros P; rewrite rsum_S.
  - specialize (P i ltac:(lia)). lra.
  - specialize (P j ltac:(lia)) as Pj. specialize (IH ltac:(intros; apply P; lia)). lra.
Qed.
Definition above_lo (lo : ext) (p : R) := elt lo (Fin p).
Theorem envelope_inverse : forall o k z, ora_r o k (DUniform 0 1) = z -> 0 < z < 1 ->
  exists p i M m, fst (sample_envelope x (map f x) (map df x) (breaks lb ub f df x) o k) = Ok (Some p) /\ (i < n)%nat /\
    elt (Y i) (Fin p) /\ ele (Fin p) (Y (S i)) /\ dom lb ub p /\
    (forall j, (j < n)%nat -> mass f df (X j) (Y j) (Y (S j)) (M j)) /\
    mass f df (X i) (Y i) (Fin p) m /\
    rsum i M + m = z * rsum n M.
Proof.
  intros o k z HO HZ. destruct table_ok as (off & ET). pose proof n_pos as NP.
  unfold sample_envelope. rewrite ET. unfold bind at 1. unfold lift at 1. unfold get at 1.
  set (cdf := map (fun k => rsum k (m_ off)) (seq 0 (S n))).
  assert (CL : length cdf = S n) by (unfold cdf; rewrite map_length, seq_length; auto).
  assert (CN : forall j, (j <= n)%nat -> nth j cdf 0 = rsum j (m_ off)) by (intros; unfold cdf; rewrite nth_map_seq by lia; auto).
  assert (EL : pyget cdf (-1) = Some (rsum n (m_ off))).
  { change (pyget cdf (-1)) with (last_opt cdf). unfold cdf. rewrite seq_S, map_app. apply last_opt_app. }
  rewrite EL. cbn [fst snd]. unfold bind at 1. unfold draw_r at 1. rewrite HO.
  set (N := rsum n (m_ off)).
  assert (NPOS : 0 < N). { replace 0 with (rsum 0 (m_ off)) by reflexivity. apply rsum_incr; auto. intros; apply m_pos; auto. }
  rewrite (map_as_seq _ cdf 0), CL.
  assert (NC : forall j, (j < S n)%nat -> fdiv (nth j cdf 0) N = Some (rsum j (m_ off) / N)).
  { intros j Hj. rewrite CN by lia. unfold fdiv. destruct (Reqb_dec N 0) as [[Q _]|[_ ->]]; [lra|auto]. }
  rewrite (opt_list_seq _ (fun j => rsum j (m_ off) / N) (S n) NC).
  set (ncdf := map (fun j => rsum j (m_ off) / N) (seq 0 (S n))).
  assert (NL : length ncdf = S n) by (unfold ncdf; rewrite map_length, seq_length; auto).
  assert (NN : forall j, (j <= n)%nat -> nth j ncdf 0 = rsum j (m_ off) / N) by (intros; unfold ncdf; rewrite nth_map_seq by lia; auto).
  assert (LTN : forall j, (j <= n)%nat -> (Rltb (nth j ncdf 0) z = true <-> rsum j (m_ off) < N * z)).
  { intros j Hj. rewrite Rltb_true, NN by auto. split; intros Q.
    - apply (Rmult_lt_compat_l N) in Q; auto. replace (N * (rsum j (m_ off) / N)) with (rsum j (m_ off)) in Q by (field; lra). auto.
    - apply (Rmult_lt_reg_l N); auto. replace (N * (rsum j (m_ off) / N)) with (rsum j (m_ off)) by (field; lra). auto. }
  assert (CS := count_spec (fun a => nltb a z) ncdf 0). cbv beta in CS. rewrite NL in CS.
  specialize (CS ltac:(intros i j Hij Q; apply LTN; [lia|]; apply LTN in Q; [|lia];
     eapply Rlt_trans; [apply (rsum_incr (m_ off) i j); [lia|intros; apply m_pos; lia]|exact Q])).
  fold (searchsorted_left ncdf z) in CS. set (s := searchsorted_left ncdf z) in *.
  assert (S0 : (0 < s)%nat).
  { apply CS; [lia|]. apply LTN; [lia|]. simpl. apply Rmult_lt_0_compat; lra. }
  assert (S1 : ~ (n < s)%nat).
  { intros Q. apply CS in Q; [|lia]. apply LTN in Q; [|lia]. fold N in Q. nra. }
  destruct s as [|i] eqn:ES; [lia|]. replace (Z.of_nat (S i) - 1)%Z with (Z.of_nat i) by lia.
  assert (L1 : rsum i (m_ off) < N * z) by (apply LTN; [lia|]; apply CS; lia).
  assert (L2 : N * z <= rsum (S i) (m_ off)).
  { apply Rnot_lt_le. intros Q. apply LTN in Q; [|lia]. apply CS in Q; lia. }
  assert (Hi : (i < n)%nat) by lia.
  rewrite (get_nat x i 0), (get_nat (map df x) i (df 0)), (get_nat (map f x) i (f 0)) by (rewrite ?map_length; auto).
  rewrite (get_nat _ i 0) by (rewrite map_length, seq_length; auto). rewrite (get_nat cdf i 0) by lia.
  rewrite nth_map_seq by auto. rewrite !map_nth, CN by lia.
  unfold bind, lift, ret. cbn [fst].
  set (d := df (X i)). set (t := N * z - rsum i (m_ off)).
  pose proof (nzj i Hi) as DZ. fold d in DZ.
  set (arg := (t + V i (Y i) * exp (- off) / d) * d).
  assert (EA : arg = t * d + V i (Y i) * exp (- off)) by (unfold arg, t; field; auto).
  assert (T0 : 0 < t) by (unfold t; lra).
  assert (T1 : t <= m_ off i) by (unfold t; rewrite rsum_S in L2; lra).
  assert (ME : m_ off i * d = V i (Y (S i)) * exp (- off) - V i (Y i) * exp (- off)) by (unfold m_; fold d; field; auto).
  assert (VP : forall e, 0 <= V i e) by (intros [|v|]; simpl; try lra; left; apply exp_pos).
  pose proof (exp_pos (- off)) as EP.
  assert (AP : 0 < arg).
  { rewrite EA. destruct (Rtotal_order d 0) as [Dn|[?|Dp]]; [|contradiction|].
    - assert (Q : m_ off i * d <= t * d) by nra. 
      assert (0 <= V i (Y (S i)) * exp (- off)) by (apply Rmult_le_pos; [apply VP|lra]).
      destruct (Nat.eq_dec (S i) n) as [E|NE].
      + assert (t < m_ off i). { unfold t. rewrite E in L2. assert (N = rsum i (m_ off) + m_ off i) by (unfold N; rewrite <- E; apply rsum_S). nra. }
        assert (m_ off i * d < t * d) by nra. lra.
      + rewrite breaks_mid in * by lia. simpl (val _ _ _ (Fin _)) in ME.
        assert (0 < exp (tangent f df (X i) (inter f df (X i) (X (S i)))) * exp (- off)) by (apply Rmult_lt_0_compat; apply exp_pos).
        lra.
    - assert (0 < t * d) by (apply Rmult_lt_0_compat; auto). assert (0 <= V i (Y i) * exp (- off)) by (apply Rmult_le_pos; [apply VP|lra]). lra. }
  fold d. rewrite (L_adapt.np_log_pos arg AP). cbn [obind]. unfold fdiv.
  destruct (Reqb_dec d 0) as [[Q _]|[_ ->]]; [contradiction|]. cbn [obind].
  set (p := X i + (ln arg - f (X i) + off) / d).
  assert (TP : tangent f df (X i) p = ln arg + off) by (unfold tangent, p; fold d; field; auto).
  assert (VPp : V i (Fin p) = arg * exp off) by (simpl; rewrite TP, exp_plus, exp_ln; auto).
  assert (EE : exp (- off) * exp off = 1) by (rewrite <- exp_plus, Rplus_opp_l, exp_0; auto).
  set (M := fun j => m_ off j * exp off).
  exists p, i, M, (t * exp off). split; [reflexivity|]. split; [auto|].
  assert (ORD : elt (Y i) (Fin p) /\ ele (Fin p) (Y (S i))).
  { assert (A1 : (0 < d -> V i (Y i) < V i (Fin p)) /\ (d < 0 -> V i (Fin p) < V i (Y i))).
    { rewrite VPp, EA. replace ((t * d + V i (Y i) * exp (- off)) * exp off) with (t * exp off * d + V i (Y i)) by (rewrite Rmult_plus_distr_r; rewrite (Rmult_assoc (V i (Y i))), EE; ring).
      assert (0 < t * exp off) by (apply Rmult_lt_0_compat; [auto|apply exp_pos]). split; intros; nra. }
    assert (A2 : (0 < d -> V i (Fin p) <= V i (Y (S i))) /\ (d < 0 -> V i (Y (S i)) <= V i (Fin p))).
    { rewrite VPp, EA. replace ((t * d + V i (Y i) * exp (- off)) * exp off) with (t * exp off * d + V i (Y i)) by (rewrite Rmult_plus_distr_r; rewrite (Rmult_assoc (V i (Y i))), EE; ring).
      assert (B : m_ off i * exp off * d = V i (Y (S i)) - V i (Y i)).
      { replace (m_ off i * exp off * d) with (m_ off i * d * exp off) by ring. rewrite ME. 
        replace ((V i (Y (S i)) * exp (- off) - V i (Y i) * exp (- off)) * exp off) with ((V i (Y (S i)) - V i (Y i)) * (exp (- off) * exp off)) by ring. rewrite EE; ring. }
      assert (t * exp off <= m_ off i * exp off) by (apply Rmult_le_compat_r; [left; apply exp_pos|auto]). split; intros; nra. }
    pose proof (okl_lo i Hi) as O1. pose proof (okl_hi i Hi) as O2.
    assert (MONO : forall u v, exp (tangent f df (X i) u) < exp (tangent f df (X i) v) -> (u - v) * d < 0).
    { intros u v Q. apply exp_lt_inv in Q. unfold tangent in Q. fold d in Q. nra. }
    split.
    - destruct (Y i) as [|v|] eqn:EY; [exact I| |].
      + simpl. simpl in A1. destruct (Rtotal_order d 0) as [Dn|[?|Dp]]; [|contradiction|].
        * apply A1 in Dn as Q. apply MONO in Q. nra.
        * apply A1 in Dp as Q. apply MONO in Q. nra.
      + pose proof (breaks_around lb ub f df x i HC HSup Hi) as [B _]. rewrite EY in B. contradiction.
    - destruct (Y (S i)) as [|v|] eqn:EY; [| |exact I].
      + pose proof (breaks_around lb ub f df x i HC HSup Hi) as [_ B]. rewrite EY in B. contradiction.
      + simpl. simpl in A2. apply Rnot_lt_le. intros L.
        destruct (Rtotal_order d 0) as [Dn|[?|Dp]]; [|contradiction|].
        * apply A2 in Dn as Q. assert (tangent f df (X i) p < tangent f df (X i) v) as W by (unfold tangent; fold d; nra).
          apply exp_increasing in W. lra.
        * apply A2 in Dp as Q. assert (tangent f df (X i) v < tangent f df (X i) p) as W by (unfold tangent; fold d; nra).
          apply exp_increasing in W. lra. }
  split; [apply ORD|]. split; [apply ORD|]. destruct ORD as [O1 O2]. split; [split|split; [|split]].
  - destruct i as [|i']; [exact O1|]. eapply elt_trans; [|exact O1].
    change lb with (nth 0 (breaks lb ub f df x) PosInf) at 1. apply breaks_sorted; auto; lia.
  - destruct (Nat.eq_dec (S i) n) as [E|NE].
    + assert (ST : t < m_ off i). { unfold t. rewrite E in L2. assert (N = rsum i (m_ off) + m_ off i) by (unfold N; rewrite <- E; apply rsum_S). nra. }
      rewrite E in O2. rewrite breaks_last in O2 by apply HSup. rewrite E in ME. rewrite breaks_last in ME by apply HSup.
      assert (W : forall u, ub = Fin u -> p <> u).
      { intros u EU Ep. assert (VU : V i ub = arg * exp off) by (rewrite <- VPp, EU, Ep; reflexivity). rewrite VU in ME. clear -ME EA EE ST DZ T0.
        assert (Q : m_ off i * d = t * d).
        { rewrite ME. replace (arg * exp off * exp (- off)) with (arg * (exp (- off) * exp off)) by ring. rewrite EE, EA. ring. }
        apply Rmult_eq_reg_r in Q; auto. lra. }
      destruct ub as [|u|]; simpl in *; auto. specialize (W u eq_refl). lra.
    + pose proof (breaks_sorted lb ub f df x (S i) n HC HSup ltac:(lia)) as B3. rewrite breaks_last in B3 by apply HSup.
      destruct (Y (S i)), ub; simpl in *; auto; try contradiction. lra.
  - intros j Hj. unfold M, m_. 
    replace ((V j (Y (S j)) * exp (- off) / df (X j) - V j (Y j) * exp (- off) / df (X j)) * exp off)
      with ((exp (- off) * exp off) * ((V j (Y (S j)) - V j (Y j)) / df (X j))) by (field; apply nzj; auto).
    rewrite EE, Rmult_1_l. apply mass_ok; auto using nzj, okl_lo, okl_hi.
  - replace (t * exp off) with ((V i (Fin p) - V i (Y i)) / df (X i)).
    + apply mass_ok; auto using nzj, okl_lo. exact I.
    + rewrite VPp, EA. fold d. rewrite Rmult_plus_distr_r. rewrite (Rmult_assoc (V i (Y i))), EE. field. auto.
  - unfold M. rewrite !rsum_scal_r. fold N. unfold t. ring.
Qed.
(** a draw of exactly 0 wraps around to the last segment *)
Lemma envelope_zero : forall o k, ora_r o k (DUniform 0 1) = 0 -> df (X (n - 1)) < 0 ->
  exists p, fst (sample_envelope x (map f x) (map df x) (breaks lb ub f df x) o k) = Ok (Some p) /\
    exp (tangent f df (X (n - 1)) p) =
      V (n - 1) (Y (n - 1)) - df (X (n - 1)) * rsum n (fun j => (V j (Y (S j)) - V j (Y j)) / df (X j)).
Proof.
  intros o k HO DN. destruct table_ok as (off & ET). pose proof n_pos as NP.
  unfold sample_envelope. rewrite ET. unfold bind at 1. unfold lift at 1. unfold get at 1.
  set (cdf := map (fun k => rsum k (m_ off)) (seq 0 (S n))).
  assert (CL : length cdf = S n) by (unfold cdf; rewrite map_length, seq_length; auto).
  assert (CN : forall j, (j <= n)%nat -> nth j cdf 0 = rsum j (m_ off)) by (intros; unfold cdf; rewrite nth_map_seq by lia; auto).
  assert (EL : pyget cdf (-1) = Some (rsum n (m_ off))).
  { change (pyget cdf (-1)) with (last_opt cdf). unfold cdf. rewrite seq_S, map_app. apply last_opt_app. }
  rewrite EL. cbn [fst snd]. unfold bind at 1. unfold draw_r at 1. rewrite HO.
  set (N := rsum n (m_ off)).
  assert (NPOS : 0 < N). { replace 0 with (rsum 0 (m_ off)) by reflexivity. apply rsum_incr; auto. intros; apply m_pos; auto. }
  rewrite (map_as_seq _ cdf 0), CL.
  assert (NC : forall j, (j < S n)%nat -> fdiv (nth j cdf 0) N = Some (rsum j (m_ off) / N)).
  { intros j Hj. rewrite CN by lia. unfold fdiv. destruct (Reqb_dec N 0) as [[Q _]|[_ ->]]; [lra|auto]. }
  rewrite (opt_list_seq _ (fun j => rsum j (m_ off) / N) (S n) NC).
  assert (S0 : searchsorted_left (map (fun j => rsum j (m_ off) / N) (seq 0 (S n))) 0 = 0%nat).
  { unfold searchsorted_left. rewrite filter_none; [reflexivity|]. intros c Hc. apply in_map_iff in Hc. destruct Hc as (j & <- & Hj). apply in_seq in Hj.
    apply Rltb_false. apply Rmult_le_pos; [|left; apply Rinv_0_lt_compat; auto]. apply rsum_nonneg. intros i Hi. left. apply m_pos. lia. }
  rewrite S0. change (Z.of_nat 0 - 1)%Z with (-1)%Z.
  assert (GL : forall {B} (l : list B) e, length l = n -> get l (-1) = Ok (nth (n - 1) l e)).
  { intros B l e HL. unfold get. change (pyget l (-1)) with (last_opt l). destruct l as [|b l] using rev_ind; [simpl in HL; lia|].
    rewrite last_opt_app. rewrite app_length in HL. simpl in HL. replace (n - 1)%nat with (length l) by lia. rewrite app_nth2, Nat.sub_diag by lia. auto. }
  rewrite (GL _ x 0), (GL _ (map df x) (df 0)), (GL _ (map f x) (f 0)) by (rewrite ?map_length; auto).
  rewrite (GL _ (map (fun j => V j (Y j) * exp (- off) / df (X j)) (seq 0 n)) 0) by (rewrite map_length, seq_length; auto).
  rewrite !map_nth. rewrite nth_map_seq by lia. unfold get. rewrite EL. fold N. unfold bind, lift, ret. cbn [fst].
  pose proof (nzj (n - 1) ltac:(lia)) as DZ. set (d := df (X (n - 1))) in *.
  set (v := V (n - 1) (Y (n - 1))). assert (VP : 0 <= v) by (unfold v; destruct (Y (n - 1)); simpl; try lra; left; apply exp_pos).
  pose proof (exp_pos (- off)) as EP.
  set (arg := (N * 0 - N + v * exp (- off) / d) * d).
  assert (EA : arg = v * exp (- off) - d * N) by (unfold arg; field; auto).
  assert (AP : 0 < arg).
  { rewrite EA. assert (0 <= v * exp (- off)) by (apply Rmult_le_pos; lra). nra. }
  rewrite (L_adapt.np_log_pos arg AP). cbn [obind]. unfold fdiv. destruct (Reqb_dec d 0) as [[Q _]|[_ ->]]; [contradiction|]. cbn [obind].
  eexists. split; [reflexivity|].
  replace (tangent f df (X (n - 1)) _) with (ln arg + off) by (unfold tangent; fold d; field; auto).
  rewrite exp_plus, exp_ln, EA by auto.
  assert (EE : exp (- off) * exp off = 1) by (rewrite <- exp_plus, Rplus_opp_l, exp_0; auto).
  replace ((v * exp (- off) - d * N) * exp off) with (v * (exp (- off) * exp off) - d * (N * exp off)) by ring. rewrite EE. f_equal; [ring|]. f_equal.
  unfold N. rewrite <- rsum_scal_r. apply rsum_ext. intros j Hj. unfold m_.
  replace ((V j (Y (S j)) * exp (- off) / df (X j) - V j (Y j) * exp (- off) / df (X j)) * exp off)
      with ((exp (- off) * exp off) * ((V j (Y (S j)) - V j (Y j)) / df (X j))) by (field; apply nzj; auto).
  rewrite EE. ring.
Qed.
End Env.

(** standard normal log density (up to a constant) *)
Definition nf (v : R) : R := - v ^ 2 / 2.
Definition ndf (v : R) : R := - v.
Lemma nf_derive v : is_derive nf v (ndf v).
Proof. unfold nf, ndf. auto_derive; auto. field. Qed.
Lemma nf_concave : strictly_concave_on NegInf PosInf nf ndf.
Proof. split; [|unfold ndf; intros; lra]. intros v _. apply is_derive_Reals, nf_derive. Qed.
