(** sample_bridge: what it returns, that it never raises, that it terminates. *)
From Coq Require Import Reals List ZArith Bool Arith Lia Lra Sorted Permutation.
From Coquelicot Require Import Hierarchy Series.
From Verif Require Import Base Np Rng Mat M_mjp SpecMjp L_list L_path L_part L_path2 L_rng L_mat L_sim L_bridge L_unif.
Import ListNotations.
Local Open Scope R_scope.

(** ** logarithms with -inf *)
Lemma eln_pos x : 0 < x -> eln x = Fin (ln x).
Proof. intros H. unfold eln. destruct (Rltb_dec 0 x) as [[? ->]|[? ?]]; auto; lra. Qed.
Lemma eln_0 : eln 0 = NegInf.
Proof. unfold eln. destruct (Rltb_dec 0 0) as [[? ?]|[? ->]]; auto; lra. Qed.
Lemma elogaddexp_eln a b : 0 <= a -> 0 <= b -> elogaddexp (eln a) (eln b) = eln (a + b).
Proof.
  intros Ha Hb. destruct (Req_dec a 0) as [->|Na].
  - rewrite eln_0, Rplus_0_l. simpl. destruct (eln b); auto.
  - destruct (Req_dec b 0) as [->|Nb].
    + rewrite eln_0, Rplus_0_r, eln_pos by lra. reflexivity.
    + rewrite !eln_pos by lra. simpl. rewrite !exp_ln by lra. reflexivity.
Qed.
Lemma eltb_eln a b : 0 <= a -> 0 <= b -> eltb (eln a) (eln b) = Rltb a b.
Proof.
  intros Ha Hb. destruct (Req_dec a 0) as [->|Na]; destruct (Req_dec b 0) as [->|Nb].
  - rewrite eln_0. simpl. symmetry. apply Rltb_false; lra.
  - rewrite eln_0, eln_pos by lra. simpl. symmetry. apply Rltb_true; lra.
  - rewrite eln_0, eln_pos by lra. simpl. symmetry. apply Rltb_false; lra.
  - rewrite !eln_pos by lra. simpl. destruct (Rltb_dec a b) as [[L ->]|[L ->]].
    + apply Rltb_true. apply ln_increasing; lra.
    + apply Rltb_false. destruct (Req_dec a b) as [->|]; [lra|]. left. apply ln_increasing; lra.
Qed.
Lemma eplus_eln a b : 0 <= a -> 0 <= b -> eplus (eln a) (eln b) = eln (a * b).
Proof.
  intros Ha Hb. destruct (Req_dec a 0) as [->|Na].
  - rewrite Rmult_0_l, eln_0. reflexivity.
  - destruct (Req_dec b 0) as [->|Nb].
    + rewrite Rmult_0_r, eln_0, eln_pos by lra. reflexivity.
    + rewrite !eln_pos by (try apply Rmult_lt_0_compat; lra). simpl. rewrite ln_mult by lra. reflexivity.
Qed.
Lemma fin_eln r : Fin r = eln (exp r).
Proof. rewrite eln_pos by apply exp_pos. rewrite ln_exp. reflexivity. Qed.
Lemma ln_pow' n x : 0 < x -> INR n * ln x = ln (x ^ n).
Proof.
  intros H. induction n as [|n IH]; [simpl; rewrite ln_1; lra|].
  rewrite S_INR. cbn [pow]. rewrite ln_mult by (auto using pow_lt). rewrite <- IH. lra.
Qed.
Lemma trans_term_eln n lam pw : 0 < lam -> 0 < pw -> trans_term n lam pw = eln (lam ^ n / INR (fact n) * pw).
Proof.
  intros Hl Hp. unfold trans_term. rewrite eln_pos by auto. cbn [enmul].
  rewrite ln_pow' by auto. rewrite <- ln_Rinv by apply INR_fact_lt_0.
  rewrite <- (eln_pos (lam ^ n)) by (apply pow_lt; auto).
  rewrite <- (eln_pos (/ INR (fact n))) by (apply Rinv_0_lt_compat, INR_fact_lt_0).
  pose proof (pow_lt lam n Hl). pose proof (Rinv_0_lt_compat _ (INR_fact_lt_0 n)).
  pose proof (Rmult_lt_0_compat _ _ H H0).
  rewrite !eplus_eln by lra. reflexivity.
Qed.

Section B.
Variables (L : linalg) (dim : nat) (gen : mat) (fin_t : R).
Hypothesis Hgen : generator dim gen.
Hypothesis Hrb : 0 < rate_bound dim gen.
Hypothesis Hfin : 0 < fin_t.
Hypothesis HL : expm_exact L.
Let P := dtrans dim gen.
Let lam := rate_bound dim gen * fin_t.
Let HP : stochastic dim P := dtrans_stochastic dim gen Hgen Hrb.
Let Hlam : 0 < lam := Rmult_lt_0_compat _ _ Hrb Hfin.
Let C := get_trans L dim fin_t gen.

(** partial sums of the series of non-negative terms *)
Definition psum (i f n : nat) : R := rsum (S n) (uterm dim P lam i f).
Lemma uterm_nonneg i f n : (i < dim)%nat -> (f < dim)%nat -> 0 <= uterm dim P lam i f n.
Proof.
  intros Hi Hf. unfold uterm. apply Rmult_le_pos; [|apply (mpow_bounds dim P HP); auto].
  apply Rle_mult_inv_pos; [|apply INR_fact_lt_0]. left; apply pow_lt; auto.
Qed.
Lemma psum_nonneg i f n : (i < dim)%nat -> (f < dim)%nat -> 0 <= psum i f n.
Proof. intros Hi Hf. apply rsum_nonneg. intros; apply uterm_nonneg; auto. Qed.

Lemma trans_series i f : (i < dim)%nat -> (f < dim)%nat ->
  is_series (uterm dim P lam i f) (C i f * exp lam).
Proof.
  intros Hi Hf. apply (unif_series dim P HP lam C); auto.
  intros a b Ha Hb. pose proof (HL dim (fun i j => fin_t * gen i j) a b Ha Hb) as H. fold C in H.
  assert (E : forall n a b, (a < dim)%nat -> (b < dim)%nat ->
     mpow dim (shiftm P lam) n a b = mpow dim (fun i j => fin_t * gen i j) n a b).
  { clear a b Ha Hb H. induction n as [|n IH]; intros a b Ha Hb; auto. cbn [mpow]. apply mmul_ext.
    - intros k Hk. auto.
    - intros k Hk. unfold shiftm, P, dtrans, lam. field. lra. }
  intros eps He. destruct (H eps He) as [N HN]. exists N. intros n Hn.
  rewrite (sum_eq _ (fun n => mpow dim (fun i j => fin_t * gen i j) n a b / INR (fact n))); auto.
  intros m _. rewrite E; auto.
Qed.
Lemma psum_lim i f : (i < dim)%nat -> (f < dim)%nat -> Un_cv (psum i f) (C i f * exp lam).
Proof.
  intros Hi Hf. pose proof (trans_series i f Hi Hf) as H. apply is_series_Reals in H.
  intros eps He. destruct (H eps He) as [N HN]. exists N. intros n Hn. specialize (HN n Hn).
  unfold psum. rewrite nsum_f_R0 in HN.
  replace (rsum (S n) (uterm dim P lam i f)) with (nsum (uterm dim P lam i f) n); auto.
  clear. induction n as [|n IH]; [simpl; lra|]. simpl nsum. rewrite IH. reflexivity.
Qed.
Lemma psum_mono i f n m : (i < dim)%nat -> (f < dim)%nat -> (n <= m)%nat -> psum i f n <= psum i f m.
Proof.
  intros Hi Hf H. induction H as [|m H IH]; [lra|].
  change (psum i f (S m)) with (psum i f m + uterm dim P lam i f (S m)).
  pose proof (uterm_nonneg i f (S m) Hi Hf). lra.
Qed.
Lemma psum_le i f n : (i < dim)%nat -> (f < dim)%nat -> psum i f n <= C i f * exp lam.
Proof.
  intros Hi Hf. apply (growing_ineq (psum i f)); [|apply psum_lim; auto].
  intros m. apply psum_mono; auto.
Qed.
Lemma trans_nonneg i f : (i < dim)%nat -> (f < dim)%nat -> 0 <= C i f.
Proof.
  intros Hi Hf. pose proof (psum_le i f 0 Hi Hf). pose proof (psum_nonneg i f 0 Hi Hf). pose proof (exp_pos lam).
  apply Rmult_le_reg_r with (exp lam); auto. lra.
Qed.
Lemma trans_pos_diag i : (i < dim)%nat -> 0 < C i i.
Proof.
  intros Hi. pose proof (psum_le i i 0 Hi Hi) as H. pose proof (exp_pos lam).
  apply Rmult_lt_reg_r with (exp lam); auto. eapply Rlt_le_trans; [|apply H].
  unfold psum, uterm. simpl. unfold mident. rewrite Nat.eqb_refl. lra.
Qed.
Lemma trans_pos_off i f : (i < dim)%nat -> (f < dim)%nat -> i <> f -> 0 < gen i f -> 0 < C i f.
Proof.
  intros Hi Hf N Hp. pose proof (psum_le i f 1 Hi Hf) as H. pose proof (exp_pos lam).
  apply Rmult_lt_reg_r with (exp lam); auto. eapply Rlt_le_trans; [|apply H]. rewrite Rmult_0_l.
  change (psum i f 1) with (psum i f 0 + uterm dim P lam i f 1).
  pose proof (psum_nonneg i f 0 Hi Hf) as H0'.
  assert (0 < uterm dim P lam i f 1); [|lra]. unfold uterm.
  assert (E : mpow dim P 1 i f = P i f) by (cbn [mpow]; apply (mident_l dim P); auto).
  rewrite E. simpl pow. simpl fact. simpl INR. apply Rmult_lt_0_compat; [lra|].
  unfold P, dtrans, mident. destruct (Nat.eqb_spec i f); [contradiction|].
  assert (0 < gen i f / rate_bound dim gen) by (apply Rdiv_lt_0_compat; auto). lra.
Qed.

(** the loop is a search in the partial sums *)
Lemma n_trans_loop_search fuel i f w : (i < dim)%nat -> (f < dim)%nat -> 0 <= w -> forall n m l,
  n_trans_loop fuel dim P lam i f (eln w) n (eln (psum i f n)) (rev (powers dim gen n)) = Ok (m, l) ->
  (n <= m)%nat /\ w <= psum i f m /\ forall k, (n <= k < m)%nat -> psum i f k < w.
Proof.
  intros Hi Hf Hw. induction fuel as [|fuel IH]; intros n m l; cbn [n_trans_loop]; [discriminate|].
  rewrite eltb_eln by (auto using psum_nonneg).
  destruct (Rltb_dec (psum i f n) w) as [[LT ->]|[GE ->]].
  - rewrite powers_hd_rev. fold P. change (mmul dim (mpow dim P n) P) with (mpow dim P (S n)).
    replace (mpow dim P (S n) :: rev (powers dim gen n)) with (rev (powers dim gen (S n)))
      by (rewrite powers_S, rev_app_distr; reflexivity).
    match goal with |- context [n_trans_loop _ _ _ _ _ _ _ _ ?p _] => assert (EP : p = eln (psum i f (S n))) end.
    { change (psum i f (S n)) with (psum i f n + uterm dim P lam i f (S n)). unfold uterm.
      destruct (Reqb_dec (mpow dim P (S n) i f) 0) as [[Z ->]|[Z ->]].
      - rewrite Z, Rmult_0_r, Rplus_0_r. reflexivity.
      - destruct (mpow_bounds dim P HP (S n) i f Hi Hf) as [B0 _].
        rewrite trans_term_eln by (auto; lra). apply elogaddexp_eln; [apply psum_nonneg; auto|].
        apply (uterm_nonneg i f (S n) Hi Hf). }
    rewrite EP. intros H. apply IH in H as (H1 & H2 & H3). repeat split; auto; try lia.
    intros k Hk. destruct (Nat.eq_dec k n) as [->|]; auto. apply H3; lia.
  - intros H; injection H as <- <-. repeat split; auto. intros k Hk. lia.
Qed.

Lemma n_trans_loop_total i f w : (i < dim)%nat -> (f < dim)%nat -> 0 <= w -> forall N, w <= psum i f N ->
  forall fuel n, (N < fuel + n)%nat -> (n <= N)%nat ->
  exists m, n_trans_loop fuel dim P lam i f (eln w) n (eln (psum i f n)) (rev (powers dim gen n)) = Ok (m, powers dim gen m).
Proof.
  intros Hi Hf Hw N HN. induction fuel as [|fuel IH]; intros n H1 H2; [lia|]. cbn [n_trans_loop].
  rewrite eltb_eln by (auto using psum_nonneg).
  destruct (Rltb_dec (psum i f n) w) as [[LT ->]|[GE ->]].
  - assert (n <> N) by (intros ->; lra).
    rewrite powers_hd_rev. fold P. change (mmul dim (mpow dim P n) P) with (mpow dim P (S n)).
    replace (mpow dim P (S n) :: rev (powers dim gen n)) with (rev (powers dim gen (S n)))
      by (rewrite powers_S, rev_app_distr; reflexivity).
    match goal with |- context [n_trans_loop _ _ _ _ _ _ _ _ ?p _] => assert (EP : p = eln (psum i f (S n))) end.
    { change (psum i f (S n)) with (psum i f n + uterm dim P lam i f (S n)). unfold uterm.
      destruct (Reqb_dec (mpow dim P (S n) i f) 0) as [[Z ->]|[Z ->]].
      - rewrite Z, Rmult_0_r, Rplus_0_r. reflexivity.
      - destruct (mpow_bounds dim P HP (S n) i f Hi Hf) as [B0 _].
        rewrite trans_term_eln by (auto; lra). apply elogaddexp_eln; [apply psum_nonneg; auto|].
        apply (uterm_nonneg i f (S n) Hi Hf). }
    rewrite EP. apply IH; lia.
  - exists n. rewrite rev_involutive. reflexivity.
Qed.

Lemma psum_0 i f : (if Nat.eqb i f then Fin 0 else NegInf) = eln (psum i f 0).
Proof.
  unfold psum, uterm. simpl. unfold mident. destruct (Nat.eqb i f).
  - rewrite eln_pos by lra. replace (0 + 1 / 1 * 1) with 1 by field. rewrite ln_1. reflexivity.
  - replace (0 + 1 / 1 * 0) with 0 by field. rewrite eln_0. reflexivity.
Qed.

Definition target (v : R) (i f : nat) : R := v * C i f * exp lam.
Lemma sample_n_trans_unfold fuel i f o k : valid o -> (i < dim)%nat -> (f < dim)%nat ->
  sample_n_trans fuel dim P (rate_bound dim gen) fin_t C i f o k =
  (n_trans_loop fuel dim P lam i f (eln (target (ora_r o k (DUniform 0 1)) i f)) 0 (eln (psum i f 0)) (rev (powers dim gen 0)), S k).
Proof.
  intros [V _] Hi Hf. unfold sample_n_trans, bind, draw_r, lift. rewrite <- psum_0.
  destruct (V k (DUniform 0 1)) as (u & Hu & E). rewrite E.
  replace (0 + (1 - 0) * u) with u by ring.
  fold lam. rewrite (fin_eln lam).
  pose proof (trans_nonneg i f Hi Hf). pose proof (exp_pos lam).
  assert (0 <= u * C i f) by (apply Rmult_le_pos; lra).
  rewrite !eplus_eln by lra. reflexivity.
Qed.
Lemma uniform01 o k : valid o -> 0 <= ora_r o k (DUniform 0 1) < 1.
Proof. intros [V _]. destruct (V k (DUniform 0 1)) as (u & Hu & E). rewrite E. lra. Qed.
Lemma target_nonneg v i f : 0 <= v -> (i < dim)%nat -> (f < dim)%nat -> 0 <= target v i f.
Proof.
  intros. unfold target. apply Rmult_le_pos; [|left; apply exp_pos]. apply Rmult_le_pos; auto. apply trans_nonneg; auto.
Qed.

(** inverse distribution function of the number of candidate transitions *)
Lemma sample_n_trans_exact fuel i f o k n l k' : valid o -> (i < dim)%nat -> (f < dim)%nat -> 0 < C i f ->
  sample_n_trans fuel dim P (rate_bound dim gen) fin_t C i f o k = (Ok (n, l), k') ->
  let v := ora_r o k (DUniform 0 1) in
  let F m := rsum m (fun j => exp (- lam) * (lam ^ j / INR (fact j)) * mpow dim P j i f) / C i f in
  v <= F (S n) /\ (forall m, (m <= n)%nat -> (0 < m)%nat -> F m < v) /\ l = powers dim gen n.
Proof.
  intros V Hi Hf HC H v F. rewrite sample_n_trans_unfold in H by auto. injection H as H _.
  pose proof (uniform01 o k V) as Hv. fold v in Hv.
  pose proof (n_trans_loop_search _ _ _ _ Hi Hf (target_nonneg v i f (proj1 Hv) Hi Hf) _ _ _ H) as (_ & H2 & H3).
  apply n_trans_loop_spec in H as (_ & H4 & _ & _).
  assert (EF : forall m, F (S m) = psum i f m / (C i f * exp lam)).
  { intros m. unfold F, psum. rewrite (rsum_ext (S m) _ (fun j => exp (- lam) * uterm dim P lam i f j)) by (intros; unfold uterm; ring).
    rewrite rsum_scal_l, exp_Ropp. field. split; [apply Rgt_not_eq, exp_pos|lra]. }
  pose proof (exp_pos lam) as EL. assert (0 < C i f * exp lam) by (apply Rmult_lt_0_compat; auto).
  repeat split; auto.
  - rewrite EF. apply Rmult_le_reg_r with (C i f * exp lam); auto. unfold Rdiv. rewrite Rmult_assoc, Rinv_l by lra.
    unfold target in H2. lra.
  - intros m Hm Hm0. destruct m as [|m]; [lia|]. rewrite EF.
    apply Rmult_lt_reg_r with (C i f * exp lam); auto. unfold Rdiv. rewrite Rmult_assoc, Rinv_l by lra.
    specialize (H3 m ltac:(lia)). unfold target in H3. lra.
Qed.
Lemma n_trans_cdf_lim i f : (i < dim)%nat -> (f < dim)%nat -> 0 < C i f ->
  Un_cv (fun m => rsum (S m) (fun j => exp (- lam) * (lam ^ j / INR (fact j)) * mpow dim P j i f) / C i f) 1.
Proof.
  intros Hi Hf HC. pose proof (exp_pos lam) as EL. assert (0 < C i f * exp lam) by (apply Rmult_lt_0_compat; auto).
  assert (H1 : Un_cv (fun m => psum i f m * / (C i f * exp lam)) (C i f * exp lam * / (C i f * exp lam))).
  { apply CV_mult; [apply psum_lim; auto|]. intros eps He. exists 0%nat. intros. unfold R_dist. rewrite Rminus_diag_eq, Rabs_R0; auto. }
  rewrite Rinv_r in H1 by lra. intros eps He. destruct (H1 eps He) as [N HN]. exists N. intros n Hn. specialize (HN n Hn).
  replace (rsum (S n) (fun j => exp (- lam) * (lam ^ j / INR (fact j)) * mpow dim P j i f) / C i f)
    with (psum i f n * / (C i f * exp lam)); auto.
  unfold psum. rewrite (rsum_ext (S n) (fun j => exp (- lam) * (lam ^ j / INR (fact j)) * mpow dim P j i f)
     (fun j => exp (- lam) * uterm dim P lam i f j)) by (intros; unfold uterm; ring).
  rewrite rsum_scal_l, exp_Ropp. field. split; [lra|apply Rgt_not_eq; auto].
Qed.

(** ** the returned path *)
Definition ok_bridge (i f : nat) (s : skel R) : Prop := bridge_path dim fin_t i f s.

Lemma virtual_path i f us mid : (i < dim)%nat -> (f < dim)%nat -> Forall (fun j => (j < dim)%nat) mid ->
  length us = S (length mid) -> Forall (fun u => 0 <= u < fin_t) us ->
  let J := combine (0 :: np_sort us) (i :: mid ++ [f]) in
  mask (0 :: np_sort us) (not_virtual (i :: mid ++ [f])) = Some (map fst (devirt J)) /\
  mask (i :: mid ++ [f]) (not_virtual (i :: mid ++ [f])) = Some (map snd (devirt J)) /\
  let s := mk_skel (map fst (devirt J)) (map snd (devirt J)) fin_t in
  ok_bridge i f s /\
  (NoDup us -> Forall (fun u => 0 < u) us -> StronglySorted Rlt (sk_t s)).
Proof.
  intros Hi Hf Hmid HLen HU J.
  assert (LS : length (np_sort us) = length us) by (apply Permutation_length, np_sort_perm).
  assert (LJ : length (0 :: np_sort us) = length (i :: mid ++ [f])).
  { cbn [length]. rewrite LS, app_length. cbn [length]. lia. }
  assert (F1 : map fst J = 0 :: np_sort us) by (apply map_combine_fst; auto).
  assert (F2 : map snd J = i :: mid ++ [f]) by (apply map_combine_snd; auto).
  assert (NJ : J <> []) by (unfold J; discriminate).
  assert (SJ : StronglySorted Rle (map fst J)).
  { rewrite F1. constructor; [apply np_sort_sorted|]. rewrite Forall_forall. intros u Hu.
    apply (Permutation_in u (np_sort_perm us)) in Hu. rewrite Forall_forall in HU. apply HU; auto. }
  split; [rewrite <- F1 at 1; rewrite <- F2; apply mask_devirt_fst; auto|].
  split; [rewrite <- F2; apply mask_devirt_snd; auto|].
  intros s.
  assert (EJ : J = (0, i) :: combine (np_sort us) (mid ++ [f])) by reflexivity.
  assert (ED : devirt J = (0, i) :: dv i (combine (np_sort us) (mid ++ [f]))) by (rewrite EJ; reflexivity).
  split.
  - unfold ok_bridge, bridge_path, s; cbn [sk_t sk_x sk_fin]. repeat split.
    + rewrite !map_length; auto.
    + apply devirt_sorted; auto.
    + apply in_map_iff in H as (q & <- & Hq). apply devirt_incl in Hq. apply (in_map fst) in Hq. rewrite F1 in Hq.
      destruct Hq as [<-|Hq]; [lra|]. apply (Permutation_in _ (np_sort_perm us)) in Hq.
      rewrite Forall_forall in HU. apply HU; auto.
    + apply in_map_iff in H as (q & <- & Hq). apply devirt_incl in Hq. apply (in_map fst) in Hq. rewrite F1 in Hq.
      destruct Hq as [<-|Hq]; [lra|]. apply (Permutation_in _ (np_sort_perm us)) in Hq.
      rewrite Forall_forall in HU. apply HU; auto.
    + apply devirt_no_repeat.
    + rewrite Forall_forall. intros j Hj. apply in_map_iff in Hj as (q & <- & Hq). apply devirt_incl in Hq.
      apply (in_map snd) in Hq. rewrite F2 in Hq. destruct Hq as [<-|Hq]; auto.
      apply in_app_iff in Hq as [Hq|[<-|[]]]; auto. rewrite Forall_forall in Hmid; auto.
    + unfold initial_state. rewrite ED. cbn [map sk_x snd]. eexists; reflexivity.
    + unfold final_state. cbn [sk_x]. rewrite ED. cbn [map snd].
      set (K := dv i (combine (np_sort us) (mid ++ [f]))).
      assert (LK : last (i :: map snd K) i = f).
      { rewrite last_cons'. unfold K. rewrite dv_last. rewrite map_combine_snd.
        - apply last_last.
        - cbn [length] in LJ. lia. }
      exists (removelast (i :: map snd K)). pose proof (@app_removelast_last nat (i :: map snd K) i ltac:(discriminate)) as HK.
      rewrite LK in HK. exact HK.
  - intros ND HPos. cbn [s sk_t]. apply devirt_sorted. rewrite F1. constructor.
    + apply NoDup_sorted_lt; [|apply np_sort_sorted]. eapply Permutation_NoDup; [symmetry; apply np_sort_perm|auto].
    + rewrite Forall_forall. intros u Hu. apply (Permutation_in u (np_sort_perm us)) in Hu.
      rewrite Forall_forall in HPos. apply HPos; auto.
Qed.

Lemma trivial_path i : (i < dim)%nat -> ok_bridge i i (mk_skel [0] [i] fin_t) /\ StronglySorted Rlt [0].
Proof.
  intros Hi. split; [|repeat constructor]. unfold ok_bridge, bridge_path; cbn [sk_t sk_x sk_fin].
  repeat split; auto; try (repeat constructor; fail); try (destruct H as [<-|[]]; lra).
  - intros [|n] a b; simpl; [discriminate|destruct n; discriminate].
  - exists []; reflexivity.
  - exists []; reflexivity.
Qed.

Lemma n_trans_loop_noraise fuel i f u : forall n p pows e,
  n_trans_loop fuel dim P lam i f u n p pows <> Raise e.
Proof.
  induction fuel as [|fuel IH]; intros n p pows e; cbn [n_trans_loop]; [discriminate|].
  destruct (eltb p u); [apply IH|discriminate].
Qed.

Definition bridge_rest (n i f : nat) : M (skel R) :=
  do mid <- bridge_states dim P (powers dim gen n) f (n - 1) i;
  let x := i :: mid ++ [f] in
  do us <- draw_rs (repeat (DUniform 0 fin_t) n);
  let t := 0 :: np_sort us in
  do t' <- lift_opt IndexError (mask t (not_virtual x));
  do x' <- lift_opt IndexError (mask x (not_virtual x));
  ret (mk_skel t' x' fin_t).

Lemma draw_uniforms_at o n : valid o ->
  total_if (fun o' => o' = o) (draw_rs (repeat (DUniform 0 fin_t) n))
    (fun l => length l = n /\ Forall (fun u => 0 <= u < fin_t) l /\
              (generic o -> NoDup l /\ Forall (fun u => 0 < u) l)).
Proof.
  intros V o' k _ ->.
  pose proof (draw_uniforms (fun _ => True) 0 fin_t n Hfin o k V I) as A.
  pose proof (fun G => draw_uniforms_generic 0 fin_t n Hfin o k V G) as B.
  destruct (fst (draw_rs (repeat (DUniform 0 fin_t) n) o k)); auto. destruct A as [A1 A2].
  repeat split; auto.
  - apply B; auto.
  - destruct (B H) as (_ & B2 & _). eapply Forall_impl; [|apply B2]. simpl; intros; lra.
Qed.

Lemma bridge_rest_spec o n i f : valid o ->
  (1 <= n)%nat -> (i < dim)%nat -> (f < dim)%nat -> mpow dim P n i f <> 0 ->
  total_if (fun o' => o' = o) (bridge_rest n i f)
    (fun s => ok_bridge i f s /\ (generic o -> StronglySorted Rlt (sk_t s))).
Proof.
  intros V Hn Hi Hf HPn. unfold bridge_rest.
  assert (HPos : 0 < mpow dim P (S (n - 1)) i f).
  { replace (S (n - 1)) with n by lia. pose proof (mpow_bounds dim P HP n i f Hi Hf). lra. }
  eapply total_bind; [apply (bridge_states_spec dim gen Hgen Hrb _ n f Hf (n - 1) i); auto; lia|].
  intros mid [HM1 HM2]. eapply total_bind; [apply draw_uniforms_at; auto|]. intros us (HU1 & HU2 & HU3).
  destruct (virtual_path i f us mid Hi Hf HM2 ltac:(lia) HU2) as (E1 & E2 & OKB & SS).
  eapply total_bind; [eapply total_lift_opt with (P := fun t => t = _); [exact E1|reflexivity]|]. intros t ->.
  eapply total_bind; [eapply total_lift_opt with (P := fun t => t = _); [exact E2|reflexivity]|]. intros x ->.
  apply total_ret. split; auto. intros GO. destruct (HU3 GO). auto.
Qed.

Lemma sample_bridge_unfold fuel i f o k : valid o -> (i < dim)%nat -> (f < dim)%nat ->
  sample_bridge L fuel fin_t i f dim gen o k =
  match n_trans_loop fuel dim P lam i f (eln (target (ora_r o k (DUniform 0 1)) i f)) 0 (eln (psum i f 0)) (rev (powers dim gen 0)) with
  | Ok (n, _) => if Nat.eqb n 0 || (Nat.eqb n 1 && Nat.eqb i f) then (Ok (mk_skel [0] [i] fin_t), S k)
                 else bridge_rest n i f o (S k)
  | Raise e => (Raise e, S k)
  | NoFuel => (NoFuel, S k)
  end.
Proof.
  intros V Hi Hf. unfold sample_bridge. fold P C. unfold bind at 1. rewrite sample_n_trans_unfold by auto.
  destruct (n_trans_loop fuel dim P lam i f (eln (target (ora_r o k (DUniform 0 1)) i f)) 0 (eln (psum i f 0)) (rev (powers dim gen 0)))
    as [[n l]|e|] eqn:EL; auto.
  apply n_trans_loop_spec in EL as (_ & -> & _ & _).
  destruct (Nat.eqb n 0 || (Nat.eqb n 1 && Nat.eqb i f)); reflexivity.
Qed.

Lemma sample_bridge_cases fuel i f o k : valid o -> (i < dim)%nat -> (f < dim)%nat ->
  match fst (sample_bridge L fuel fin_t i f dim gen o k) with
  | Ok s => (i <> f /\ target (ora_r o k (DUniform 0 1)) i f = 0 /\ s = mk_skel [0] [i] fin_t) \/
            (ok_bridge i f s /\ (generic o -> StronglySorted Rlt (sk_t s)))
  | Raise _ => False
  | NoFuel => True
  end.
Proof.
  intros V Hi Hf. rewrite sample_bridge_unfold by auto.
  destruct (n_trans_loop fuel dim P lam i f (eln (target (ora_r o k (DUniform 0 1)) i f)) 0 (eln (psum i f 0)) (rev (powers dim gen 0)))
    as [[n l]|e|] eqn:EL; [|exfalso; eapply n_trans_loop_noraise; eauto|exact I].
  pose proof (uniform01 o k V) as Hv.
  pose proof (n_trans_loop_search _ _ _ _ Hi Hf (target_nonneg _ i f (proj1 Hv) Hi Hf) _ _ _ EL) as (_ & H2 & _).
  apply n_trans_loop_spec in EL as (_ & -> & _ & H4). fold P in H4.
  assert (TR : i = f -> match @Ok (skel R) (mk_skel [0] [i] fin_t) with
      | Ok s => (i <> f /\ target (ora_r o k (DUniform 0 1)) i f = 0 /\ s = mk_skel [0] [i] fin_t) \/
            (ok_bridge i f s /\ (generic o -> StronglySorted Rlt (sk_t s))) | Raise _ => False | NoFuel => True end).
  { intros ->. right. destruct (trivial_path f Hf) as [T1 T2]. split; auto. }
  destruct (Nat.eqb_spec n 0) as [->|N0]; cbn [orb andb].
  - destruct (Nat.eq_dec i f) as [E|N]; [apply TR; auto|].
    left. repeat split; auto. unfold psum, uterm in H2. simpl in H2. unfold mident in H2.
    destruct (Nat.eqb_spec i f); [contradiction|].
    pose proof (target_nonneg _ i f (proj1 Hv) Hi Hf). lra.
  - destruct (Nat.eqb n 1 && Nat.eqb i f) eqn:EB.
    + apply andb_true_iff in EB as [_ EB]. apply Nat.eqb_eq in EB. apply TR; auto.
    + pose proof (bridge_rest_spec o n i f V ltac:(lia) Hi Hf (H4 ltac:(lia)) o (S k) V eq_refl) as B.
      destruct (fst (bridge_rest n i f o (S k))); auto; contradiction.
Qed.

Lemma sample_bridge_terminates i f o k : valid o -> (i < dim)%nat -> (f < dim)%nat ->
  exists fuel0, forall fuel, (fuel0 <= fuel)%nat -> exists s, fst (sample_bridge L fuel fin_t i f dim gen o k) = Ok s.
Proof.
  intros V Hi Hf. pose proof (uniform01 o k V) as Hv. set (v := ora_r o k (DUniform 0 1)) in *.
  assert (HN : exists N, target v i f <= psum i f N).
  { pose proof (trans_nonneg i f Hi Hf) as HC. pose proof (exp_pos lam) as EL.
    destruct (Req_dec (C i f) 0) as [Z|Z].
    - exists 0%nat. unfold target. rewrite Z. pose proof (psum_nonneg i f 0 Hi Hf). lra.
    - assert (HLt : target v i f < C i f * exp lam).
      { unfold target. rewrite Rmult_assoc. rewrite <- (Rmult_1_l (C i f * exp lam)) at 2.
        apply Rmult_lt_compat_r; [|lra]. apply Rmult_lt_0_compat; lra. }
      destruct (psum_lim i f Hi Hf (C i f * exp lam - target v i f) ltac:(lra)) as [N H]. exists N.
      specialize (H N (Nat.le_refl _)). unfold R_dist in H. apply Rabs_def2 in H. lra. }
  destruct HN as [N HN]. exists (S N). intros fuel HF.
  destruct (n_trans_loop_total i f (target v i f) Hi Hf (target_nonneg v i f (proj1 Hv) Hi Hf) N HN fuel 0 ltac:(lia) ltac:(lia)) as [m Hm].
  pose proof (sample_bridge_cases fuel i f o k V Hi Hf) as HC.
  rewrite sample_bridge_unfold in * by auto. fold v in HC |- *. rewrite Hm in *.
  destruct (Nat.eqb_spec m 0) as [E0|Nm]; cbn [orb]; [eexists; reflexivity|].
  destruct (Nat.eqb m 1 && Nat.eqb i f); [eexists; reflexivity|].
  apply n_trans_loop_spec in Hm as (_ & _ & _ & H4). fold P in H4.
  pose proof (bridge_rest_spec o m i f V ltac:(lia) Hi Hf (H4 ltac:(lia)) o (S k) V eq_refl) as B.
  destruct (fst (bridge_rest m i f o (S k))); [eexists; reflexivity|contradiction|contradiction].
Qed.
End B.
