(** Escape decisions of the Bessel bridge sampler. *)
From Coq Require Import Reals List Bool Arith Lia Lra Psatz.
From Verif Require Import Base Rng L_rng M_hit SpecHit L_hit2 L_hit3 L_hit4 L_hit5.
Import ListNotations.
Local Open Scope R_scope.

Section Bessel.
  Variables (t a b K : R).
  Hypothesis (Ht : 0 < t) (Ha : 0 <= a) (Hb : 0 < b) (HaK : a < K) (HbK : b < K).
  Notation s := (bessel_sum t a b K).
  Definition bden : R := 1 - exp (-2 * a * b / t).
  Lemma bden_pos : a <> 0 -> 0 < bden.
  Proof.
    intros N. unfold bden. assert (exp (-2 * a * b / t) < exp 0); [|rewrite exp_0 in *; lra].
    apply exp_increasing. unfold Rdiv. assert (0 < / t) by (now apply Rinv_0_lt_compat). assert (0 < a * b * / t).
    { apply Rmult_lt_0_compat; auto. apply Rmult_lt_0_compat; lra. } lra.
  Qed.
  Lemma shifted_abs x : 0 < x < K -> Rabs (x - K / 2) < K / 2.
  Proof. intros X. apply Rabs_def1; lra. Qed.
  Lemma affine_brackets c d f N q : 0 < d -> (forall n, f n = 1 - (1 - c n) / d) -> brackets c N q -> brackets f N (1 - (1 - q) / d).
  Proof.
    intros D E B n Hn. rewrite E. destruct (B n Hn) as [B1 B2]. assert (0 < / d) by (now apply Rinv_0_lt_compat).
    split; intros V; [specialize (B1 V)|specialize (B2 V)]; unfold Rdiv; nra.
  Qed.
  Lemma affine_cv c d f q : 0 < d -> (forall n, f n = 1 - (1 - c n) / d) -> Un_cv c q -> Un_cv f (1 - (1 - q) / d).
  Proof.
    intros D E C e He. destruct (C (e * d)) as (n & Hn); [nra|]. exists n. intros m Hm. specialize (Hn m Hm). unfold R_dist in *.
    rewrite E. replace (_ - _) with ((c m - q) * / d) by (field; lra). rewrite Rabs_mult, (Rabs_right (/ d)) by (left; now apply Rinv_0_lt_compat).
    apply (Rmult_lt_reg_r d); auto. rewrite Rmult_assoc, Rinv_l by lra. lra.
  Qed.
  Lemma bessel_sum_0 n : a = 0 -> s n = bessel0_sum t b K n.
  Proof. intros E. unfold bessel_sum. now rewrite (proj2 (Reqb_true a 0) E). Qed.
  Lemma bessel_sum_pos : a <> 0 -> forall n, s n = 1 - (1 - brown_sum t (a - K / 2) (b - K / 2) (K / 2) n) / bden.
  Proof. intros E n. unfold bessel_sum. now rewrite (proj2 (Reqb_false a 0) E). Qed.

  Lemma bessel_limit p : bessel_escape t a b K p <-> Un_cv s p.
  Proof.
    destruct (Req_dec a 0) as [E|E].
    - assert (X : bessel_escape t a b K p <-> Un_cv (bessel0_sum t b K) p).
      { unfold bessel_escape. rewrite <- z_limit by lra. split; [intros [H _]; auto|]. intros H; split; auto. intros; contradiction. }
      rewrite X. split; intros H e He; destruct (H e He) as (n & Hn); exists n; intros m Hm.
      + rewrite bessel_sum_0 by auto. auto.
      + rewrite <- bessel_sum_0 by auto. auto.
    - pose proof (bden_pos E) as D. pose proof (shifted_abs a ltac:(lra)) as S1. pose proof (shifted_abs b ltac:(lra)) as S2.
      assert (EX : exp (- (2 * a * b / t)) = 1 - bden). { unfold bden. replace (- (2 * a * b / t)) with (-2 * a * b / t) by (field; lra). ring. }
      assert (F : forall q, Un_cv (brown_sum t (a - K / 2) (b - K / 2) (K / 2)) q -> Un_cv s (1 - (1 - q) / bden)).
      { intros q. apply affine_cv; auto. now apply bessel_sum_pos. }
      split.
      + intros [_ H]. destruct (H E) as (q & Q & EQ). apply brown_limit in Q; auto. rewrite EX in EQ.
        replace p with (1 - (1 - q) / bden); [now apply F|]. replace (1 - (1 - bden)) with bden in EQ by ring. lra.
      + intros H. split; [intros; contradiction|]. intros _.
        destruct (brown_brackets t _ _ (K / 2) Ht S1 S2) as (q & CV & _). exists q. split; [now apply brown_limit|].
        rewrite (cv_unique _ _ _ H (F q CV)), EX. field. lra.
  Qed.
  (** positions from which the sums bracket the limit *)
  Definition good_from (N : nat) : Prop := a <> 0 \/ t <= (yy K (Nat.div2 N) + K) ^ 2.
  Lemma bessel_brackets N p : bessel_escape t a b K p -> good_from N -> brackets s N p.
  Proof.
    intros P G. pose proof (proj1 (bessel_limit p) P) as CV.
    destruct (Req_dec a 0) as [E|E].
    - destruct G as [G|G]; [contradiction|].
      assert (CV0 : Un_cv (bessel0_sum t b K) p).
      { intros e He. destruct (CV e He) as (n & Hn). exists n. intros m Hm. rewrite <- bessel_sum_0; auto. }
      pose proof (z_brackets_of t b K Ht ltac:(lra) (Nat.div2 N) p G CV0) as B.
      intros n Hn. rewrite bessel_sum_0 by auto. apply B. pose proof (Nat.div2_odd N). lia.
    - pose proof (shifted_abs a ltac:(lra)) as S1. pose proof (shifted_abs b ltac:(lra)) as S2.
      destruct (brown_brackets t _ _ (K / 2) Ht S1 S2) as (q & CVq & B).
      assert (CV' : Un_cv s (1 - (1 - q) / bden)) by (eapply affine_cv; [now apply bden_pos|now apply bessel_sum_pos|exact CVq]).
      rewrite (cv_unique _ _ _ CV CV'). eapply affine_brackets; [now apply bden_pos|now apply bessel_sum_pos|].
      intros n Hn. apply B. lia.
  Qed.
  (** in the branch without fast forward, everything is bracketed *)
  Lemma bessel_brackets_short p : bessel_escape t a b K p -> t < 3 * K ^ 2 -> brackets s 0 p.
  Proof.
    intros P T. destruct (Req_dec a 0) as [E|E]; [|apply bessel_brackets; [auto|now left]].
    pose proof (proj1 (bessel_limit p) P) as CV.
    assert (X : exists q, Un_cv s q /\ brackets s 0 q); [apply (alt_bracket (pc (zU t b K) (zD t b K)))|].
    - intros n. rewrite !bessel_sum_0 by auto. apply pairs_step; [apply zs_U; lra|apply zs_D].
    - intros n _. apply (pairs_dec (zU t b K) (zD t b K) 0); [intros; apply z_nonneg; auto; lra| | |lia]; intros j J.
      + apply zD_U_iff; auto; try lra. pose proof (yy_ge b K ltac:(lra) j J). apply core_up; auto; try lra. nra.
      + apply zU_D_iff; auto; try lra. pose proof (yy_ge b K ltac:(lra) j J). apply core_up; auto; try lra. nra.
    - apply z_vanish; lra.
    - destruct X as (q & CVq & B). now rewrite (cv_unique _ _ _ CV CVq).
  Qed.
  Lemma bessel_exists : exists p, bessel_escape t a b K p.
  Proof.
    destruct (Req_dec a 0) as [E|E].
    - destruct (z_decr_exists t b K Ht ltac:(lra)) as (N & HN). destruct (z_brackets_from t b K Ht ltac:(lra) N HN) as (p & CV & _).
      exists p. split; [intros _; apply z_limit; auto; lra|intros; contradiction].
    - destruct (brown_brackets t _ _ (K / 2) Ht (shifted_abs a ltac:(lra)) (shifted_abs b ltac:(lra))) as (q & CV & _).
      exists (1 - (1 - q) / bden). apply bessel_limit. eapply affine_cv; [now apply bden_pos|now apply bessel_sum_pos|exact CV].
  Qed.

  (** ** fast forward *)
  Lemma ff_result ser : forall fuel i i0, ff_loop ser fuel i = Ok i0 -> (1 <= i)%nat ->
    exists j, (i <= j)%nat /\ i0 = S j /\
      ((2 < j)%nat /\ Nat.odd j = true /\ flt (ff_seq ser j) (ff_seq ser (j - 2)) = true \/ feq (ff_seq ser j) (ff_seq ser (j - 1)) = true).
  Proof.
    induction fuel as [|f IH]; intros i i0 E I; [discriminate|]. cbn [ff_loop] in E.
    destruct (orb _ _) eqn:O.
    - injection E as <-. exists i. split; auto. split; auto. apply orb_prop in O as [O|O]; auto. left.
      apply andb_prop in O as [O1 O2]. apply andb_prop in O1 as [O0 O1]. apply andb_prop in O2 as [_ O2]. apply andb_prop in O2 as [O2 _].
      apply Nat.ltb_lt in O0. auto.
    - destruct (IH (S i) i0 E ltac:(lia)) as (j & J & R). exists j. split; [lia|auto].
  Qed.
  Lemma ff_good fuel i0 p : bessel_escape t a b K p -> ff_loop (series_bessel3br_esc t a b K None) fuel 1 = Ok i0 -> brackets s i0 p.
  Proof.
    intros P E. destruct (ff_result _ _ _ _ E ltac:(lia)) as (j & J & -> & C).
    destruct (Req_dec a 0) as [A|A]; [|apply bessel_brackets; [auto|now left]].
    assert (SQ : forall i, ff_seq (series_bessel3br_esc t a b K None) i = Some (Fin (bessel0_sum t b K i))).
    { intros [|i]; [reflexivity|]. unfold ff_seq, series_bessel3br_esc. now rewrite bessel_sum_0. }
    destruct C as [(C1 & C2 & C3)|C].
    - rewrite !SQ in C3. simpl in C3. apply Rltb_true in C3.
      apply Nat.odd_spec in C2 as (m & ->). apply bessel_brackets; auto. right.
      replace (Nat.div2 (S (2 * m + 1))) with (S m).
      2:{ replace (S (2 * m + 1)) with (2 * (S m))%nat by lia. now rewrite Nat.div2_double. }
      replace (2 * m + 1 - 2)%nat with (2 * m - 1)%nat in C3 by lia.
      pose proof (z_ff t b K Ht ltac:(lra) m ltac:(lia) C3) as T.
      assert (yy K (S m) = yy K m + 2 * K) as -> by (unfold yy; rewrite S_INR; ring).
      assert (0 <= yy K m) by (unfold yy; pose proof (pos_INR m); nra). nra.
    - rewrite !SQ in C. simpl in C. apply Reqb_true in C. exfalso. destruct j as [|j]; [lia|].
      replace (S j - 1)%nat with j in C by lia. revert C. apply z_neq; auto; lra.
  Qed.
  Lemma ff_fuel ser j : forall fuel i, (i <= j)%nat -> (j - i < fuel)%nat ->
    (2 < j)%nat -> Nat.odd j = true -> flt (ff_seq ser j) (Some (Fin 1)) = true -> flt (ff_seq ser j) (ff_seq ser (j - 2)) = true ->
    flt (ff_seq ser (j - 1)) (ff_seq ser j) = true -> exists i0, ff_loop ser fuel i = Ok i0 /\ (i0 <= S j)%nat.
  Proof.
    induction fuel as [|f IH]; intros i I F J2 JO C1 C2 C3; [lia|]. cbn [ff_loop].
    destruct (orb _ _) eqn:O; [exists (S i); split; auto; lia|].
    destruct (Nat.eq_dec i j) as [->|N].
    - rewrite (proj2 (Nat.ltb_lt _ _) J2), JO, C1, C2, C3 in O. discriminate.
    - destruct (IH (S i)) as (i0 & H & B); auto; try lia. eauto.
  Qed.
  (** ** Statements *)
  Lemma bessel_esc_value fuel ub sd : 0 <= sd <= 1 -> match ub with Some u => K <= u | None => True end ->
    forall o k, fst (sample_bessel3br_esc fuel t a b K ub (Some sd) o k) =
      match (if Rltb t (3 * K ^ 2) then Ok 1%nat else ff_loop (series_bessel3br_esc t a b K ub) fuel 1) with
      | Ok i0 => esc_loop (series_bessel3br_esc t a b K ub) fuel i0 sd
      | Raise e => Raise e | NoFuel => NoFuel
      end.
  Proof.
    intros Hs HU o k. cbv beta iota delta [sample_bessel3br_esc get_seed bind ret].
    rewrite (proj2 (Rltb_true _ _) Ht), (proj2 (Rleb_true _ _) Ha), (proj2 (Rltb_true _ _) Hb), (seed_ok sd Hs).
    rewrite (proj2 (Rleb_false K (Rmax a b))) by (now apply Rmax_lub_lt).
    replace (match ub with Some ub => Rltb ub K | None => false end) with false by (destruct ub; auto; symmetry; now apply Rltb_false).
    rewrite (proj2 (Rltb_true 0 K)) by lra.
    replace (match ub with Some ub => Rltb 0 ub | None => true end) with true by (destruct ub; auto; symmetry; apply Rltb_true; lra).
    simpl. destruct (Rltb t _); [reflexivity|]. unfold lift. destruct (ff_loop _ _ _); reflexivity.
  Qed.
  Lemma ff_noraise ser fuel i e : ff_loop ser fuel i <> Raise e.
  Proof. revert i. induction fuel; intros i; cbn [ff_loop]; [discriminate|]. destruct (orb _ _); [discriminate|auto]. Qed.
  Lemma bessel_decides fuel sd p : 0 <= sd <= 1 -> bessel_escape t a b K p ->
    decides (sample_bessel3br_esc fuel t a b K None (Some sd)) (sd < p).
  Proof.
    intros Hs P o k V. rewrite bessel_esc_value by auto.
    assert (X : forall i0, brackets s i0 p -> match esc_loop (series_bessel3br_esc t a b K None) fuel i0 sd with Ok r => r = true <-> sd < p | Raise _ => False | NoFuel => True end).
    { intros i0 B. destruct (esc_loop _ _ _ _) eqn:E; auto.
      - eapply esc_loop_sound; [|apply Nat.le_refl|exact E]. apply (fbrackets_of s i0 p B).
      - eapply esc_loop_noraise; eauto. }
    destruct (Rltb_dec t (3 * K ^ 2)) as [[T ->]|[T ->]].
    - apply X. eapply brackets_shift; [|now apply bessel_brackets_short]. lia.
    - destruct (ff_loop _ _ _) eqn:F; auto; [|eapply ff_noraise; eauto]. apply X. eapply ff_good; eauto.
  Qed.
  Lemma bessel_terminates sd p : 0 <= sd <= 1 -> bessel_escape t a b K p -> sd <> p -> t < 3 * K ^ 2 \/ p < 1 ->
    exists n0, forall fuel, (n0 <= fuel)%nat -> total (sample_bessel3br_esc fuel t a b K None (Some sd)) (fun r => r = true <-> sd < p).
  Proof.
    intros Hs P NE H. pose proof (proj1 (bessel_limit p) P) as CV.
    assert (TE : forall i, exists n0, forall fuel, (n0 <= fuel)%nat -> exists r, esc_loop (series_bessel3br_esc t a b K None) fuel i sd = Ok r).
    { intros i. apply (esc_loop_terminates s _ p); [exact CV|exists 0%nat; reflexivity|exact NE]. }
    assert (MX : forall j, exists n0, forall fuel i, (i <= j)%nat -> (n0 <= fuel)%nat -> exists r, esc_loop (series_bessel3br_esc t a b K None) fuel i sd = Ok r).
    { induction j as [|j (n1 & IH)].
      - destruct (TE 0%nat) as (n0 & H0). exists n0. intros fuel i I. assert (i = 0)%nat as -> by lia. auto.
      - destruct (TE (S j)) as (n0 & H0). exists (n0 + n1)%nat. intros fuel i I F. destruct (Nat.eq_dec i (S j)) as [->|]; [apply H0; lia|apply IH; lia]. }
    assert (FIN : exists n0, forall fuel, (n0 <= fuel)%nat -> exists r, match (if Rltb t (3 * K ^ 2) then Ok 1%nat else ff_loop (series_bessel3br_esc t a b K None) fuel 1) with
      | Ok i0 => esc_loop (series_bessel3br_esc t a b K None) fuel i0 sd | Raise e => Raise e | NoFuel => NoFuel end = Ok r).
    { destruct (Rltb_dec t (3 * K ^ 2)) as [[T ->]|[T ->]].
      - apply TE.
      - destruct H as [H|H]; [lra|].
        (* a late odd position below 1 *)
        destruct (CV (1 - p)) as (n1 & H1); [lra|].
        assert (DEC : exists N, forall m, (N <= m)%nat -> s (2 * m + 1)%nat < s (2 * m - 1)%nat /\ s (2 * m)%nat < s (2 * m + 1)%nat).
        { destruct (Req_dec a 0) as [E|E].
          - destruct (z_decr_exists t b K Ht ltac:(lra)) as (N & HN). exists (S (S N)). intros m Hm.
            destruct m as [|m]; [lia|]. rewrite !bessel_sum_0 by auto. rewrite (zs_U t b K ltac:(lra) (S m)).
            destruct (z_pos t b K Ht ltac:(lra) (S (S m)) ltac:(lia)) as [ZP _]. split; [|lra].
            replace (2 * S m)%nat with (2 * m + 2)%nat by lia. rewrite (zs_D t b K m). replace (2 * m + 2 - 1)%nat with (2 * m + 1)%nat by lia.
            assert (zU t b K (S (S m)) < zD t b K (S m)); [|lra].
            pose proof (z_dec_from t b K Ht ltac:(lra) N HN (S m) ltac:(lia)) as [_ Q].
            destruct Q as [Q|Q]; auto. exfalso. revert Q. intros Q.
            (* equality is impossible: strictness of the sufficient condition *)
            assert (C : t < (yy K (S m) + K) ^ 2 - (K - b) ^ 2).
            { assert (yy K N + 2 * K <= yy K (S m)).
              { unfold yy. replace (2 * K * INR N + 2 * K) with (2 * K * INR (S N)) by (rewrite S_INR; ring). apply Rmult_le_compat_l; [lra|]. apply le_INR. lia. }
              assert (0 <= yy K N) by (unfold yy; pose proof (pos_INR N); nra). nra. }
            assert (X : zU t b K (S (S m)) <= zD t b K (S m)) by lra.
            (* perturb t *)
            set (t' := (yy K (S m) + K) ^ 2 - (K - b) ^ 2) in *.
            assert (Y0 : 2 * K <= yy K (S m)) by (apply (yy_ge b K); [lra|lia]).
            pose proof (core_up t' (yy K (S m) + K) (K - b) ltac:(lra) ltac:(lra) (Rle_refl t')) as CU.
            assert (LT : exp (2 * (K - b) * (yy K (S m) + K) / t') < exp (2 * (K - b) * (yy K (S m) + K) / t)).
            { apply exp_increasing. unfold Rdiv. apply Rmult_lt_compat_l; [nra|]. apply Rinv_lt_contravar; [nra|lra]. }
            assert (EQ : (yy K (S m) + K) + (K - b) = ((yy K (S m) + K) - (K - b)) * exp (2 * (K - b) * (yy K (S m) + K) / t)).
            { revert Q. rewrite zU_e, zD_e by lra. replace (yy K (S (S m))) with (yy K (S m) + 2 * K) by (unfold yy; rewrite !S_INR; ring).
              assert (EE : exp (- (yy K (S m) * (yy K (S m) + 2 * b) / (2 * t))) =
                exp (- ((yy K (S m) + 2 * K) * (yy K (S m) + 2 * K - 2 * b) / (2 * t))) * exp (2 * (K - b) * (yy K (S m) + K) / t)).
              { rewrite <- exp_plus. f_equal. field. lra. }
              rewrite EE. set (x := exp (2 * (K - b) * (yy K (S m) + K) / t)). set (e := exp (- ((yy K (S m) + 2 * K) * (yy K (S m) + 2 * K - 2 * b) / (2 * t)))). assert (0 < e) by apply exp_pos.
              intros Q. apply (Rmult_eq_compat_r b) in Q. unfold Rdiv in Q. rewrite !Rmult_assoc, (Rinv_l b) in Q by lra. rewrite !Rmult_1_r in Q.
              apply (Rmult_eq_reg_r e); [|lra]. lra. }
            nra.
          - exists 2%nat. intros m Hm. rewrite !bessel_sum_pos by auto. pose proof (bden_pos E) as D. assert (ID : 0 < / bden) by (now apply Rinv_0_lt_compat).
            pose proof (shifted_abs a ltac:(lra)) as S1. pose proof (shifted_abs b ltac:(lra)) as S2.
            destruct m as [|m]; [lia|]. rewrite (bs_U t _ _ (K / 2) S1 S2 (S m)). replace (2 * S m)%nat with (2 * m + 2)%nat by lia.
            rewrite (bs_D t _ _ (K / 2) m). replace (2 * m + 2 - 1)%nat with (2 * m + 1)%nat by lia.
            assert (L1 : 0 < bU t (a - K / 2) (b - K / 2) (K / 2) (S (S m))). { unfold bU, s_up. apply Rplus_lt_0_compat; apply exp_pos. }
            assert (L2 : bU t (a - K / 2) (b - K / 2) (K / 2) (S (S m)) < bD t (a - K / 2) (b - K / 2) (K / 2) (S m)).
            { unfold bU, bD. assert (UD : forall x y, Rabs x < K / 2 -> Rabs y < K / 2 -> s_up (K / 2) t (S (S m)) x y < s_down (K / 2) t (S m) x y).
              { intros x y X Y. apply Rabs_def2 in X, Y. rewrite (up_e t (K / 2)), (down_e t (K / 2)); auto. apply exp_increasing, Ropp_lt_contravar.
                apply Rmult_lt_compat_r; [now apply Rinv_0_lt_compat|]. rewrite (S_INR (S m)).
                assert (1 <= INR (S m)) by (apply (le_INR 1); lia).
                assert (0 < (K / 2 - x) * (K / 2 * (4 * INR (S m) + 1) - y)) by (apply Rmult_lt_0_compat; nra). nra. }
              apply Rplus_lt_compat; apply UD; auto; rewrite Rabs_Ropp; auto. }
            unfold Rdiv. split; nra. }
        destruct DEC as (N & HN). set (m := (n1 + N + 2)%nat). set (j := (2 * m + 1)%nat).
        destruct (HN m ltac:(unfold m; lia)) as [A1 A2].
        assert (SJ : s j < 1). { assert (X : R_dist (s j) p < 1 - p) by (apply H1; unfold j, m; lia). unfold R_dist in X. apply Rabs_def2 in X. lra. }
        destruct (MX (S j)) as (n0 & H0).
        exists (S j + n0)%nat. intros fuel F.
        assert (SQ : forall i, (1 <= i)%nat -> ff_seq (series_bessel3br_esc t a b K None) i = Some (Fin (s i))). { intros [|i] I; [lia|reflexivity]. }
        destruct (ff_fuel (series_bessel3br_esc t a b K None) j fuel 1) as (i0 & E & B).
        + unfold j, m; lia.
        + lia.
        + unfold j, m; lia.
        + unfold j. apply Nat.odd_spec. now exists m.
        + rewrite SQ by (unfold j; lia). simpl. now apply Rltb_true.
        + rewrite !SQ by (unfold j, m; lia). simpl. apply Rltb_true. replace (j - 2)%nat with (2 * m - 1)%nat by (unfold j; lia). exact A1.
        + rewrite !SQ by (unfold j, m; lia). simpl. apply Rltb_true. replace (j - 1)%nat with (2 * m)%nat by (unfold j; lia). exact A2.
        + rewrite E. apply H0; lia. }
    destruct FIN as (n0 & HF). exists n0. intros fuel F o k V.
    pose proof (bessel_decides fuel sd p Hs P o k V) as D. cbv beta in D.
    rewrite bessel_esc_value in D |- * by auto. destruct (HF fuel F) as (r & E). now rewrite E in D |- *.
  Qed.
End Bessel.
