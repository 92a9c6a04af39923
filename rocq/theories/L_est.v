(** Estimates of augmented likelihoods: laws on known paths. *)
From Coquelicot Require Import Rcomplements Hierarchy Rbar Lim_seq Continuity Derive RInt RInt_analysis.
From Coq Require Import Reals List Bool Arith ZArith Lra Lia Psatz.
From Verif Require Import Base Np Rng L_list L_rng M_mjp M_hit M_path M_skel M_seed SpecSkel SpecSeed L_seed L_seed3 M_models M_inf M_sw M_mcem M_est
  SpecLaw SpecCoin SpecEst L_law L_law2 L_law3 L_law5 L_em5 L_sde3 L_occ Mat.
Import ListNotations.
Local Open Scope R_scope.

Lemma est_instance : forall fuel mp mx norm denorm s disc bounds o k,
  seed_est_coin fuel mp mx norm denorm s disc bounds o k = seed_est_with (interpolate_skeleton fuel mp mx) norm denorm s disc bounds o k.
Proof. reflexivity. Qed.

Lemma segment_law : forall path norm denorm disc bounds s T scale x0 x1 v, operators norm denorm T scale x0 x1 -> estimable path disc bounds s T scale x0 x1 v ->
  average (seed_est_with (pinned path) norm denorm s disc bounds) (fun r => exp_of (fst (fst r)) * exp (snd (fst r))) (exp (- v)).
Proof.
  intros path norm denorm disc bounds s T scale x0 x1 v OP (HT & Hv & inf & le & ue & EB & Hlu & Hphi).
  set (w := segment_path path s T scale x0 x1) in *.
  set (rest := fun pts : list (list R) => let new_t := map (fun r => nth 0 r 0) pts in
    match new_t with [] => ret (Some 0, - T * le, s) | _ =>
      ret (Some (fold_right Rplus 0 (map (fun v => ln (ue - disc v)) (map w new_t)) - INR (length new_t) * ln (ue - le)), - T * le, s) end).
  apply (average_comp _ (do pts <- sample_ppp (ue - le) [T]; rest pts)).
  { intros o k _. unfold seed_est_with. rewrite (run_bind _ _ _ _ _ _ (disc_path_one norm denorm T scale x0 x1 OP bounds s inf le (Fin ue) o k EB)). cbv beta iota.
    assert (SE : neg_dot (np_diff [0; T]) [le] = - T * le). { unfold neg_dot. cbn [np_diff combine map fold_right fst snd]. simpl nsub. ring. }
    rewrite SE. cbn [gaps all_some]. erewrite run_bind by reflexivity. rewrite (op_denorm_none _ _ _ _ _ _ OP). cbn [map fst hd_error np_max_from]. erewrite run_bind by reflexivity.
    replace (1 * T) with T by ring. unfold bind at 1. symmetry. unfold bind at 1. symmetry. destruct (sample_ppp (ue - le) [T] o k) as [[pts|e|] k1]; try reflexivity.
    unfold rest. cbv zeta. destruct (map (fun r => nth 0 r 0) pts) as [|t0 ts] eqn:Et; [reflexivity|]. rewrite <- Et. clear Et.
    set (new_t := map (fun r => nth 0 r 0) pts). unfold bind, pinned, ret, values_of, lift_opt. rewrite (op_norm_none _ _ _ _ _ _ OP). cbn [fst snd].
    rewrite (op_denorm_some _ _ _ _ _ _ OP). cbn [fst snd].
    assert (EV : map (fun p => path_at scale x0 x1 (fst p) (snd p)) (combine (map (fun u => u / T) new_t) (map (path s) (map (fun u => u / T) new_t))) = map w new_t).
    { generalize new_t. intros l. induction l as [|u l IH]; [reflexivity|]. cbn [map combine fst snd]. f_equal. exact IH. }
    rewrite EV, map_length. reflexivity. }
  set (g := fun u => (ue - disc (w u)) / (ue - le)).
  assert (Hg : is_RInt (fun u => 1 - g u) 0 T ((v - le * T) / (ue - le))).
  { pose proof (is_RInt_scal _ _ _ (/ (ue - le)) _ (is_RInt_plus _ _ _ _ _ _ Hv (is_RInt_const 0 T (- le)))) as P.
    unfold plus, scal in P; cbn in P; unfold mult in P; cbn in P.
    replace ((v - le * T) / (ue - le)) with (/ (ue - le) * (v + (T - 0) * (- le))) by (field; lra).
    refine (is_RInt_ext _ _ _ _ _ _ P). intros x _. req. unfold g. field. lra. }
  pose proof (ppp_line (ue - le) T g _ ltac:(lra) HT Hg) as P.
  apply (average_bind _ _ _ _ _ (fun pts => exp (- T * le) * product (fun r => g (nth 0 r 0)) pts) (Forall (fun r => exists u, r = [u] /\ 0 <= u <= T))).
  - apply (average_scal _ _ _ _ (exp (- T * le))) in P. refine (average_eq _ _ _ _ _ _ P). rewrite <- exp_plus. f_equal. field. lra.
  - apply ppp_times_in. exact HT.
  - intros pts Hpts.
    assert (E : product (fun r => g (nth 0 r 0)) pts = exp (fold_right Rplus 0 (map (fun u => ln (ue - disc (w u))) (map (fun r => nth 0 r 0) pts)) - INR (length (map (fun r => nth 0 r 0) pts)) * ln (ue - le))).
    { rewrite (exp_sum_ln (fun u => ue - disc (w u))); [unfold product; rewrite map_map; reflexivity|lra|].
      intros x Hx. apply in_map_iff in Hx as (r & <- & Hr). rewrite Forall_forall in Hpts. destruct (Hpts r Hr) as (u & -> & Hu).
      cbn. specialize (Hphi u Hu). lra. }
    rewrite E. unfold rest. cbv zeta. destruct (map (fun r => nth 0 r 0) pts) as [|t0 ts] eqn:Et.
    + refine (average_eq _ _ _ _ _ _ (average_ret _ _ _)). cbn [fst snd exp_of map fold_right length INR]. replace (0 - 0 * ln (ue - le)) with 0 by ring. ring.
    + refine (average_eq _ _ _ _ _ _ (average_ret _ _ _)). cbn [fst snd exp_of]. rewrite map_map. ring.
Qed.

Lemma average_map_m_prod : forall A B (m : A -> M B) (h : B -> R) (v : nat -> R) (l : list A),
  (forall i a, nth_error l i = Some a -> average (m a) h (v i)) ->
  average (map_m m l) (fun bs => fold_right Rmult 1 (map h bs)) (fold_right Rmult 1 (map v (seq 0 (length l)))).
Proof.
  intros A B m h v l. revert v. induction l as [|a l IH]; intros v H.
  - cbn. apply (average_ret _ [] (fun bs => fold_right Rmult 1 (map h bs))).
  - cbn [map_m length seq map fold_right]. rewrite <- seq_shift, map_map.
    specialize (IH (fun i => v (S i)) (fun i a' E => H (S i) a' E)).
    set (W := fold_right Rmult 1 (map (fun i => v (S i)) (seq 0 (length l)))) in *.
    apply (average_bind0 _ _ _ _ _ (fun b => W * h b)).
    + refine (average_eq _ _ _ _ _ _ (average_scal _ _ _ _ W (H 0%nat a eq_refl))). ring.
    + intros b. apply average_map. cbn [map fold_right].
      refine (average_ext _ _ _ _ _ _ (average_eq _ _ _ _ _ _ (average_scal _ _ _ _ (h b) IH))); [|ring]. intros bs. reflexivity.
Qed.
Lemma exp_osum : forall (rs : list (option R * R * skel)) c,
  exp_of (oplus (osum (map (fun r => fst (fst r)) rs)) (c + M_models.rsum (map (fun r => snd (fst r)) rs))) =
  exp c * fold_right Rmult 1 (map (fun r => exp_of (fst (fst r)) * exp (snd (fst r))) rs).
Proof.
  induction rs as [|[[a b] s] rs IH]; intros c.
  - cbn. rewrite exp_plus. replace (0 : R) with (0 : R) by reflexivity. rewrite exp_plus, exp_0. ring.
  - cbn [map fst snd fold_right]. destruct a as [x|].
    + specialize (IH (c + x + b)). unfold osum in *. cbn [all_some]. destruct (all_some (map (fun r => fst (fst r)) rs)) as [l|].
      * cbn [option_map oplus exp_of] in *. replace (c + M_models.rsum (b :: map (fun r => snd (fst r)) rs) + M_models.rsum (x :: l)) with (c + x + b + M_models.rsum (map (fun r => snd (fst r)) rs) + M_models.rsum l).
        -- rewrite IH, !exp_plus. ring.
        -- unfold M_models.rsum. cbn [fold_right]. ring.
      * cbn [option_map oplus exp_of] in *. rewrite !exp_plus in IH. transitivity (exp x * exp b * (exp c * fold_right Rmult 1 (map (fun r => exp_of (fst (fst r)) * exp (snd (fst r))) rs))); [|ring].
        pose proof (exp_pos c). pose proof (exp_pos x). pose proof (exp_pos b). rewrite <- (Rmult_0_r (exp x * exp b)). f_equal. rewrite <- (Rmult_0_r (/ (exp x * exp b))). rewrite IH. field. lra.
    + cbn. ring.
Qed.
Lemma prod_exp : forall n (v : nat -> R), fold_right Rmult 1 (map (fun i => exp (- v i)) (seq 0 n)) = exp (- Mat.rsum n v).
Proof.
  intros n. induction n as [|n IH]; intros v; [cbn; rewrite Ropp_0, exp_0; reflexivity|].
  rewrite seq_S, map_app. assert (FA : forall l l', fold_right Rmult 1 (l ++ l') = fold_right Rmult 1 l * fold_right Rmult 1 l') by (induction l as [|a l IHl]; intros l'; cbn; [ring|rewrite IHl; ring]).
  rewrite FA, IH. cbn [map fold_right Nat.add]. cbn [Mat.rsum]. rewrite Rmult_1_r, <- exp_plus. f_equal. ring.
Qed.
Lemma zip3_length : forall A B C (l : list A) (m : list B) (n : list C), length (zip3 l m n) = Nat.min (length l) (Nat.min (length m) (length n)).
Proof. intros. unfold zip3. rewrite !combine_length. lia. Qed.
Lemma diff_nth : forall (t : list R) i d, nth_error (np_diff t) i = Some d -> d = nth (S i) t 0 - nth i t 0 /\ (S i < length t)%nat.
Proof.
  induction t as [|a t IH]; intros i d H; [destruct i; discriminate|]. destruct t as [|b t]; [destruct i; discriminate|].
  destruct i as [|i].
  - cbn in H. injection H as <-. split; [reflexivity|cbn; lia].
  - apply (IH i d) in H as [-> H]. split; [reflexivity|cbn in *; lia].
Qed.
Lemma nth_of : forall A (l : list A) i a d, nth_error l i = Some a -> nth i l d = a.
Proof. intros. apply nth_error_nth. exact H. Qed.
Lemma tl_at : forall A (l : list A) i, nth_error (tl l) i = nth_error l (S i).
Proof. intros A [|a l] i; [destruct i; reflexivity|reflexivity]. Qed.
Lemma rm_at : forall A (l : list A) i a, nth_error (removelast l) i = Some a -> nth_error l i = Some a.
Proof.
  intros A l. induction l as [|b l IH]; intros i a H; [destruct i; discriminate|]. destruct l as [|c l]; [destruct i; discriminate|].
  destruct i as [|i]; [exact H|]. apply IH. exact H.
Qed.

Lemma map_m_len : forall A B (m : A -> M B) l, returns (map_m m l) (fun bs => length bs = length l).
Proof.
  intros A B m l o k _. revert o k. induction l as [|a l IH]; intros o k; [reflexivity|]. cbn [map_m]. unfold bind at 1.
  destruct (m a o k) as [[b|e|] k1]; cbn; auto. unfold bind. specialize (IH o k1). destruct (map_m m l o k1) as [[bs|e|] k2]; cbn in *; auto.
Qed.
Lemma combine_at : forall A B (l : list A) (m : list B) i a b, nth_error (combine l m) i = Some (a, b) -> nth_error l i = Some a /\ nth_error m i = Some b.
Proof.
  intros A B l. induction l as [|x l IH]; intros [|y m] [|i] a b H; cbn in H; try discriminate.
  - injection H as <- <-. auto.
  - apply IH in H. exact H.
Qed.
Lemma rows_zip3 : forall A B C (l : list A) (m : list B) (n : list C) i a b c, nth_error (zip3 l m n) i = Some (a, b, c) ->
  nth_error l i = Some a /\ nth_error m i = Some b /\ nth_error n i = Some c.
Proof. intros A B C l m n i a b c H. unfold zip3 in H. apply combine_at in H as [H H3]. apply combine_at in H as [H1 H2]. auto. Qed.
Lemma ito_aug_law : forall path reduce disc bounds log_lik t vt thi z s0 n (v : nat -> R),
  (0 < n)%nat -> length z = n -> length t = S n -> length vt = S n ->
  (forall i, (i < n)%nat -> let dt := nth (S i) t 0 - nth i t 0 in
     estimable path (disc thi) (bounds thi) (nth i z s0) dt (sqrt dt) (reduce thi (nth i vt 0)) (reduce thi (nth (S i) vt 0)) (v i)) ->
  average (ito_aug_with (seed_est_with (pinned path)) reduce disc bounds log_lik t vt thi z) (fun r => exp_of (fst r)) (exp (log_lik thi - Mat.rsum n v)).
Proof.
  intros path reduce disc bounds log_lik t vt thi z s0 n v Hn Hz Htl Hvt HE. unfold ito_aug_with.
  assert (LD : length (np_diff t) = n) by (rewrite np_diff_length; lia).
  assert (LN : length (combine z (ito_normops reduce t vt thi)) = n).
  { rewrite combine_length. unfold ito_normops. rewrite map_length, zip3_length, LD, map_length. destruct (map (reduce thi) vt) eqn:E; [|rewrite <- E].
    - apply (f_equal (@length _)) in E. rewrite map_length in E. cbn in E. lia.
    - cbn [tl]. assert (length l = n). { apply (f_equal (@length _)) in E. rewrite map_length in E. cbn in E. lia. } rewrite E. cbn [tl]. lia. }
  apply (average_bind _ _ _ _ _ (fun rs => exp (log_lik thi) * fold_right Rmult 1 (map (fun r => exp_of (fst (fst r)) * exp (snd (fst r))) rs)) (fun rs => length rs = n)).
  - refine (average_eq _ _ _ _ _ _ (average_scal _ _ _ _ (exp (log_lik thi)) (average_map_m_prod _ _ _ _ (fun i => exp (- v i)) _ _))).
    + rewrite LN, prod_exp, <- exp_plus. reflexivity.
    + intros i [z_ nm] Hi. assert (Hin : (i < n)%nat) by (rewrite <- LN; apply nth_error_Some; congruence).
      apply combine_at in Hi as [H1 H2].
      unfold ito_normops in H2. rewrite nth_error_map in H2. destruct (nth_error (zip3 _ _ _) i) as [[[dt x0] x1]|] eqn:E; [|discriminate]. cbn in H2. injection H2 as <-.
      apply rows_zip3 in E as (D & X0 & X1). cbn [fst snd] in *. apply diff_nth in D as [-> _]. rewrite tl_at in X1.
      rewrite nth_error_map in X0, X1. destruct (nth_error vt i) as [a|] eqn:A; [|discriminate]. destruct (nth_error vt (S i)) as [b|] eqn:B; [|discriminate].
      cbn in X0, X1. injection X0 as <-. injection X1 as <-.
      specialize (HE i Hin). cbv zeta in HE. rewrite (nth_of _ _ _ _ s0 H1), (nth_of _ _ _ _ 0 A), (nth_of _ _ _ _ 0 B) in HE.
      eapply segment_law; [apply ito_operators|exact HE].
  - rewrite <- LN. apply map_m_len.
  - intros rs Hrs. destruct rs as [|r0 rs]; [cbn in Hrs; lia|].
    refine (average_eq _ _ _ _ _ _ (average_ret _ _ _)). cbn [fst]. apply exp_osum.
Qed.

Lemma sw_aug_law : forall path vol disc bounds loglik thi z h restrict s0 n (v : nat -> R),
  (0 < n)%nat -> length z = n -> length (a_t h) = S n -> length (a_y h) = S n -> length (a_v h) = S n ->
  (forall i, (i < n)%nat -> selected restrict (nth i (a_y h) 0%nat) = true -> let dt := nth (S i) (a_t h) 0 - nth i (a_t h) 0 in let y := nth i (a_y h) 0%nat in
     estimable path (disc thi y) (bounds thi y) (nth i z s0) dt (sqrt dt * vol thi y) (nth i (a_v h) 0) (nth (S i) (a_v h) 0) (v i)) ->
  average (sw_aug_with (seed_est_with (pinned path)) vol disc bounds loglik thi z h restrict) (fun r => exp_of (fst r))
    (exp (fst (loglik thi h restrict) + snd (loglik thi h restrict) - Mat.rsum n (fun i => if selected restrict (nth i (a_y h) 0%nat) then v i else 0))).
Proof.
  intros path vol disc bounds loglik thi z h restrict s0 n v Hn Hz Ht Hy Hv HE. unfold sw_aug_with.
  assert (LD : length (np_diff (a_t h)) = n) by (rewrite np_diff_length; lia).
  assert (LY : length (removelast (a_y h)) = n) by (rewrite removelast_length; lia).
  assert (LV : length (tl (a_v h)) = n) by (destruct (a_v h); cbn in *; lia).
  assert (LN : length (zip3 z (a_y h) (sw_normops (vol thi) h)) = n).
  { rewrite zip3_length. unfold sw_normops, zip4. rewrite map_length, !combine_length. lia. }
  set (u := fun i => if selected restrict (nth i (a_y h) 0%nat) then v i else 0).
  set (l := loglik thi h restrict).
  apply (average_bind _ _ _ _ _ (fun rs => exp (fst l + snd l) * fold_right Rmult 1 (map (fun r => exp_of (fst (fst r)) * exp (snd (fst r))) rs)) (fun rs => length rs = n)).
  - refine (average_eq _ _ _ _ _ _ (average_scal _ _ _ _ (exp (fst l + snd l)) (average_map_m_prod _ _ _ _ (fun i => exp (- u i)) _ _))).
    + rewrite LN, prod_exp, <- exp_plus. reflexivity.
    + intros i [[z_ y0] nm] Hi. assert (Hin : (i < n)%nat) by (rewrite <- LN; apply nth_error_Some; congruence).
      apply rows_zip3 in Hi as (H1 & HY & H2). unfold u. rewrite (nth_of _ _ _ _ 0%nat HY).
      specialize (HE i Hin). rewrite (nth_of _ _ _ _ 0%nat HY), (nth_of _ _ _ _ s0 H1) in HE. cbv zeta in HE.
      destruct (selected restrict y0) eqn:SEL.
      * unfold sw_normops in H2. rewrite nth_error_map in H2. destruct (nth_error (zip4 _ _ _ _) i) as [[[[dt y1] x0] x1]|] eqn:E; [|discriminate]. cbn in H2. injection H2 as <-.
        unfold zip4 in E. apply combine_at in E as [E X1]. apply combine_at in E as [E X0]. apply combine_at in E as [D Y1].
        apply diff_nth in D as [-> _]. rewrite tl_at in X1. apply rm_at in Y1. assert (y1 = y0) as -> by congruence.
        specialize (HE eq_refl). rewrite (nth_of _ _ _ _ 0 X0), (nth_of _ _ _ _ 0 X1) in HE.
        eapply segment_law; [apply sw_operators|exact HE].
      * refine (average_eq _ _ _ _ _ _ (average_ret _ _ _)). cbn [fst snd exp_of]. rewrite Ropp_0, exp_0. ring.
  - rewrite <- LN. apply map_m_len.
  - intros rs Hrs. destruct rs as [|r0 rs]; [cbn in Hrs; lia|].
    refine (average_eq _ _ _ _ _ _ (average_ret _ _ _)). cbn [fst]. apply exp_osum.
Qed.
