(** Estimates of augmented likelihoods: second moments on known paths. *)
From Coquelicot Require Import Rcomplements Hierarchy Rbar Lim_seq Continuity Derive RInt RInt_analysis.
From Coq Require Import Reals List Bool Arith ZArith Lra Lia Psatz.
From Verif Require Import Base Np Rng L_list L_rng M_mjp M_hit M_path M_skel M_seed SpecSkel SpecSeed L_seed L_seed3 M_models M_inf M_sw M_mcem M_est
  SpecLaw SpecCoin SpecEst SpecObj L_law L_law2 L_law3 L_law5 L_em5 L_sde3 L_occ L_est Mat.
Import ListNotations.
Local Open Scope R_scope.

Lemma segment_square0 : forall path norm denorm disc bounds s T scale x0 x1 v q inf le ue, operators norm denorm T scale x0 x1 -> estimable path disc bounds s T scale x0 x1 v ->
  bounds (low_z s * scale + Rmin x0 x1) (high_z s * scale + Rmax x0 x1) = (inf, le, Fin ue) -> is_RInt (fun u => disc (segment_path path s T scale x0 x1 u) ^ 2) 0 T q ->
  average (seed_est_with (pinned path) norm denorm s disc bounds) (fun r => (exp_of (fst (fst r)) * exp (snd (fst r))) ^ 2) (exp (- 2 * v) * exp ((q - 2 * le * v + le ^ 2 * T) / (ue - le))).
Proof.
  intros path norm denorm disc bounds s T scale x0 x1 v q inf le ue OP (HT & Hv & inf' & le' & ue' & EB' & Hlu' & Hphi') EB Hq.
  assert (E3 : (inf', le', Fin ue') = (inf, le, Fin ue)) by congruence. injection E3 as -> -> ->. rename Hlu' into Hlu. rename Hphi' into Hphi. clear EB'.
  set (w := segment_path path s T scale x0 x1) in *.
  set (rest := fun pts : list (list R) => let new_t := map (fun r => nth 0 r 0) pts in
    match new_t with [] => ret (Some 0, - T * le, s) | _ =>
      ret (Some (fold_right Rplus 0 (map (fun v => ln (ue - disc v)) (map w new_t)) - INR (length new_t) * ln (ue - le)), - T * le, s) end).
  apply (average_comp _ (do pts <- sample_ppp (ue - le) [T]; rest pts)).
  { intros o k _. unfold seed_est_with. rewrite (run_bind _ _ _ _ _ _ (disc_path_one norm denorm T scale x0 x1 OP bounds s inf le (Fin ue) o k EB)). cbv beta iota.
    assert (SE : neg_dot (np_diff [0; T]) [le] = - T * le). { unfold neg_dot. cbn [np_diff combine map fold_right fst snd]. simpl nsub. ring. }
    rewrite SE. cbn [gaps all_some]. erewrite run_bind by reflexivity. rewrite (op_denorm_none _ _ _ _ _ _ OP). cbn [map fst hd_error np_max_from]. erewrite run_bind by reflexivity.
    replace (1 * T) with T by ring. unfold bind at 1. symmetry. unfold bind at 1. symmetry. destruct (sample_ppp (ue - le) [T] o k) as [[pts|e|] k1]; try reflexivity.
    unfold rest. cbv zeta. destruct (map (fun r => nth 0 r 0) pts) as [|t0 ts] eqn:Et; [reflexivity|]. rewrite <- Et. clear Et.
    set (new_t := map (fun r => nth 0 r 0) pts). unfold bind, pinned, ret, values_of, lift_opt. rewrite (op_norm_none _ _ _ _ _ _ OP). cbn [fst snd].
    rewrite (op_denorm_some _ _ _ _ _ _ OP). cbn [fst snd].
    assert (EV : map (fun p => path_at scale x0 x1 (fst p) (snd p)) (combine (map (fun u => u / T) new_t) (map (path s) (map (fun u => u / T) new_t))) = map w new_t).
    { generalize new_t. intros l. induction l as [|u l IH]; [reflexivity|]. cbn [map combine fst snd]. f_equal. exact IH. }
    rewrite EV, map_length. reflexivity. }
  set (g := fun u => (ue - disc (w u)) / (ue - le)).
  set (V := (ue ^ 2 - (ue - le) ^ 2) * T - 2 * ue * v + q).
  assert (Hg : is_RInt (fun u => 1 - g u * g u) 0 T (- V / (ue - le) ^ 2)).
  { pose proof (is_RInt_scal _ _ _ (- / (ue - le) ^ 2) _ (is_RInt_plus _ _ _ _ _ _ (is_RInt_plus _ _ _ _ _ _ (is_RInt_const 0 T (ue ^ 2 - (ue - le) ^ 2)) (is_RInt_scal _ _ _ (- 2 * ue) _ Hv)) Hq)) as P.
    unfold plus, scal in P; cbn -[pow] in P; unfold mult in P; cbn -[pow] in P.
    match type of P with is_RInt _ _ _ ?x => replace (- V / (ue - le) ^ 2) with x by (unfold V; field; lra) end.
    refine (is_RInt_ext _ _ _ _ _ _ P). intros x _. req. unfold g, w. field. lra. }
  pose proof (ppp_line (ue - le) T (fun u => g u * g u) _ ltac:(lra) HT Hg) as P.
  apply (average_bind _ _ _ _ _ (fun pts => exp (- 2 * T * le) * product (fun r => g (nth 0 r 0) * g (nth 0 r 0)) pts) (Forall (fun r => exists u, r = [u] /\ 0 <= u <= T))).
  - apply (average_scal _ _ _ _ (exp (- 2 * T * le))) in P. refine (average_eq _ _ _ _ _ _ P). rewrite <- !exp_plus. f_equal. unfold V. field. lra.
  - apply ppp_times_in. exact HT.
  - intros pts Hpts.
    assert (E : product (fun r => g (nth 0 r 0)) pts = exp (fold_right Rplus 0 (map (fun u => ln (ue - disc (w u))) (map (fun r => nth 0 r 0) pts)) - INR (length (map (fun r => nth 0 r 0) pts)) * ln (ue - le))).
    { rewrite (exp_sum_ln (fun u => ue - disc (w u))); [unfold product; rewrite map_map; reflexivity|lra|].
      intros x Hx. apply in_map_iff in Hx as (r & <- & Hr). rewrite Forall_forall in Hpts. destruct (Hpts r Hr) as (u & -> & Hu).
      cbn. specialize (Hphi u Hu). lra. }
    assert (E2 : product (fun r => g (nth 0 r 0) * g (nth 0 r 0)) pts = product (fun r => g (nth 0 r 0)) pts ^ 2).
    { unfold product. clear. induction pts as [|a pts IH]; cbn [map fold_right]; [ring|rewrite IH; ring]. }
    rewrite E2, E. replace (exp (- 2 * T * le)) with (exp (- T * le) ^ 2) by (cbn [pow]; rewrite Rmult_1_r, <- exp_plus; f_equal; ring).
    unfold rest. cbv zeta. destruct (map (fun r => nth 0 r 0) pts) as [|t0 ts] eqn:Et.
    + refine (average_eq _ _ _ _ _ _ (average_ret _ _ _)). cbn [fst snd exp_of map fold_right length INR]. replace (0 - 0 * ln (ue - le)) with 0 by ring. ring.
    + refine (average_eq _ _ _ _ _ _ (average_ret _ _ _)). cbn [fst snd exp_of]. rewrite map_map. ring.
Qed.
Lemma segment_square : forall path norm denorm disc bounds s T scale x0 x1 v r, operators norm denorm T scale x0 x1 -> estimable path disc bounds s T scale x0 x1 v -> spread path disc bounds s T scale x0 x1 r ->
  average (seed_est_with (pinned path) norm denorm s disc bounds) (fun a => (exp_of (fst (fst a)) * exp (snd (fst a))) ^ 2) (exp (- v) ^ 2 * exp r).
Proof.
  intros path norm denorm disc bounds s T scale x0 x1 v r OP HE (inf & le & ue & q & EB & HQ & ->). pose proof HE as (HT & Hv & _).
  set (w := segment_path path s T scale x0 x1) in *.
  assert (Hq : is_RInt (fun u => disc (w u) ^ 2) 0 T (q + 2 * le * v - le ^ 2 * T)).
  { pose proof (is_RInt_plus _ _ _ _ _ _ (is_RInt_plus _ _ _ _ _ _ HQ (is_RInt_scal _ _ _ (2 * le) _ Hv)) (is_RInt_const 0 T (- le ^ 2))) as P.
    unfold plus, scal in P; cbn -[pow] in P; unfold mult in P; cbn -[pow] in P.
    match type of P with is_RInt _ _ _ ?x => replace (q + 2 * le * v - le ^ 2 * T) with x by ring end.
    refine (is_RInt_ext _ _ _ _ _ _ P). intros x _. req. ring. }
  pose proof (segment_square0 path norm denorm disc bounds s T scale x0 x1 v _ inf le ue OP HE EB Hq) as P. refine (average_eq _ _ _ _ _ _ P).
  replace (exp (- v) ^ 2) with (exp (- 2 * v)) by (cbn [pow]; rewrite Rmult_1_r, <- exp_plus; f_equal; ring). do 2 f_equal. unfold Rdiv. f_equal. ring.
Qed.
Lemma prod_square : forall n (v r : nat -> R), fold_right Rmult 1 (map (fun i => exp (- v i) ^ 2 * exp (r i)) (seq 0 n)) = exp (- Mat.rsum n v) ^ 2 * exp (Mat.rsum n r).
Proof.
  intros n v r. induction n as [|n IH]; [cbn; rewrite Ropp_0, exp_0; ring|].
  rewrite seq_S, map_app. assert (FA : forall l l', fold_right Rmult 1 (l ++ l') = fold_right Rmult 1 l * fold_right Rmult 1 l') by (induction l as [|a l IHl]; intros l'; cbn; [ring|rewrite IHl; ring]).
  rewrite FA, IH. cbn [map fold_right Nat.add Mat.rsum]. replace (- (Mat.rsum n v + v n)) with (- Mat.rsum n v + - v n) by ring. rewrite !exp_plus. ring.
Qed.
Lemma square_osum : forall (rs : list (option R * R * skel)) c,
  exp_of (oplus (osum (map (fun r => fst (fst r)) rs)) (c + M_models.rsum (map (fun r => snd (fst r)) rs))) ^ 2 =
  exp c ^ 2 * fold_right Rmult 1 (map (fun r => (exp_of (fst (fst r)) * exp (snd (fst r))) ^ 2) rs).
Proof.
  intros rs c. rewrite exp_osum. assert (E : forall l : list (option R * R * skel), fold_right Rmult 1 (map (fun r => (exp_of (fst (fst r)) * exp (snd (fst r))) ^ 2) l) = fold_right Rmult 1 (map (fun r => exp_of (fst (fst r)) * exp (snd (fst r))) l) ^ 2).
  { induction l as [|a l IH]; cbn [map fold_right]; [ring|rewrite IH; ring]. }
  rewrite E. ring.
Qed.
Lemma ito_aug_square : forall path reduce disc bounds log_lik t vt thi z s0 n (v r : nat -> R),
  (0 < n)%nat -> length z = n -> length t = S n -> length vt = S n ->
  (forall i, (i < n)%nat -> let dt := nth (S i) t 0 - nth i t 0 in
     estimable path (disc thi) (bounds thi) (nth i z s0) dt (sqrt dt) (reduce thi (nth i vt 0)) (reduce thi (nth (S i) vt 0)) (v i) /\
     spread path (disc thi) (bounds thi) (nth i z s0) dt (sqrt dt) (reduce thi (nth i vt 0)) (reduce thi (nth (S i) vt 0)) (r i)) ->
  average (ito_aug_with (seed_est_with (pinned path)) reduce disc bounds log_lik t vt thi z) (fun a => exp_of (fst a) ^ 2) (exp (log_lik thi - Mat.rsum n v) ^ 2 * exp (Mat.rsum n r)).
Proof.
  intros path reduce disc bounds log_lik t vt thi z s0 n v r Hn Hz Htl Hvt HE. unfold ito_aug_with.
  assert (LD : length (np_diff t) = n) by (rewrite np_diff_length; lia).
  assert (LN : length (combine z (ito_normops reduce t vt thi)) = n).
  { rewrite combine_length. unfold ito_normops. rewrite map_length, zip3_length, LD, map_length. destruct (map (reduce thi) vt) eqn:E; [|rewrite <- E].
    - apply (f_equal (@length _)) in E. rewrite map_length in E. cbn in E. lia.
    - cbn [tl]. assert (length l = n). { apply (f_equal (@length _)) in E. rewrite map_length in E. cbn in E. lia. } rewrite E. cbn [tl]. lia. }
  apply (average_bind _ _ _ _ _ (fun rs => exp (log_lik thi) ^ 2 * fold_right Rmult 1 (map (fun r => (exp_of (fst (fst r)) * exp (snd (fst r))) ^ 2) rs)) (fun rs => length rs = n)).
  - refine (average_eq _ _ _ _ _ _ (average_scal _ _ _ _ (exp (log_lik thi) ^ 2) (average_map_m_prod _ _ _ _ (fun i => exp (- v i) ^ 2 * exp (r i)) _ _))).
    + rewrite LN, prod_square. replace (log_lik thi - Mat.rsum n v) with (log_lik thi + - Mat.rsum n v) by ring. rewrite exp_plus. ring.
    + intros i [z_ nm] Hi. assert (Hin : (i < n)%nat) by (rewrite <- LN; apply nth_error_Some; congruence).
      apply combine_at in Hi as [H1 H2].
      unfold ito_normops in H2. rewrite nth_error_map in H2. destruct (nth_error (zip3 _ _ _) i) as [[[dt x0] x1]|] eqn:E; [|discriminate]. cbn in H2. injection H2 as <-.
      apply rows_zip3 in E as (D & X0 & X1). cbn [fst snd] in *. apply diff_nth in D as [-> _]. rewrite tl_at in X1.
      rewrite nth_error_map in X0, X1. destruct (nth_error vt i) as [a|] eqn:A; [|discriminate]. destruct (nth_error vt (S i)) as [b|] eqn:B; [|discriminate].
      cbn in X0, X1. injection X0 as <-. injection X1 as <-.
      specialize (HE i Hin). cbv zeta in HE. rewrite (nth_of _ _ _ _ s0 H1), (nth_of _ _ _ _ 0 A), (nth_of _ _ _ _ 0 B) in HE.
      destruct HE as [HE1 HE2]. eapply segment_square; [apply ito_operators|exact HE1|exact HE2].
  - rewrite <- LN. apply map_m_len.
  - intros rs Hrs. destruct rs as [|r0 rs]; [cbn in Hrs; lia|].
    refine (average_eq _ _ _ _ _ _ (average_ret _ _ _)). cbn [fst]. apply square_osum.
Qed.
Lemma sw_aug_square : forall path vol disc bounds loglik thi z h restrict s0 n (v r : nat -> R),
  (0 < n)%nat -> length z = n -> length (a_t h) = S n -> length (a_y h) = S n -> length (a_v h) = S n ->
  (forall i, (i < n)%nat -> selected restrict (nth i (a_y h) 0%nat) = true -> let dt := nth (S i) (a_t h) 0 - nth i (a_t h) 0 in let y := nth i (a_y h) 0%nat in
     estimable path (disc thi y) (bounds thi y) (nth i z s0) dt (sqrt dt * vol thi y) (nth i (a_v h) 0) (nth (S i) (a_v h) 0) (v i) /\
     spread path (disc thi y) (bounds thi y) (nth i z s0) dt (sqrt dt * vol thi y) (nth i (a_v h) 0) (nth (S i) (a_v h) 0) (r i)) ->
  average (sw_aug_with (seed_est_with (pinned path)) vol disc bounds loglik thi z h restrict) (fun a => exp_of (fst a) ^ 2)
    (exp (fst (loglik thi h restrict) + snd (loglik thi h restrict) - Mat.rsum n (fun i => if selected restrict (nth i (a_y h) 0%nat) then v i else 0)) ^ 2 *
     exp (Mat.rsum n (fun i => if selected restrict (nth i (a_y h) 0%nat) then r i else 0))).
Proof.
  intros path vol disc bounds loglik thi z h restrict s0 n v r Hn Hz Ht Hy Hv HE. unfold sw_aug_with.
  assert (LD : length (np_diff (a_t h)) = n) by (rewrite np_diff_length; lia).
  assert (LY : length (removelast (a_y h)) = n) by (rewrite removelast_length; lia).
  assert (LV : length (tl (a_v h)) = n) by (destruct (a_v h); cbn in *; lia).
  assert (LN : length (zip3 z (a_y h) (sw_normops (vol thi) h)) = n).
  { rewrite zip3_length. unfold sw_normops, zip4. rewrite map_length, !combine_length. lia. }
  set (u := fun i => if selected restrict (nth i (a_y h) 0%nat) then v i else 0). set (u2 := fun i => if selected restrict (nth i (a_y h) 0%nat) then r i else 0).
  set (l := loglik thi h restrict).
  apply (average_bind _ _ _ _ _ (fun rs => exp (fst l + snd l) ^ 2 * fold_right Rmult 1 (map (fun r => (exp_of (fst (fst r)) * exp (snd (fst r))) ^ 2) rs)) (fun rs => length rs = n)).
  - refine (average_eq _ _ _ _ _ _ (average_scal _ _ _ _ (exp (fst l + snd l) ^ 2) (average_map_m_prod _ _ _ _ (fun i => exp (- u i) ^ 2 * exp (u2 i)) _ _))).
    + rewrite LN, prod_square. replace (fst l + snd l - Mat.rsum n u) with (fst l + snd l + - Mat.rsum n u) by ring. rewrite (exp_plus _ (- Mat.rsum n u)). ring.
    + intros i [[z_ y0] nm] Hi. assert (Hin : (i < n)%nat) by (rewrite <- LN; apply nth_error_Some; congruence).
      apply rows_zip3 in Hi as (H1 & HY & H2). unfold u, u2. rewrite (nth_of _ _ _ _ 0%nat HY).
      specialize (HE i Hin). rewrite (nth_of _ _ _ _ 0%nat HY), (nth_of _ _ _ _ s0 H1) in HE. cbv zeta in HE.
      destruct (selected restrict y0) eqn:SEL.
      * unfold sw_normops in H2. rewrite nth_error_map in H2. destruct (nth_error (zip4 _ _ _ _) i) as [[[[dt y1] x0] x1]|] eqn:E; [|discriminate]. cbn in H2. injection H2 as <-.
        unfold zip4 in E. apply combine_at in E as [E X1]. apply combine_at in E as [E X0]. apply combine_at in E as [D Y1].
        apply diff_nth in D as [-> _]. rewrite tl_at in X1. apply rm_at in Y1. assert (y1 = y0) as -> by congruence.
        specialize (HE eq_refl). rewrite (nth_of _ _ _ _ 0 X0), (nth_of _ _ _ _ 0 X1) in HE.
        destruct HE as [HE1 HE2]. eapply segment_square; [apply sw_operators|exact HE1|exact HE2].
      * refine (average_eq _ _ _ _ _ _ (average_ret _ _ _)). cbn [fst snd exp_of]. rewrite Ropp_0, exp_0. ring.
  - rewrite <- LN. apply map_m_len.
  - intros rs Hrs. destruct rs as [|r0 rs]; [cbn in Hrs; lia|].
    refine (average_eq _ _ _ _ _ _ (average_ret _ _ _)). cbn [fst]. apply square_osum.
Qed.
