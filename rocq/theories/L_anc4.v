(** The attempts of the edge samplers. *)
From Coquelicot Require Import Hierarchy RInt.
From Coq Require Import Reals List Bool Arith Lia Lra Psatz.
From Verif Require Import Base Np Rng L_rng M_mjp M_hit M_path SpecHit SpecLaw SpecEsc SpecLay L_heat3 L_heat4 L_heat5 L_heat6 L_law L_law2 L_law3 L_law4 L_law5 L_law6 L_law7 L_esc L_esc2 L_esc3 SpecAnch.
Import ListNotations.
Local Open Scope R_scope.

Lemma min_loop_run : forall fuel n t a b ub lbm ubm o k, layerbr_min_loop fuel (S n) t a b (Some ub) lbm ubm o k =
  (do m <- sample_brownbr_min t a b lbm ubm;
   match m with
   | None => raise AssertionError
   | Some (min_t, min_x) =>
       do ok <- min_attempt fuel t a b ub min_t min_x; if ok then ret (Some (min_t, min_x)) else layerbr_min_loop fuel n t a b (Some ub) lbm ubm
   end) o k.
Proof.
  intros. cbn [layerbr_min_loop]. unfold bind, min_attempt. destruct (sample_brownbr_min t a b lbm ubm o k) as [[[[mt mx]|]|e|] k']; try reflexivity.
  unfold bind. destruct (sample_bessel3br_esc fuel mt 0 (a - mx) (ub - mx) None None o k') as [[e1|e|] k1]; try reflexivity.
  destruct (sample_bessel3br_esc fuel (t - mt) 0 (b - mx) (ub - mx) None None o k1) as [[e2|e|] k2]; reflexivity.
Qed.
Lemma edges_loop_run : forall fuel mp n t a b li ui ls us o k, edges_loop fuel mp (S n) t a b li ui ls us o k =
  (do m <- sample_layerbr_min fuel mp t a b (Some us) (Some (Fin li)) (Some ui);
   match m with
   | None => ret None
   | Some (min_t, min_x) =>
       if orb (Reqb (Rmin a b) ui) (Reqb (Rmin a b) ls) then ret (Some (min_t, min_x, ls, us, None))
       else do r <- edges_attempt fuel t a b ls us min_t min_x;
            match r with Some f => ret (Some (min_t, min_x, ls, us, Some f)) | None => edges_loop fuel mp n t a b li ui ls us end
   end) o k.
Proof.
  intros. cbn [edges_loop]. unfold bind, edges_attempt. destruct (sample_layerbr_min fuel mp t a b (Some us) (Some (Fin li)) (Some ui) o k) as [[[[mt mx]|]|e|] k']; try reflexivity.
  destruct (orb (Reqb (Rmin a b) ui) (Reqb (Rmin a b) ls)); [reflexivity|].
  unfold bind. destruct (sample_bessel3br_esc fuel mt 0 (a - mx) (ls - mx) (Some (us - mx)) None o k') as [[e1|e|] k1]; try reflexivity.
  destruct (sample_bessel3br_esc fuel (t - mt) 0 (b - mx) (ls - mx) (Some (us - mx)) None o k1) as [[e2|e|] k2]; try reflexivity.
  destruct (negb e1 && negb e2); [reflexivity|]. destruct (draw_r (DUniform 0 1) o k2) as [[v|e|] k3]; try reflexivity. destruct (Rltb (1 / 2) v); reflexivity.
Qed.

Lemma segs_ok : forall t a b u m, 0 < u < t -> m < Rmin a b -> segment_ok (u, 0, a - m) /\ segment_ok (t - u, 0, b - m).
Proof. intros t a b u m H1 H2. assert (A := Rmin_l a b). assert (B := Rmin_r a b). split; unfold segment_ok; cbn [fst snd]; repeat split; lra. Qed.
Lemma min_settled : forall t a b ub u m q1 q2, 0 < u < t -> m < Rmin a b -> reaches (u, 0, a - m) (ub - m) q1 -> reaches (t - u, 0, b - m) (ub - m) q2 ->
  settled (fun fuel => min_attempt fuel t a b ub u m) ((1 - q1) * (1 - q2)).
Proof.
  intros t a b ub u m q1 q2 H1 H2 R1 R2. destruct (segs_ok t a b u m H1 H2) as [S1 S2].
  destruct (reaches_settled _ _ _ S1 R1) as (c1 & d1 & A1 & C1 & D1). destruct (reaches_settled _ _ _ S2 R2) as (c2 & d2 & A2 & C2 & D2). cbn [esc_at] in A1, A2.
  exists (fun f => d1 f * d2 f), (fun f => c1 f * (c2 f + d2 f) + d1 f * c2 f). split; [|split].
  - intros fuel. destruct (A1 fuel) as [Y1 N1]. destruct (A2 fuel) as [Y2 N2].
    assert (AV : forall h : bool -> R, average (min_attempt fuel t a b ub u m) h (c1 fuel * (c2 fuel * h false + d2 fuel * h false) + d1 fuel * (c2 fuel * h false + d2 fuel * h true))).
    { intros h. unfold min_attempt. apply (average_bind0 _ _ _ _ _ (fun e1 : bool => c2 fuel * h false + d2 fuel * h (negb e1))).
      - exact (answer_any _ (c1 fuel) (d1 fuel) (fun e1 : bool => c2 fuel * h false + d2 fuel * h (negb e1)) Y1 N1).
      - intros e1. apply (average_map _ _ (sample_bessel3br_esc fuel (t - u) 0 (b - m) (ub - m) None None) (fun e2 => negb e1 && negb e2)).
        apply (average_eq _ _ _ (c2 fuel * h (negb e1 && negb true) + d2 fuel * h (negb e1 && negb false))); [destruct e1; cbn; ring|].
        exact (answer_any _ (c2 fuel) (d2 fuel) (fun e2 => h (negb e1 && negb e2)) Y2 N2). }
    split; unfold chance; (eapply average_eq; [|apply AV]); unfold ind; cbn; ring.
  - apply (CV_mult d1 d2); assumption.
  - replace (1 - (1 - q1) * (1 - q2)) with (q1 * (q2 + (1 - q2)) + (1 - q1) * q2) by ring.
    apply (CV_plus (fun f => c1 f * (c2 f + d2 f)) (fun f => d1 f * c2 f)); [apply (CV_mult c1 (fun f => c2 f + d2 f)); [exact C1|apply (CV_plus c2 d2); assumption]|apply (CV_mult d1 c2); assumption].
Qed.

Lemma fair_coin : forall (h : option (bool * bool) -> R) f, average (do v <- draw_r (DUniform 0 1); if Rltb (1 / 2) v then ret (Some f) else ret None) h ((h (Some f) + h None) / 2).
Proof.
  intros h f. apply (average_bind0 _ _ _ _ _ (fun v : R => if Rltb (1 / 2) v then h (Some f) else h None)).
  - apply average_draw_r. split; [lra|].
    apply (rint_split _ 0 (1 / 2) 1 ((1 / 2 - 0) * h None) ((1 - 1 / 2) * h (Some f))); [field| |].
    + refine (is_RInt_ext (fun _ => h None) _ _ _ _ _ (is_RInt_const 0 (1 / 2) (h None))). rewrite Rmin_left, Rmax_right by lra. intros x Hx.
      rewrite (proj2 (Rltb_false (1 / 2) x)) by lra. reflexivity.
    + refine (is_RInt_ext (fun _ => h (Some f)) _ _ _ _ _ (is_RInt_const (1 / 2) 1 (h (Some f)))). rewrite Rmin_left, Rmax_right by lra. intros x Hx.
      rewrite (proj2 (Rltb_true (1 / 2) x)) by lra. reflexivity.
  - intros v. destruct (Rltb (1 / 2) v); apply average_ret.
Qed.
Definition kept_value (h : option (bool * bool) -> R) (f : bool * bool) : R := keep_rate f * h (Some f) + (1 - keep_rate f) * h None.
Lemma edges_average : forall fuel t a b lb ub u m c1 d1 c2 d2 h,
  chance (sample_bessel3br_esc fuel u 0 (a - m) (lb - m) (Some (ub - m)) None) (fun r => r) c1 -> chance (sample_bessel3br_esc fuel u 0 (a - m) (lb - m) (Some (ub - m)) None) negb d1 ->
  chance (sample_bessel3br_esc fuel (t - u) 0 (b - m) (lb - m) (Some (ub - m)) None) (fun r => r) c2 -> chance (sample_bessel3br_esc fuel (t - u) 0 (b - m) (lb - m) (Some (ub - m)) None) negb d2 ->
  average (edges_attempt fuel t a b lb ub u m) h
    (c1 * (c2 * kept_value h (true, true) + d2 * kept_value h (true, false)) + d1 * (c2 * kept_value h (false, true) + d2 * kept_value h (false, false))).
Proof.
  intros fuel t a b lb ub u m c1 d1 c2 d2 h Y1 N1 Y2 N2. unfold edges_attempt.
  apply (average_bind0 _ _ _ _ _ (fun e1 : bool => c2 * kept_value h (e1, true) + d2 * kept_value h (e1, false))).
  - exact (answer_any _ c1 d1 (fun e1 : bool => c2 * kept_value h (e1, true) + d2 * kept_value h (e1, false)) Y1 N1).
  - intros e1. apply (average_bind0 _ _ _ _ _ (fun e2 : bool => kept_value h (e1, e2))).
    + exact (answer_any _ c2 d2 (fun e2 : bool => kept_value h (e1, e2)) Y2 N2).
    + intros e2. unfold kept_value, keep_rate. cbn [fst snd]. destruct (negb e1 && negb e2) eqn:B.
      * destruct e1, e2; try discriminate. cbn [orb]. eapply average_eq; [|apply average_ret]. ring.
      * replace (e1 || e2) with true by (destruct e1, e2; try discriminate; reflexivity). eapply average_eq; [|apply fair_coin]. field.
Qed.
Lemma reaches_lt1 : forall s K q, segment_ok s -> Rmax (snd (fst s)) (snd s) < K -> reaches s K q -> q < 1.
Proof.
  intros [[dt x0] x1] K q (H1 & H2 & H3) HM [[H _]|[_ H]]; cbn [fst snd] in *; [lra|].
  apply (bessel_lt1 dt x0 x1 K q); auto; [eapply Rle_lt_trans; [apply Rmax_l|exact HM]|eapply Rle_lt_trans; [apply Rmax_r|exact HM]].
Qed.
Section Attempt.
  Variables (t a b lb ub u m p1 p2 q1 q2 : R).
  Hypothesis (Hu : 0 < u < t) (Hm : m < Rmin a b) (Hub : Rmax a b < ub) (Hlu : lb <= ub).
  Hypothesis (P1 : reaches (u, 0, a - m) (lb - m) p1) (P2 : reaches (t - u, 0, b - m) (lb - m) p2).
  Hypothesis (Q1 : reaches (u, 0, a - m) (ub - m) q1) (Q2 : reaches (t - u, 0, b - m) (ub - m) q2).
  Hypothesis (O1 : series_ok (lb - m) (Some (ub - m)) (u, 0, a - m)) (O2 : series_ok (lb - m) (Some (ub - m)) (t - u, 0, b - m)).
  Lemma flags_limit : exists c1 d1 c2 d2, (forall fuel h, average (edges_attempt fuel t a b lb ub u m) h
      (c1 fuel * (c2 fuel * kept_value h (true, true) + d2 fuel * kept_value h (true, false)) + d1 fuel * (c2 fuel * kept_value h (false, true) + d2 fuel * kept_value h (false, false)))) /\
    Un_cv c1 (flag_chance true p1 q1) /\ Un_cv d1 (flag_chance false p1 q1) /\ Un_cv c2 (flag_chance true p2 q2) /\ Un_cv d2 (flag_chance false p2 q2).
  Proof.
    destruct (segs_ok t a b u m Hu Hm) as [S1 S2]. assert (A := Rmin_l a b). assert (B := Rmin_r a b). assert (C := Rmax_l a b). assert (D := Rmax_r a b).
    assert (L1 : q1 < 1) by (apply (reaches_lt1 _ _ _ S1) in Q1; [exact Q1|cbn [fst snd]; apply Rmax_lub_lt; lra]).
    assert (L2 : q2 < 1) by (apply (reaches_lt1 _ _ _ S2) in Q2; [exact Q2|cbn [fst snd]; apply Rmax_lub_lt; lra]).
    destruct (flag_settled _ (lb - m) (Some (ub - m)) p1 q1 S1 P1 Q1 O1 ltac:(lra)) as (r1 & (c1 & d1 & A1 & C1 & D1) & E1).
    destruct (flag_settled _ (lb - m) (Some (ub - m)) p2 q2 S2 P2 Q2 O2 ltac:(lra)) as (r2 & (c2 & d2 & A2 & C2 & D2) & E2). cbn [esc_at] in A1, A2.
    assert (F1 : r1 = flag_chance true p1 q1) by (unfold flag_chance; rewrite <- E1; field; lra). assert (F2 : r2 = flag_chance true p2 q2) by (unfold flag_chance; rewrite <- E2; field; lra).
    assert (G1 : 1 - r1 = flag_chance false p1 q1) by (rewrite F1; unfold flag_chance; field; lra). assert (G2 : 1 - r2 = flag_chance false p2 q2) by (rewrite F2; unfold flag_chance; field; lra).
    exists c1, d1, c2, d2. split.
    - intros fuel h. destruct (A1 fuel) as [Y1 N1]. destruct (A2 fuel) as [Y2 N2]. apply edges_average; assumption.
    - rewrite <- G1, <- G2, <- F1, <- F2. auto.
  Qed.
  Lemma limit_of_cv : forall A (mm : nat -> M A) E (c : nat -> R) v, (forall fuel, chance (mm fuel) E (c fuel)) -> Un_cv c v -> limit_chance mm E v.
  Proof. intros A mm E c v H C eps He. destruct (C eps He) as (n0 & H0). exists n0. intros fuel HF. exists (c fuel). split; [apply H|exact (H0 fuel HF)]. Qed.
  Lemma cv_mix : forall (c1 d1 c2 d2 : nat -> R) x1 y1 x2 y2 v1 v2 v3 v4, Un_cv c1 x1 -> Un_cv d1 y1 -> Un_cv c2 x2 -> Un_cv d2 y2 ->
    Un_cv (fun f => c1 f * (c2 f * v1 + d2 f * v2) + d1 f * (c2 f * v3 + d2 f * v4)) (x1 * (x2 * v1 + y2 * v2) + y1 * (x2 * v3 + y2 * v4)).
  Proof.
    assert (K : forall (f : nat -> R) x v, Un_cv f x -> Un_cv (fun n => f n * v) (x * v)) by (intros f x v H; apply (CV_mult f (fun _ => v)); [exact H|apply cv_const']).
    intros c1 d1 c2 d2 x1 y1 x2 y2 v1 v2 v3 v4 H1 H2 H3 H4.
    apply (CV_plus (fun f => c1 f * (c2 f * v1 + d2 f * v2)) (fun f => d1 f * (c2 f * v3 + d2 f * v4))).
    - apply (CV_mult c1 (fun f => c2 f * v1 + d2 f * v2)); [exact H1|]. apply (CV_plus (fun f => c2 f * v1) (fun f => d2 f * v2)); apply K; assumption.
    - apply (CV_mult d1 (fun f => c2 f * v3 + d2 f * v4)); [exact H2|]. apply (CV_plus (fun f => c2 f * v3) (fun f => d2 f * v4)); apply K; assumption.
  Qed.
  Lemma flags_kept : forall f, limit_chance (fun fuel => edges_attempt fuel t a b lb ub u m) (kept f) (keep_rate f * (flag_chance (fst f) p1 q1 * flag_chance (snd f) p2 q2)).
  Proof.
    intros f. destruct flags_limit as (c1 & d1 & c2 & d2 & AV & C1 & D1 & C2 & D2). set (h := fun r => ind (kept f r)).
    apply (limit_of_cv _ _ _ _ _ (fun fuel => AV fuel h)).
    replace (keep_rate f * _) with (flag_chance true p1 q1 * (flag_chance true p2 q2 * kept_value h (true, true) + flag_chance false p2 q2 * kept_value h (true, false))
      + flag_chance false p1 q1 * (flag_chance true p2 q2 * kept_value h (false, true) + flag_chance false p2 q2 * kept_value h (false, false))).
    - apply cv_mix; assumption.
    - unfold kept_value, h, ind, kept. destruct f as [[|] [|]]; cbn [fst snd Bool.eqb andb]; ring.
  Qed.
  Lemma attempt_kept : limit_chance (fun fuel => edges_attempt fuel t a b lb ub u m) (fun r => match r with Some _ => true | None => false end)
    (1 - (1 - flag_chance false p1 q1 * flag_chance false p2 q2) / 2).
  Proof.
    destruct flags_limit as (c1 & d1 & c2 & d2 & AV & C1 & D1 & C2 & D2). set (E := fun r : option (bool * bool) => match r with Some _ => true | None => false end).
    apply (limit_of_cv _ _ _ _ _ (fun fuel => AV fuel (fun r => ind (E r)))).
    destruct (segs_ok t a b u m Hu Hm) as [S1 S2]. assert (A := Rmin_l a b). assert (B := Rmin_r a b). assert (C := Rmax_l a b). assert (D := Rmax_r a b).
    assert (L1 : q1 < 1) by (apply (reaches_lt1 _ _ _ S1) in Q1; [exact Q1|cbn [fst snd]; apply Rmax_lub_lt; lra]).
    assert (L2 : q2 < 1) by (apply (reaches_lt1 _ _ _ S2) in Q2; [exact Q2|cbn [fst snd]; apply Rmax_lub_lt; lra]).
    replace (1 - _) with (flag_chance true p1 q1 * (flag_chance true p2 q2 * kept_value (fun r => ind (E r)) (true, true) + flag_chance false p2 q2 * kept_value (fun r => ind (E r)) (true, false))
      + flag_chance false p1 q1 * (flag_chance true p2 q2 * kept_value (fun r => ind (E r)) (false, true) + flag_chance false p2 q2 * kept_value (fun r => ind (E r)) (false, false))).
    - apply cv_mix; assumption.
    - unfold kept_value, ind, E, keep_rate. cbn [fst snd orb]. unfold flag_chance. field. lra.
  Qed.
End Attempt.
Lemma anchor_inhabited : exists p q, 0 < 1 < 2 /\ -1 < Rmin 0 0 /\ Rmax 0 0 < 9 /\ 1 / 2 <= 9 /\
  reaches (1, 0, 0 - -1) (1 / 2 - -1) p /\ reaches (1, 0, 0 - -1) (9 - -1) q /\ p < 1 /\ q < 1 /\ series_ok (1 / 2 - -1) (Some (9 - -1)) (1, 0, 0 - -1).
Proof.
  replace (0 - -1) with 1 by ring. replace (1 / 2 - -1) with (3 / 2) by field. replace (9 - -1) with 10 by ring.
  destruct (bessel_full_range 1 0 1 (3/2)) as (p & P & R1); try lra. destruct (bessel_full_range 1 0 1 10) as (q & Q & R2); try lra. exists p, q.
  assert (M1 : Rmax 0 1 = 1) by (apply Rmax_right; lra). rewrite (Rmin_left 0 0), (Rmax_left 0 0) by lra.
  split; [lra|]. split; [lra|]. split; [lra|]. split; [lra|].
  split; [right; cbn [fst snd]; rewrite M1; split; [lra|exact P]|]. split; [right; cbn [fst snd]; rewrite M1; split; [lra|exact Q]|]. split; [lra|]. split; [lra|].
  intros _. cbn [fst snd]. split; [lra|]. unfold bessel_three. rewrite (proj2 (Reqb_true 0 0)) by reflexivity. unfold bessel_term. cbn [INR].
  assert (E : forall x, 0 < x -> 0 < exp (- x) <= / (1 + x)).
  { intros x X. split; [apply exp_pos|]. rewrite exp_Ropp. apply Rinv_le_contravar; [lra|]. left. apply exp_ineq1. lra. }
  pose proof (E (2 * 1 * 10 * (1 * 10 - 1) / 1) ltac:(lra)). pose proof (E (2 * 1 * 10 * (1 * 10 + 1) / 1) ltac:(lra)). pose proof (E (4 * 10 * (2 * 10 - 1) / 1) ltac:(lra)).
  replace (/ (1 + 2 * 1 * 10 * (1 * 10 - 1) / 1)) with (1/181) in * by lra. replace (/ (1 + 4 * 10 * (2 * 10 - 1) / 1)) with (1/761) in * by lra. lra.
Qed.
