(** Redrawing a cut path is reversible for the process that starts in the uniform law. *)
From Coquelicot Require Import Rcomplements Hierarchy.
From Coq Require Import Reals List Bool Arith Lia Lra Psatz.
From Verif Require Import Base Np Rng L_rng M_mjp SpecMjp SpecLin SpecLaw SpecFdd SpecRedraw L_law L_law2 L_stat L_mutate L_fdd3 L_fwd4 L_fwd5 L_fwd6 L_fwd7 L_redraw L_redraw2 L_redraw3 L_redraw4 L_mat Mat.
Import ListNotations.
Local Open Scope R_scope.

Lemma markov_join : forall (P : R -> nat -> nat -> R) o u0 x T y rest, markov P u0 x (o ++ (T, y) :: rest) = markov P u0 x (o ++ [(T, y)]) * markov P T y rest.
Proof. intros P. induction o as [|[v z] o IH]; intros u0 x T y rest; cbn [app markov]; [ring|]. rewrite IH. ring. Qed.
Lemma spread_cut_shift : forall l ys t0 t1, spread_cut (t0 + t1) l ys = map (fun c => (t0 + fst c, snd c)) (spread_cut t1 l ys).
Proof.
  induction l as [|[T o] l IH]; intros ys t0 t1; [reflexivity|]. cbn [spread_cut]. rewrite map_app, map_map, Rplus_assoc. f_equal.
  - apply map_ext. intros [u y]. cbn. f_equal. ring.
  - destruct ys as [|y ys]; [apply spread_shift|]. cbn [map fst snd]. rewrite IH. reflexivity.
Qed.
Lemma joins_cut : forall L dim gen Tq oq mids y ys, length ys = length mids ->
  markov (fun t => get_trans L dim t gen) 0 y (spread_cut 0 (mids ++ [(Tq, oq)]) ys) = joins L dim gen oq mids y ys.
Proof.
  intros L dim gen Tq oq. induction mids as [|[T o] mids IH]; intros y [|y' ys] E; try discriminate.
  - cbn [app spread_cut spread joins]. rewrite app_nil_r, map_shift0. reflexivity.
  - cbn [app spread_cut joins]. rewrite map_shift0, Rplus_0_l. rewrite <- (Rplus_0_r T) at 2. rewrite spread_cut_shift.
    rewrite markov_join. f_equal. rewrite <- (IH y' ys) by (cbn in E; lia).
    pose proof (markov_shift (fun t => get_trans L dim t gen) (spread_cut 0 (mids ++ [(Tq, oq)]) ys) T 0 y') as MS. rewrite Rplus_0_r in MS. exact MS.
Qed.
(** what the process shows, with the states at the cuts, is the law of these states times the law of the redrawn pieces *)
Lemma given_cuts : forall L dim gen, (2 <= dim)%nat -> generator dim gen -> pos_off dim gen -> expm_exact L ->
  forall p : vec, (forall i, (i < dim)%nat -> p i = / INR dim) -> let P := fun t => get_trans L dim t gen in
  forall pieces, (2 <= length pieces)%nat -> askable dim pieces -> let n := (length pieces - 1)%nat in
  forall ps, (forall ys, length ys = n -> Forall (fun y => (y < dim)%nat) ys -> cut_at dim (map fst pieces) ys (ps ys)) ->
  exists l, forall ys, length ys = n -> Forall (fun y => (y < dim)%nat) ys ->
    (exists c, (forall fuel, chance (mutate_partition L fuel (ps ys) dim gen) (all_visit (map snd pieces)) (c fuel)) /\ Un_cv c (l ys)) /\
    rsum dim (fun x => p x * markov P 0 x (spread_cut 0 pieces ys)) = rsum dim (fun x => p x * markov P 0 x (cut_obs 0 (map fst pieces) ys)) * l ys.
Proof.
  intros L dim gen Hdim Hgen Hoff HL p PU P pieces HN A n ps HP. destruct pieces as [|[T0 o0] r]; [cbn in HN; lia|].
  destruct (exists_last (l := r)) as (mids & [Tq oq] & ->). { intros ->. cbn in HN. lia. }
  assert (EN : n = S (length mids)) by (unfold n; cbn [length]; rewrite app_length; cbn; lia). rewrite EN in *.
  set (head := fun y => rsum dim (fun i => markov P 0 i (o0 ++ [(T0, y)])) / rsum dim (fun j => P T0 j y)).
  exists (fun ys : list nat => match ys with [] => 0 | y :: ys' => head y * (fold_right Rmult 1 (map (fun c => pinned P (sk_fin (snd c)) (first_of (snd c)) (final_of (snd c)) (fst c)) (combine (map snd mids) (removelast (tl (ps ys))))) * markov P 0 (first_of (last (ps ys) (mk_skel [] [] 0))) oq) end).
  intros ys E F. destruct (cut_parts dim T0 o0 mids Tq oq ys (ps ys) A E F (HP ys E F)) as (p0 & ms & q & y & ys' & -> & E2 & Hy & Hys & F1 & F2 & F3 & F4 & F5 & K1 & K2 & K3).
  rewrite E2. cbn [tl]. rewrite removelast_last. change (p0 :: ms ++ [q]) with ((p0 :: ms) ++ [q]). rewrite last_last. split.
  - destruct (mutate_law L dim gen Hdim Hgen Hoff HL p0 ms q o0 (map snd mids) oq K1 K2 K3) as (c & C1 & C2). exists c. split.
    + intros fuel. cbn [app map snd]. rewrite map_app. apply C1.
    + unfold head. rewrite <- F2, <- F1. rewrite <- Rmult_assoc. exact C2.
  - assert (A' : askable dim (mids ++ [(Tq, oq)])) by (inversion A; assumption). assert (A0 : 0 < T0 /\ in_order 0 o0 T0 /\ Forall (fun p => (snd p < dim)%nat) o0) by (inversion A; assumption). destruct A0 as (A1 & A2 & A3).
    assert (AM : askable dim mids) by (apply Forall_app in A'; apply A').
    pose proof (weighted L dim gen Hdim Hgen Hoff HL oq mids ms q y ys' T0 AM F3 F5 F4 Hy Hys) as WS. change (fun t => get_trans L dim t gen) with P in WS.
    pose proof (joins_cut L dim gen Tq oq mids y ys' ltac:(cbn in E; lia)) as JC. change (fun t => get_trans L dim t gen) with P in JC.
    set (K := markov P T0 y (cut_obs T0 (map fst mids) ys')) in *. rewrite <- WS in JC.
    cbn [map fst]. rewrite map_app. change (T0 :: map fst mids ++ map fst [(Tq, oq)]) with ((T0 :: map fst mids) ++ map fst [(Tq, oq)]). rewrite cut_obs_app by (cbn [length] in *; rewrite map_length; exact E).
    assert (S1 : rsum dim (fun x => p x * markov P 0 x (cut_obs 0 (T0 :: map fst mids) (y :: ys'))) = p y * K * rsum dim (fun x => P T0 x y)).
    { rewrite <- rsum_scal_l. apply rsum_ext. intros x Hx. cbn [cut_obs markov]. rewrite Rplus_0_l, Rminus_0_r. fold K. rewrite (PU x Hx), (PU y Hy). ring. }
    rewrite S1. assert (S2 : 0 < rsum dim (fun j => P T0 j y)).
    { apply (rsum_pos dim _ y); [|exact Hy|].
      - intros j Hj. apply Rlt_le. exact (trans_all_pos L dim gen Hdim Hgen Hoff HL T0 j y A1 Hj Hy).
      - exact (trans_all_pos L dim gen Hdim Hgen Hoff HL T0 y y A1 Hy Hy). }
    match type of JC with ?a = K * ?v => set (V := v) in *; set (W := a) in * end.
    transitivity (p y * rsum dim (fun i => markov P 0 i (o0 ++ [(T0, y)])) * W).
    + rewrite <- rsum_scal_l, <- rsum_scal_r. apply rsum_ext. intros x Hx. rewrite (PU x Hx), (PU y Hy).
      cbn [spread_cut]. rewrite map_shift0, Rplus_0_l. rewrite markov_join.
      assert (EW : markov P T0 y (spread_cut T0 (mids ++ [(Tq, oq)]) ys') = W).
      { rewrite <- (Rplus_0_r T0) at 2. rewrite spread_cut_shift. pose proof (markov_shift P (spread_cut 0 (mids ++ [(Tq, oq)]) ys') T0 0 y) as MS. rewrite Rplus_0_r in MS. exact MS. }
      rewrite EW. ring.
    + rewrite JC. unfold head. fold V. field. lra.
Qed.
Lemma map_fst_combine : forall (A B : Type) (l : list A) (m : list B), length m = length l -> map fst (combine l m) = l.
Proof. induction l as [|a l IH]; intros [|b m] E; try discriminate; [reflexivity|]. cbn. rewrite IH by (cbn in E; lia). reflexivity. Qed.
Lemma map_snd_combine : forall (A B : Type) (l : list A) (m : list B), length m = length l -> map snd (combine l m) = m.
Proof. induction l as [|a l IH]; intros [|b m] E; try discriminate; [reflexivity|]. cbn. rewrite IH by (cbn in E; lia). reflexivity. Qed.
Lemma uniform_reversible : forall L dim gen, (2 <= dim)%nat -> generator dim gen -> pos_off dim gen -> expm_exact L ->
  forall p : vec, (forall i, (i < dim)%nat -> p i = / INR dim) ->
  forall Ts A B, (2 <= length Ts)%nat -> length A = length Ts -> length B = length Ts -> askable dim (combine Ts A) -> askable dim (combine Ts B) -> redraw_reversible L dim gen p Ts A B.
Proof.
  intros L dim gen Hd Hg Ho HL p PU Ts A B HN EA EB HA HB ps HP. set (P := fun t => get_trans L dim t gen).
  assert (LA : length (combine Ts A) = length Ts) by (rewrite combine_length; lia). assert (LB : length (combine Ts B) = length Ts) by (rewrite combine_length; lia).
  assert (GA := given_cuts L dim gen Hd Hg Ho HL p PU (combine Ts A)). assert (GB := given_cuts L dim gen Hd Hg Ho HL p PU (combine Ts B)). cbv zeta in GA, GB.
  rewrite LA, (map_fst_combine _ _ Ts A EA), (map_snd_combine _ _ Ts A EA) in GA. rewrite LB, (map_fst_combine _ _ Ts B EB), (map_snd_combine _ _ Ts B EB) in GB.
  destruct (GA HN HA ps HP) as (a & HAa). destruct (GB HN HB ps HP) as (b & HBb). exists a, b.
  split; [intros ys E F; apply (HAa ys E F)|]. split; [intros ys E F; apply (HBb ys E F)|].
  apply sum_states_ext. intros ys E F. destruct (HAa ys E F) as [_ QA]. destruct (HBb ys E F) as [_ QB]. cbv beta. change (fun t => get_trans L dim t gen) with P in QA, QB |- *. rewrite QA, QB. ring.
Qed.
