(** Redrawing a partition of a path of the regime process that starts in the uniform law. *)
From Coquelicot Require Import Rcomplements.
From Coq Require Import Reals List Bool Arith Lia Lra Psatz.
From Verif Require Import Base Np Rng L_rng M_mjp SpecMjp SpecLin SpecLaw SpecFdd SpecRedraw L_law L_law2 L_stat L_mutate L_fwd4 L_fwd5 L_fwd6 L_redraw L_mat Mat.
Import ListNotations.
Local Open Scope R_scope.

Lemma sum_states_ext : forall dim k f g, (forall ys, length ys = k -> Forall (fun y => (y < dim)%nat) ys -> f ys = g ys) -> sum_states dim k f = sum_states dim k g.
Proof.
  intros dim. induction k as [|k IH]; intros f g H; cbn [sum_states]; [apply H; auto|]. apply rsum_ext. intros y Hy. apply IH. intros ys E F. apply H; [cbn; lia|constructor; assumption].
Qed.
Lemma sum_states_scal : forall dim k a f, sum_states dim k (fun ys => a * f ys) = a * sum_states dim k f.
Proof. intros dim. induction k as [|k IH]; intros a f; cbn [sum_states]; [reflexivity|]. rewrite <- rsum_scal_l. apply rsum_ext. intros y _. apply (IH a (fun ys => f (y :: ys))). Qed.
Lemma spread_shift : forall l t0 t1, spread (t0 + t1) l = map (fun c => (t0 + fst c, snd c)) (spread t1 l).
Proof.
  induction l as [|[T o] l IH]; intros t0 t1; [reflexivity|]. cbn [spread]. rewrite map_app, map_map, <- IH. rewrite <- Rplus_assoc. f_equal. apply map_ext. intros [u y]. cbn. f_equal. ring.
Qed.
Lemma map_shift0 : forall o : list (R * nat), map (fun c => (0 + fst c, snd c)) o = o.
Proof. induction o as [|[u y] o IH]; [reflexivity|]. cbn [map fst snd]. rewrite IH, Rplus_0_l. reflexivity. Qed.
Lemma spread_range : forall dim l t0, askable dim l -> Forall (fun p => (snd p < dim)%nat) (spread t0 l).
Proof.
  intros dim. induction l as [|[T o] l IH]; intros t0 A; [constructor|]. inversion A as [|? ? (A1 & A2 & A3) A4]; subst. cbn [spread fst snd] in *. apply Forall_app. split; [|apply IH; exact A4].
  apply Forall_map. exact A3.
Qed.
Section Redraw.
  Variables (L : linalg) (dim : nat) (gen : mat).
  Hypothesis Hdim : (2 <= dim)%nat.
  Hypothesis Hgen : generator dim gen.
  Hypothesis Hoff : pos_off dim gen.
  Hypothesis HL : expm_exact L.
  Notation Pt := (fun t => get_trans L dim t gen).
  Variables (Tq : R) (oq : list (R * nat)).
  Fixpoint joins (mids : list (R * list (R * nat))) (y : nat) (ys : list nat) : R :=
    match mids, ys with
    | (T, o) :: m, y' :: ys' => markov Pt 0 y (o ++ [(T, y')]) * joins m y' ys'
    | _, _ => markov Pt 0 y oq
    end.
  Lemma joins_sum : forall mids y, (y < dim)%nat -> askable dim (mids ++ [(Tq, oq)]) -> sum_states dim (length mids) (joins mids y) = markov Pt 0 y (spread 0 (mids ++ [(Tq, oq)])).
  Proof.
    induction mids as [|[T o] mids IH]; intros y Hy A; cbn [length sum_states app].
    - cbn [joins spread]. rewrite app_nil_r, map_shift0. reflexivity.
    - inversion A as [|? ? (A1 & A2 & A3) A4]; subst. cbn [fst snd] in *. cbn [spread]. rewrite map_shift0, Rplus_0_l.
      rewrite <- (Rplus_0_r T), spread_shift, (Rplus_0_r T).
      rewrite <- (splice L dim gen Hgen HL o 0 T y (spread 0 (mids ++ [(Tq, oq)])) A2 Hy A3 (spread_range dim _ 0 A4)).
      apply rsum_ext. intros z Hz. cbn [joins]. rewrite sum_states_scal. rewrite (IH z Hz A4). reflexivity.
  Qed.
  (** the limit of the redrawn pieces after the first, times the law of the states at the cuts *)
  Lemma weighted : forall mids ms q y ys t0, askable dim mids -> map sk_fin ms = map fst mids -> map first_of (ms ++ [q]) = y :: ys -> map final_of ms = ys -> (y < dim)%nat -> Forall (fun z => (z < dim)%nat) ys ->
    markov Pt t0 y (cut_obs t0 (map fst mids) ys) *
    (fold_right Rmult 1 (map (fun c => pinned Pt (sk_fin (snd c)) (first_of (snd c)) (final_of (snd c)) (fst c)) (combine (map snd mids) ms)) * markov Pt 0 (first_of q) oq) = joins mids y ys.
  Proof.
    induction mids as [|[T o] mids IH]; intros ms q y ys t0 A F1 F2 F3 Hy Hys.
    - destruct ms as [|m ms]; [|discriminate]. cbn in F2, F3. subst ys. injection F2 as F2. cbn. rewrite F2. ring.
    - destruct ms as [|m ms]; [discriminate|]. cbn [map app fst snd] in *. injection F1 as F1 F1'. injection F2 as F2 F2'. destruct ys as [|y' ys]; [discriminate|]. injection F3 as F3 F3'.
      inversion A as [|? ? (A1 & A2 & A3) A4]; subst. inversion Hys as [|? ? Hy' Hys']; subst. cbn [fst snd] in *.
      cbn [combine map fold_right cut_obs markov joins fst snd]. 
      rewrite <- (IH ms q (final_of m) (map final_of ms) (t0 + sk_fin m) A4 F1' F2' eq_refl Hy' Hys').
      replace (t0 + sk_fin m - t0) with (sk_fin m) by ring. unfold pinned.
      pose proof (trans_all_pos L dim gen Hdim Hgen Hoff HL (sk_fin m) (first_of m) (final_of m) A1 Hy Hy') as PP. field. lra.
  Qed.
End Redraw.
Lemma cut_parts : forall dim T0 o0 mids Tq oq ys ps, askable dim ((T0, o0) :: mids ++ [(Tq, oq)]) -> length ys = S (length mids) -> Forall (fun y => (y < dim)%nat) ys ->
  cut_at dim (map fst ((T0, o0) :: mids ++ [(Tq, oq)])) ys ps ->
  exists p ms q y ys', ys = y :: ys' /\ ps = p :: ms ++ [q] /\ (y < dim)%nat /\ Forall (fun z => (z < dim)%nat) ys' /\ sk_fin p = T0 /\ final_of p = y /\ map sk_fin ms = map fst mids /\ map final_of ms = ys' /\
    map first_of (ms ++ [q]) = y :: ys' /\ asked dim o0 p /\ Forall2 (asked dim) (map snd mids) ms /\ asked dim oq q.
Proof.
  intros dim T0 o0 mids Tq oq ys ps A HL Hys (C1 & C2 & C3 & C4). destruct ps as [|p ps]; [discriminate|]. cbn [map] in C1. injection C1 as C1 C1'.
  destruct (exists_last (l := ps)) as (ms & q & ->). { intros ->. rewrite map_app in C1'. destruct (map fst mids); discriminate. }
  rewrite !map_app in C1'. cbn [map fst] in C1'. apply app_inj_tail in C1'. destruct C1' as [C5 C6].
  change (p :: ms ++ [q]) with ((p :: ms) ++ [q]) in C3. rewrite removelast_last in C3. cbn [map] in C3. cbn [tl] in C4.
  destruct ys as [|y ys]; [discriminate|]. injection C3 as C3 C3'. inversion Hys; subst.
  exists p, ms, q, (final_of p), (map final_of ms). repeat (split; [reflexivity || assumption|]).
  cbn [app] in C2. inversion C2 as [|? ? (D1 & D2) D3]; subst. apply Forall_app in D3. destruct D3 as [D3 D4]. inversion D4 as [|? ? (D5 & D6) _]; subst.
  inversion A as [|? ? (A1 & A2 & A3) A4]; subst. apply Forall_app in A4. destruct A4 as [A4 A5]. inversion A5 as [|? ? (A6 & A7 & A8) _]; subst. cbn [fst snd] in *.
  split; [repeat split; assumption|]. split; [|repeat split; assumption].
  clear - A4 D3 C5. revert ms C5 D3. induction mids as [|[T o] mids IH]; intros ms C5 D3; (destruct ms as [|m ms]; try discriminate); cbn [map] in *; [constructor|].
  injection C5 as C5 C5'. inversion A4 as [|? ? (A1 & A2 & A3) A5]; subst. inversion D3 as [|? ? (D1 & D2) D4]; subst. cbn [fst snd] in *. constructor; [repeat split; assumption|apply IH; assumption].
Qed.
Lemma redraw_invariant : forall L dim gen, (2 <= dim)%nat -> generator dim gen -> pos_off dim gen -> expm_exact L ->
  forall p : vec, (forall i, (i < dim)%nat -> p i = / INR dim) ->
  let P := fun t => get_trans L dim t gen in
  forall T0 o0 mids Tq oq, let pieces := (T0, o0) :: mids ++ [(Tq, oq)] in askable dim pieces ->
  forall ps, (forall ys, length ys = S (length mids) -> Forall (fun y => (y < dim)%nat) ys -> cut_at dim (map fst pieces) ys (ps ys)) ->
  exists l, (forall ys, length ys = S (length mids) -> Forall (fun y => (y < dim)%nat) ys ->
      exists c, (forall fuel, chance (mutate_partition L fuel (ps ys) dim gen) (all_visit (map snd pieces)) (c fuel)) /\ Un_cv c (l ys)) /\
    sum_states dim (S (length mids)) (fun ys => rsum dim (fun x => p x * markov P 0 x (cut_obs 0 (T0 :: map fst mids) ys)) * l ys) = rsum dim (fun x => p x * markov P 0 x (spread 0 pieces)).
Proof.
  intros L dim gen Hdim Hgen Hoff HL p PU P T0 o0 mids Tq oq pieces A ps HP.
  set (head := fun y => rsum dim (fun i => markov P 0 i (o0 ++ [(T0, y)])) / rsum dim (fun j => P T0 j y)).
  set (l := fun ys : list nat => match ys with [] => 0 | y :: ys' => head y * (fold_right Rmult 1 (map (fun c => pinned P (sk_fin (snd c)) (first_of (snd c)) (final_of (snd c)) (fst c)) (combine (map snd mids) (removelast (tl (ps ys))))) * markov P 0 (first_of (last (ps ys) (mk_skel [] [] 0))) oq) end).
  exists l. split.
  - intros ys E F. destruct (cut_parts dim T0 o0 mids Tq oq ys (ps ys) A E F (HP ys E F)) as (p0 & ms & q & y & ys' & -> & E2 & Hy & Hys & F1 & F2 & F3 & F4 & F5 & K1 & K2 & K3).
    destruct (mutate_law L dim gen Hdim Hgen Hoff HL p0 ms q o0 (map snd mids) oq K1 K2 K3) as (c & C1 & C2). exists c. split.
    + intros fuel. rewrite E2. unfold pieces. cbn [map snd]. rewrite map_app. apply C1.
    + unfold l. rewrite E2. cbn [tl]. rewrite removelast_last. change (p0 :: ms ++ [q]) with ((p0 :: ms) ++ [q]). rewrite last_last.
      unfold head. rewrite <- F2, <- F1. rewrite <- Rmult_assoc. exact C2.
  - assert (A' : askable dim (mids ++ [(Tq, oq)])) by (inversion A; assumption). assert (A0 : 0 < T0 /\ in_order 0 o0 T0 /\ Forall (fun p => (snd p < dim)%nat) o0) by (inversion A; assumption). destruct A0 as (A1 & A2 & A3).
    transitivity (rsum dim (fun y => rsum dim (fun i => p i * markov P 0 i (o0 ++ [(T0, y)])) * markov P 0 y (spread 0 (mids ++ [(Tq, oq)])))).
    + cbn [sum_states]. apply rsum_ext. intros y Hy.
      pose proof (joins_sum L dim gen Hgen HL Tq oq mids y Hy A') as JS. change (fun t => get_trans L dim t gen) with P in JS. rewrite <- JS. rewrite <- sum_states_scal. apply sum_states_ext. intros ys E F.
      assert (E' : length (y :: ys) = S (length mids)) by (cbn; lia). assert (F' : Forall (fun y => (y < dim)%nat) (y :: ys)) by (constructor; assumption).
      destruct (cut_parts dim T0 o0 mids Tq oq (y :: ys) (ps (y :: ys)) A E' F' (HP _ E' F')) as (p0 & ms & q & y1 & ys1 & EE & E2 & Hy1 & Hys1 & F1 & F2 & F3 & F4 & F5 & K1 & K2 & K3).
      injection EE as <- <-. unfold l. rewrite E2. cbn [tl]. rewrite removelast_last. change (p0 :: ms ++ [q]) with ((p0 :: ms) ++ [q]). rewrite last_last.
      assert (AM : askable dim mids) by (apply Forall_app in A'; apply A').
      pose proof (weighted L dim gen Hdim Hgen Hoff HL oq mids ms q y ys T0 AM F3 F5 F4 Hy F) as WS. change (fun t => get_trans L dim t gen) with P in WS. rewrite <- WS.
      cbn [cut_obs markov]. rewrite Rplus_0_l, Rminus_0_r.
      set (K := markov P T0 y (cut_obs T0 (map fst mids) ys)).
      assert (S1 : rsum dim (fun x => p x * (P T0 x y * K)) = p y * K * rsum dim (fun x => P T0 x y)).
      { rewrite <- rsum_scal_l. apply rsum_ext. intros x Hx. rewrite (PU x Hx), (PU y Hy). ring. }
      rewrite S1. assert (S2 : 0 < rsum dim (fun j => P T0 j y)).
      { apply (rsum_pos dim _ y); [|exact Hy|].
        - intros j Hj. apply Rlt_le. exact (trans_all_pos L dim gen Hdim Hgen Hoff HL T0 j y A1 Hj Hy).
        - exact (trans_all_pos L dim gen Hdim Hgen Hoff HL T0 y y A1 Hy Hy). }
      unfold head. rewrite (rsum_ext dim (fun i => p i * markov P 0 i (o0 ++ [(T0, y)])) (fun i => p y * markov P 0 i (o0 ++ [(T0, y)]))) by (intros i Hi; rewrite (PU i Hi), (PU y Hy); reflexivity).
      rewrite rsum_scal_l. fold P. field. lra.
    + rewrite (rsum_ext dim _ (fun y => rsum dim (fun i => p i * markov P 0 i (o0 ++ [(T0, y)]) * markov P 0 y (spread 0 (mids ++ [(Tq, oq)]))))) by (intros; symmetry; apply rsum_scal_r).
      rewrite rsum_swap. apply rsum_ext. intros i Hi. unfold pieces. cbn [spread]. rewrite map_shift0, Rplus_0_l. rewrite <- (Rplus_0_r T0), spread_shift, (Rplus_0_r T0).
      pose proof (splice L dim gen Hgen HL o0 0 T0 i (spread 0 (mids ++ [(Tq, oq)])) A2 Hi A3 (spread_range dim _ 0 A')) as SS. change (fun t => get_trans L dim t gen) with P in SS. rewrite <- SS. rewrite <- rsum_scal_l. apply rsum_ext. intros; ring.
Qed.
