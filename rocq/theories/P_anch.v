(** Property theorems C103: the anchor sector of a layer and the attempts of the edge samplers. *)
From Coq Require Import Reals List Bool Arith Lra Lia.
From Verif Require Import Base Rng M_hit SpecHit SpecLaw SpecEsc SpecLay SpecAnch L_anc L_anc2 L_anc3 L_anc4.
Local Open Scope R_scope.

(** for all bounds sample_anchor tosses a fair coin: the two probabilities it compares are equal *)
Theorem C103_fair : forall t a b lb ub, 0 < t -> elt lb (Fin (Rmin a b)) -> elt (Fin (Rmax a b)) ub ->
  forall fuel n o k, valid o -> sample_anchor fuel n t a b lb ub o k =
    (do l <- sample_layer fuel n t a b lb ub; do i <- lift (compute_edges l t a b lb ub); do e <- lift (compute_edges (l - 1) t a b lb ub);
     do u <- draw_r (DUniform 0 1); ret (Rltb u (1 / 2), (fst i, fst e), (snd e, snd i))) o k.
Proof. exact anchor_run. Qed.
Print Assumptions C103_fair.
(** a fair coin gives the law of a path of the layer if the bounds are mirrored, or infinite *)
Theorem C103_mirrored : forall t a b lb ub i le ue le' ue' s s' lo hi, 0 < t -> elt lb (Fin (Rmin a b)) -> elt (Fin (Rmax a b)) ub -> mirrored a b lb ub ->
  compute_edges i t a b lb ub = Ok (Fin le, Fin ue) -> compute_edges (i - 1) t a b lb ub = Ok (Fin le', Fin ue') ->
  stays t a b le ue s -> stays t a b le' ue' s' -> stays t a b le' ue lo -> stays t a b le ue' hi -> anchor_exact (1 / 2) s s' lo hi.
Proof. exact mirrored_exact. Qed.
Print Assumptions C103_mirrored.
(** and in the first layer *)
Theorem C103_first : forall t a b lb ub le ue le' ue' s s' lo hi, 0 < t -> elt lb (Fin (Rmin a b)) -> elt (Fin (Rmax a b)) ub ->
  compute_edges 1 t a b lb ub = Ok (Fin le, Fin ue) -> compute_edges 0 t a b lb ub = Ok (Fin le', Fin ue') ->
  stays t a b le ue s -> stays t a b le' ue' s' -> stays t a b le' ue lo -> stays t a b le ue' hi -> anchor_exact (1 / 2) s s' lo hi.
Proof. exact first_exact. Qed.
Print Assumptions C103_first.
(** but not in the second layer of a bridge with a lower bound only *)
Theorem C103_refuted : exists t a b lb ub le ue le' ue' s s' lo hi, 0 < t /\ elt lb (Fin (Rmin a b)) /\ elt (Fin (Rmax a b)) ub /\
  compute_edges 2 t a b lb ub = Ok (Fin le, Fin ue) /\ compute_edges 1 t a b lb ub = Ok (Fin le', Fin ue') /\
  stays t a b le ue s /\ stays t a b le' ue' s' /\ stays t a b le' ue lo /\ stays t a b le ue' hi /\ ~ anchor_exact (1 / 2) s s' lo hi.
Proof. exact half_refuted. Qed.
Print Assumptions C103_refuted.
(** sample_layerbr_min repeats attempts *)
Theorem C103_min_loop : forall fuel n t a b ub lbm ubm o k, layerbr_min_loop fuel (S n) t a b (Some ub) lbm ubm o k =
  (do m <- sample_brownbr_min t a b lbm ubm;
   match m with
   | None => raise AssertionError
   | Some (min_t, min_x) =>
       do ok <- min_attempt fuel t a b ub min_t min_x; if ok then ret (Some (min_t, min_x)) else layerbr_min_loop fuel n t a b (Some ub) lbm ubm
   end) o k.
Proof. exact min_loop_run. Qed.
Print Assumptions C103_min_loop.
(** which keep a minimum with the probability that neither side of it reaches the upper bound *)
Theorem C103_min : forall t a b ub u m q1 q2, 0 < u < t -> m < Rmin a b -> reaches (u, 0, a - m) (ub - m) q1 -> reaches (t - u, 0, b - m) (ub - m) q2 ->
  settled (fun fuel => min_attempt fuel t a b ub u m) ((1 - q1) * (1 - q2)).
Proof. exact min_settled. Qed.
Print Assumptions C103_min.
(** sample_edges repeats attempts *)
Theorem C103_edges_loop : forall fuel mp n t a b li ui ls us o k, edges_loop fuel mp (S n) t a b li ui ls us o k =
  (do m <- sample_layerbr_min fuel mp t a b (Some us) (Some (Fin li)) (Some ui);
   match m with
   | None => ret None
   | Some (min_t, min_x) =>
       if orb (Reqb (Rmin a b) ui) (Reqb (Rmin a b) ls) then ret (Some (min_t, min_x, ls, us, None))
       else do r <- edges_attempt fuel t a b ls us min_t min_x;
            match r with Some f => ret (Some (min_t, min_x, ls, us, Some f)) | None => edges_loop fuel mp n t a b li ui ls us end
   end) o k.
Proof. exact edges_loop_run. Qed.
Print Assumptions C103_edges_loop.
(** which keep a minimum with the flags of the two segments, drawn given that the outer bound is not
    reached, and with probability one half if a flag is set *)
Theorem C103_edges : forall t a b lb ub u m p1 p2 q1 q2, 0 < u < t -> m < Rmin a b -> Rmax a b < ub -> lb <= ub ->
  reaches (u, 0, a - m) (lb - m) p1 -> reaches (t - u, 0, b - m) (lb - m) p2 -> reaches (u, 0, a - m) (ub - m) q1 -> reaches (t - u, 0, b - m) (ub - m) q2 ->
  series_ok (lb - m) (Some (ub - m)) (u, 0, a - m) -> series_ok (lb - m) (Some (ub - m)) (t - u, 0, b - m) ->
  forall f, limit_chance (fun fuel => edges_attempt fuel t a b lb ub u m) (kept f) (keep_rate f * (flag_chance (fst f) p1 q1 * flag_chance (snd f) p2 q2)).
Proof. exact flags_kept. Qed.
Print Assumptions C103_edges.
Theorem C103_edges_kept : forall t a b lb ub u m p1 p2 q1 q2, 0 < u < t -> m < Rmin a b -> Rmax a b < ub -> lb <= ub ->
  reaches (u, 0, a - m) (lb - m) p1 -> reaches (t - u, 0, b - m) (lb - m) p2 -> reaches (u, 0, a - m) (ub - m) q1 -> reaches (t - u, 0, b - m) (ub - m) q2 ->
  series_ok (lb - m) (Some (ub - m)) (u, 0, a - m) -> series_ok (lb - m) (Some (ub - m)) (t - u, 0, b - m) ->
  limit_chance (fun fuel => edges_attempt fuel t a b lb ub u m) (fun r => match r with Some _ => true | None => false end)
    (1 - (1 - flag_chance false p1 q1 * flag_chance false p2 q2) / 2).
Proof. exact attempt_kept. Qed.
Print Assumptions C103_edges_kept.
(** every interval has a probability of staying inside, bounds can be mirrored, and the hypotheses of
    the last two theorems hold for t = 2, a = b = 0, a minimum of -1 at time 1 and the bounds 1/2 and 9 *)
Example C103_example : (forall l u, exists s, stays 1 0 0 l u s) /\ mirrored 0 0 (Fin (-1)) (Fin 1) /\ mirrored 0 0 NegInf PosInf.
Proof. split; [intros l u; exact (stays_ex 1 0 0 l u Rlt_0_1)|]. split; [cbn; ring|exact Logic.I]. Qed.
Example C103_attempt : exists p q, 0 < 1 < 2 /\ -1 < Rmin 0 0 /\ Rmax 0 0 < 9 /\ 1 / 2 <= 9 /\
  reaches (1, 0, 0 - -1) (1 / 2 - -1) p /\ reaches (1, 0, 0 - -1) (9 - -1) q /\ p < 1 /\ q < 1 /\ series_ok (1 / 2 - -1) (Some (9 - -1)) (1, 0, 0 - -1).
Proof. exact anchor_inhabited. Qed.
