(** Property theorems C94: the laws of the escape decisions. *)
From Coq Require Import Reals List Bool Arith Lia Lra.
From Verif Require Import Base Rng M_hit M_path SpecHit SpecLaw SpecEsc L_heat5 L_esc2 L_esc3.
Import ListNotations.
Local Open Scope R_scope.

(** with its own draw, a Brownian bridge is said to leave (-K, K) with the probability that it does *)
Theorem C94_brown : forall t a b K p, 0 < t -> Rabs a < K -> Rabs b < K -> brown_escape t a b K p ->
  settled (fun fuel => sample_brownbr_esc fuel t a b K None None) p.
Proof. exact brown_settled. Qed.
Print Assumptions C94_brown.
Theorem C94_brown_outer : forall t a b K u p q, 0 < t -> Rabs a < K -> Rabs b < K -> K <= u -> brown_escape t a b K p -> brown_escape t a b u q -> two_sided_three t a b u < 1 ->
  settled (fun fuel => sample_brownbr_esc fuel t a b K (Some u) None) (1 - (1 - p) / (1 - q)).
Proof. exact brown_outer_settled. Qed.
Print Assumptions C94_brown_outer.
Theorem C94_bessel : forall s K p, segment_ok s -> reaches s K p -> settled (fun fuel => let '(dt, x0, x1) := s in sample_bessel3br_esc fuel dt x0 x1 K None None) p.
Proof. exact reaches_settled. Qed.
Print Assumptions C94_bessel.
Theorem C94_bessel_outer : forall t a b K u p q, 0 < t -> 0 <= a -> 0 < b -> a < K -> b < K -> K <= u -> t < 3 * K ^ 2 -> bessel_escape t a b K p -> bessel_escape t a b u q -> bessel_three t a b u < 1 ->
  settled (fun fuel => sample_bessel3br_esc fuel t a b K (Some u) None) (1 - (1 - p) / (1 - q)).
Proof. exact bessel_outer_settled. Qed.
Print Assumptions C94_bessel_outer.
(** which is a probability *)
Theorem C94_bessel_range : forall t a b K u p q, 0 < t -> 0 <= a -> 0 < b -> a < K -> b < K -> K <= u -> bessel_escape t a b K p -> bessel_escape t a b u q ->
  0 <= q <= p /\ p < 1 /\ 0 <= 1 - (1 - p) / (1 - q) < 1.
Proof. exact bessel_ratio_range. Qed.
Print Assumptions C94_bessel_range.

(** propose_layerbr_edge makes attempts: values first, then one decision per segment *)
Theorem C94_edge_loop : forall fuel n t fin_t fin_x ub lb o k,
  layerbr_edge_loop fuel (S n) t fin_t fin_x ub lb o k =
  (do xt <- (match t with [] => ret [] | _ => sample_besselbr t fin_t fin_x 3 end);
   do r <- edge_attempt fuel (segments (0 :: t ++ [fin_t]) (0 :: xt ++ [fin_x])) ub lb;
   match r with Some h => ret (xt, h) | None => layerbr_edge_loop fuel n t fin_t fin_x ub lb end) o k.
Proof. exact edge_loop_attempt. Qed.
Print Assumptions C94_edge_loop.
(** given the values, an attempt is accepted with the flags h with the probability that no
    segment reaches the outer level and exactly those flagged reach the inner one *)
Theorem C94_edge_law : forall lb ub segs ps qs h, Forall segment_ok segs -> Forall (series_ok lb ub) segs -> match ub with Some u => lb <= u | None => True end ->
  Forall2 (fun s p => reaches s lb p) segs ps -> Forall2 (fun s q => reaches_opt s ub q) segs qs -> length h = length segs ->
  exists c, (forall fuel, chance (edge_attempt fuel segs ub (Some lb)) (accepted h) (c fuel)) /\ Un_cv c (prod3 (fun (b : bool) p q => if b then p - q else 1 - p) h ps qs).
Proof. exact edge_law. Qed.
Print Assumptions C94_edge_law.
Theorem C94_edge_accepted : forall ub segs qs, Forall segment_ok segs -> Forall2 (fun s q => reaches s ub q) segs qs ->
  exists c, (forall fuel, chance (edge_attempt fuel segs (Some ub) None) is_accepted (c fuel)) /\ Un_cv c (prod3 (fun (_ : bool) q _ => 1 - q) (map (fun _ => false) qs) qs qs).
Proof. exact edge_pass_law. Qed.
Print Assumptions C94_edge_accepted.
Example C94_example : exists ps qs, let segs := [(1, 0, 1); (1, 2, 1)] in
  Forall segment_ok segs /\ Forall (series_ok (3/2) (Some 10)) segs /\ Forall2 (fun s p => reaches s (3/2) p) segs ps /\ Forall2 (fun s q => reaches_opt s (Some 10) q) segs qs.
Proof.
  destruct (bessel_full_range 1 0 1 (3/2)) as (p & P & _); try lra. destruct (bessel_full_range 1 0 1 10) as (q & Q & _); try lra.
  destruct (bessel_full_range 1 2 1 10) as (q' & Q' & _); try lra. exists [p; 1], [q; q'].
  assert (M1 : Rmax 0 1 = 1) by (apply Rmax_right; lra). assert (M2 : Rmax 2 1 = 2) by (apply Rmax_left; lra).
  split; [repeat apply Forall_cons; try apply Forall_nil; unfold segment_ok; cbn; lra|].
  split.
  { apply Forall_cons; [|apply Forall_cons; [|apply Forall_nil]].
    - intros _. cbn [fst snd]. split; [lra|]. unfold bessel_three. rewrite (proj2 (Reqb_true 0 0)) by reflexivity. unfold bessel_term. cbn [INR].
      assert (E : forall x, 0 < x -> 0 < exp (- x) <= / (1 + x)).
      { intros x X. split; [apply exp_pos|]. rewrite exp_Ropp. apply Rinv_le_contravar; [lra|]. left. apply exp_ineq1. lra. }
      pose proof (E (2 * 1 * 10 * (1 * 10 - 1) / 1) ltac:(lra)). pose proof (E (2 * 1 * 10 * (1 * 10 + 1) / 1) ltac:(lra)). pose proof (E (4 * 10 * (2 * 10 - 1) / 1) ltac:(lra)).
      replace (/ (1 + 2 * 1 * 10 * (1 * 10 - 1) / 1)) with (1/181) in * by lra. replace (/ (1 + 4 * 10 * (2 * 10 - 1) / 1)) with (1/761) in * by lra. lra.
    - cbn [fst snd]. unfold series_ok. cbn [fst snd]. rewrite M2. lra. }
  split.
  - constructor; [right; cbn [fst snd]; rewrite M1; split; [lra|exact P]|constructor; [left; cbn [fst snd]; rewrite M2; split; [lra|reflexivity]|constructor]].
  - constructor; [right; cbn [fst snd]; rewrite M1; split; [lra|exact Q]|constructor; [right; cbn [fst snd]; rewrite M2; split; [lra|exact Q']|constructor]].
Qed.
