(** Property theorems C96: the law of the sampled minimum of a Brownian bridge and of its time. *)
From Coquelicot Require Import Hierarchy Continuity RInt.
From Coq Require Import Reals List Bool Lra.
From Verif Require Import Base Rng M_hit SpecHit SpecLaw SpecArg L_hit L_arg3.
Local Open Scope R_scope.

(** the distribution function of the sampled minimum is cdf_brownbr_min *)
Theorem C96_min_law : forall t a b lbo ubo, 0 < t -> elt (lb_default lbo) (Fin (ub_default ubo a b)) -> ub_default ubo a b <= Rmin a b ->
  forall x q, ele (lb_default lbo) (Fin x) -> x <= ub_default ubo a b -> cdf_brownbr_min (Fin x) t a b lbo ubo = Ok q ->
  chance (sample_brownbr_min t a b lbo ubo) (of_min (fun _ m => Rleb m x) true) q.
Proof. exact min_law. Qed.
Print Assumptions C96_min_law.
(** without bounds: the reflection principle *)
Theorem C96_reflection : forall t a b x, 0 < t -> x <= Rmin a b ->
  chance (sample_brownbr_min t a b None None) (of_min (fun _ m => Rleb m x) true) (exp (-2 * (a - x) * (b - x) / t)).
Proof. exact reflection_law. Qed.
Print Assumptions C96_reflection.
(** given the minimum m, the sampled time has the law with weight argmin_weight t (a - m) (b - m):
    if g m is the mean of F under that law for each m, then F and g have the same mean *)
Theorem C96_time_law : forall t a b lbo ubo, 0 < t -> elt (lb_default lbo) (Fin (ub_default ubo a b)) -> ub_default ubo a b <= Rmin a b ->
  forall (F : R -> R -> R) (g : R -> R) c V,
  (forall m u, m < ub_default ubo a b -> 0 < u < t -> continuous (fun u => F u m) u) ->
  (forall m, m < ub_default ubo a b -> exists C, forall u, 0 < u < t -> Rabs (F u m) <= C) ->
  (forall m, ele (lb_default lbo) (Fin m) -> m < ub_default ubo a b ->
     under (argmin_weight t (a - m) (b - m)) (at_right 0) (at_left t) (fun u => F u m) (g m)) ->
  average (sample_brownbr_min t a b lbo ubo) (of_min (fun _ => g) c) V ->
  average (sample_brownbr_min t a b lbo ubo) (of_min F c) V.
Proof. exact time_law. Qed.
Print Assumptions C96_time_law.
(** between equal end points the minimum is attained at half the time on average *)
Theorem C96_symmetric : forall t a lbo ubo, 0 < t -> elt (lb_default lbo) (Fin (ub_default ubo a a)) -> ub_default ubo a a <= a ->
  average (sample_brownbr_min t a a lbo ubo) (of_min (fun u _ => u) (t / 2)) (t / 2).
Proof. exact symmetric_time. Qed.
Print Assumptions C96_symmetric.
Example C96_example : elt (lb_default (Some (Fin (-1)))) (Fin (ub_default None 1 2)) /\ ub_default None 1 2 <= Rmin 1 2 /\
  (exists q, cdf_brownbr_min (Fin 0) 1 1 2 (Some (Fin (-1))) None = Ok q) /\
  under (argmin_weight 3 1 1) (at_right 0) (at_left 3) (fun u => u) (3 / 2).
Proof.
  assert (M : Rmin 1 2 = 1) by (apply Rmin_left; lra). unfold ub_default, lb_default, elt. rewrite M. split; [lra|]. split; [lra|]. split.
  - destruct (cdf_statement 1 1 2 (Some (Fin (-1))) None) as (RG & _); cbn; rewrite ?M; try lra.
    destruct (RG (Fin 0)) as (q & Q & _); cbn; rewrite ?M; try lra. exists q. exact Q.
  - apply symmetric_mean; lra.
Qed.
