(** Property theorems C32 to C38 and C67. *)
From Coq Require Import Reals List Bool Arith Lia Lra Psatz.
From Verif Require Import Base Rng L_rng M_hit SpecHit L_hit L_hit2 L_hit3 L_hit4 L_hit5 L_hit6 L_hit7 L_hit8 L_hit9 L_heat5.
Import ListNotations.
Local Open Scope R_scope.

(** C32: the distribution function of the minimum between its bounds *)
Theorem C32_cdf : forall t a b lbo ubo, let lb := lb_default lbo in let ub := ub_default ubo a b in
  0 < t -> elt lb (Fin ub) -> ub <= Rmin a b ->
  (forall m, ele lb m -> ele m (Fin ub) -> exists p, cdf_brownbr_min m t a b lbo ubo = Ok p /\ 0 <= p <= 1) /\
  cdf_brownbr_min lb t a b lbo ubo = Ok 0 /\ cdf_brownbr_min (Fin ub) t a b lbo ubo = Ok 1 /\
  (forall m m' p p', ele lb m -> elt m m' -> ele m' (Fin ub) ->
     cdf_brownbr_min m t a b lbo ubo = Ok p -> cdf_brownbr_min m' t a b lbo ubo = Ok p' -> p < p').
Proof. exact cdf_statement. Qed.
Print Assumptions C32_cdf.
(** it is the probability of reaching the level given that the bound is not reached *)
Theorem C32_cdf_value : forall t a b l x, 0 < t -> elt l (Fin (Rmin a b)) -> ele x (Fin (Rmin a b)) ->
  cdf_brownbr_min x t a b (Some l) None = Ok (reach_given t a b x l).
Proof. exact cdf_reach. Qed.
Print Assumptions C32_cdf_value.
Theorem C32_ppf_inverse : forall t a b lbo ubo, let lb := lb_default lbo in let ub := ub_default ubo a b in
  0 < t -> elt lb (Fin ub) -> ub <= Rmin a b -> forall p, 0 <= p <= 1 ->
  exists m, ppf_brownbr_min p t a b lbo ubo = Ok m /\ ele lb m /\ ele m (Fin ub) /\
    cdf_brownbr_min m t a b lbo ubo = Ok p /\ (0 < p -> elt lb m) /\ (p < 1 -> elt m (Fin ub)).
Proof. exact ppf_statement. Qed.
Print Assumptions C32_ppf_inverse.
Theorem C32_ppf_left_inverse : forall t a b lbo ubo, let lb := lb_default lbo in let ub := ub_default ubo a b in
  0 < t -> elt lb (Fin ub) -> ub <= Rmin a b -> forall m p, ele lb m -> ele m (Fin ub) ->
  cdf_brownbr_min m t a b lbo ubo = Ok p -> ppf_brownbr_min p t a b lbo ubo = Ok m.
Proof. exact ppf_cdf. Qed.
Print Assumptions C32_ppf_left_inverse.
Theorem C32_ppf_increasing : forall t a b lbo ubo, let lb := lb_default lbo in let ub := ub_default ubo a b in
  0 < t -> elt lb (Fin ub) -> ub <= Rmin a b -> forall p q m m', 0 <= p -> p < q -> q <= 1 ->
  ppf_brownbr_min p t a b lbo ubo = Ok m -> ppf_brownbr_min q t a b lbo ubo = Ok m' -> elt m m'.
Proof. exact ppf_monotone. Qed.
Print Assumptions C32_ppf_increasing.
(** an argument below the lower bound is not rejected and its value is negative *)
Theorem C32_outside_refuted : exists m t a b l u p, 0 < t /\ l < u /\ u <= Rmin a b /\ m < l /\
  cdf_brownbr_min (Fin m) t a b (Some (Fin l)) (Some u) = Ok p /\ p < 0.
Proof. exact cdf_outside. Qed.
Print Assumptions C32_outside_refuted.
Example C32_example : elt (lb_default (Some (Fin (-1)))) (Fin (ub_default (Some (-(1/2))) 0 1)) /\ ub_default (Some (-(1/2))) 0 1 <= Rmin 0 1.
Proof. split; simpl; [lra|]. rewrite Rmin_left; lra. Qed.

(** C33 *)
Theorem C33_brownbr_min : forall t a b lbo ubo, 0 < t -> elt (lb_default lbo) (Fin (ub_default ubo a b)) -> ub_default ubo a b <= Rmin a b ->
  total_if uniform_pos (sample_brownbr_min t a b lbo ubo) (proper_min t (lb_default lbo) (ub_default ubo a b)).
Proof. exact brownbr_min_proper. Qed.
Print Assumptions C33_brownbr_min.
(** with a draw equal to 0: the closed bound, or (nan, -inf) without a bound *)
Theorem C33_brownbr_min_any_draw : forall t a b lbo ubo, 0 < t -> elt (lb_default lbo) (Fin (ub_default ubo a b)) -> ub_default ubo a b <= Rmin a b ->
  total_if anyo (sample_brownbr_min t a b lbo ubo) (fun r => match r with
    | Some (mt, mx) => ele (lb_default lbo) (Fin mx) /\ mx < ub_default ubo a b /\ 0 < mt < t
    | None => lb_default lbo = NegInf end).
Proof. exact (brownbr_min_total anyo). Qed.
Print Assumptions C33_brownbr_min_any_draw.
(** only the budget can fail; and it always does when the upper bound is an end point,
    which the assertion on line 205 admits *)
Theorem C33_layerbr_min : forall fuel n t a b ub lbo ubo, 0 < t -> elt (lb_default lbo) (Fin (ub_default ubo a b)) -> ub_default ubo a b <= Rmin a b ->
  (match ub with Some u => Rmax a b <= u | None => True end) ->
  holds_if uniform_pos (sample_layerbr_min fuel n t a b ub lbo ubo)
    (fun r => match r with
      | Ok m => proper_min t (lb_default lbo) (ub_default ubo a b) m /\ ub <> Some (Rmax a b)
      | Raise e => e = BudgetConstraintError
      | NoFuel => True end).
Proof. exact layer_min_ok. Qed.
Print Assumptions C33_layerbr_min.
Example C33_example : elt (lb_default (Some (Fin (-1)))) (Fin (ub_default None 0 1)) /\ ub_default None 0 1 <= Rmin 0 1 /\ Rmax 0 1 <= 3 /\
  exists o, valid o /\ uniform_pos o.
Proof.
  split; simpl; [rewrite Rmin_left; lra|]. split; [lra|]. split; [rewrite Rmax_right; lra|].
  destruct generic_exists as (o & V & G & _). eauto.
Qed.

(** C34 *)
Theorem C34_brackets : forall t a b K, 0 < t -> Rabs a < K -> Rabs b < K ->
  exists p, brown_escape t a b K p /\ 0 <= p < 1 /\ Un_cv (brown_sum t a b K) p /\ brackets (brown_sum t a b K) 0 p.
Proof. exact brown_full_range. Qed.
Print Assumptions C34_brackets.
(** a wider interval is harder to leave *)
Theorem C34_monotone : forall t a b K u p q, 0 < t -> Rabs a < K -> Rabs b < K -> K <= u ->
  brown_escape t a b K p -> brown_escape t a b u q -> q <= p.
Proof. exact brown_mono. Qed.
Print Assumptions C34_monotone.
Theorem C34_decides : forall fuel t a b K s p, 0 < t -> Rabs a < K -> Rabs b < K -> 0 <= s <= 1 -> brown_escape t a b K p ->
  decides (sample_brownbr_esc fuel t a b K None (Some s)) (s < p).
Proof. exact brown_decides. Qed.
Print Assumptions C34_decides.
Theorem C34_terminates : forall t a b K s p, 0 < t -> Rabs a < K -> Rabs b < K -> 0 <= s <= 1 -> brown_escape t a b K p -> s <> p ->
  exists n0, forall fuel, (n0 <= fuel)%nat -> total (sample_brownbr_esc fuel t a b K None (Some s)) (fun r => r = true <-> s < p).
Proof. exact brown_terminates. Qed.
Print Assumptions C34_terminates.
Theorem C34_outside : forall fuel t a b K ub s, 0 < t -> 0 <= s <= 1 -> K <= Rmax (Rabs a) (Rabs b) ->
  total (sample_brownbr_esc fuel t a b K ub (Some s)) (fun r => r = true).
Proof. exact brown_outside. Qed.
Print Assumptions C34_outside.
(** without a seed the decision is that of the next uniform draw *)
Theorem C34_seedless : forall fuel t a b K ub o k,
  fst (sample_brownbr_esc fuel t a b K ub None o k) =
  fst (sample_brownbr_esc fuel t a b K ub (Some (ora_r o k (DUniform 0 1))) o (S k)).
Proof. exact brown_seedless. Qed.
Print Assumptions C34_seedless.
Example C34_example : Rabs (1/2) < 1 /\ Rabs (-(1/3)) < 1 /\ exists p, brown_escape 1 (1/2) (-(1/3)) 1 p.
Proof.
  assert (A : Rabs (1/2) < 1) by (apply Rabs_def1; lra). assert (B : Rabs (-(1/3)) < 1) by (apply Rabs_def1; lra).
  split; auto. split; auto. destruct (C34_brackets 1 (1/2) (-(1/3)) 1 ltac:(lra) A B) as (p & P & _). eauto.
Qed.

(** C35: any branch, fast forwarded or not *)
Theorem C35_limit : forall t a b K, 0 < t -> 0 <= a -> 0 < b -> a < K -> b < K ->
  exists p, bessel_escape t a b K p /\ 0 <= p < 1.
Proof. exact bessel_full_range. Qed.
Print Assumptions C35_limit.
Theorem C35_brackets : forall t a b K, 0 < t -> 0 <= a -> 0 < b -> a < K -> b < K -> forall p, bessel_escape t a b K p -> t < 3 * K ^ 2 ->
  brackets (bessel_sum t a b K) 0 p.
Proof. exact bessel_brackets_short. Qed.
Print Assumptions C35_brackets.
Theorem C35_decides : forall t a b K, 0 < t -> 0 <= a -> 0 < b -> a < K -> b < K -> forall fuel s p, 0 <= s <= 1 -> bessel_escape t a b K p ->
  decides (sample_bessel3br_esc fuel t a b K None (Some s)) (s < p).
Proof. exact bessel_decides. Qed.
Print Assumptions C35_decides.
Theorem C35_terminates : forall t a b K, 0 < t -> 0 <= a -> 0 < b -> a < K -> b < K -> forall s p, 0 <= s <= 1 -> bessel_escape t a b K p -> s <> p ->
  exists n0, forall fuel, (n0 <= fuel)%nat -> total (sample_bessel3br_esc fuel t a b K None (Some s)) (fun r => r = true <-> s < p).
Proof. exact bessel_terminates'. Qed.
Print Assumptions C35_terminates.
Example C35_example : exists p, bessel_escape 100 0 1 2 p /\ ~ 100 < 3 * 2 ^ 2.
Proof. destruct (C35_limit 100 0 1 2) as (p & P & _); try lra. exists p. split; auto. lra. Qed.

(** C36 *)
Theorem C36_brown : forall t a b K u p q, 0 < t -> Rabs a < K -> Rabs b < K -> K <= u -> brown_escape t a b K p -> brown_escape t a b u q ->
  two_sided_three t a b u < 1 -> forall fuel s, 0 <= s <= 1 ->
  decides (sample_brownbr_esc fuel t a b K (Some u) (Some s)) (s < 1 - (1 - p) / (1 - q)).
Proof. exact brown_ratio_decides'. Qed.
Print Assumptions C36_brown.
Theorem C36_brown_terminates : forall t a b K u p q, 0 < t -> Rabs a < K -> Rabs b < K -> K <= u -> brown_escape t a b K p -> brown_escape t a b u q ->
  forall s, 0 <= s <= 1 -> s <> 1 - (1 - p) / (1 - q) ->
  exists n0, forall fuel, (n0 <= fuel)%nat -> exists r, forall o k, fst (sample_brownbr_esc fuel t a b K (Some u) (Some s) o k) = Ok r.
Proof. exact brown_ratio_terminates2. Qed.
Print Assumptions C36_brown_terminates.
Theorem C36_bessel : forall t a b K u p q, 0 < t -> 0 <= a -> 0 < b -> a < K -> b < K -> K <= u -> t < 3 * K ^ 2 ->
  bessel_escape t a b K p -> bessel_escape t a b u q -> bessel_three t a b u < 1 -> forall fuel s, 0 <= s <= 1 ->
  decides (sample_bessel3br_esc fuel t a b K (Some u) (Some s)) (s < 1 - (1 - p) / (1 - q)).
Proof. exact bessel_ratio_decides'. Qed.
Print Assumptions C36_bessel.
Theorem C36_bessel_terminates : forall t a b K u p q, 0 < t -> 0 <= a -> 0 < b -> a < K -> b < K -> K <= u -> t < 3 * K ^ 2 ->
  bessel_escape t a b K p -> bessel_escape t a b u q ->
  forall s, 0 <= s <= 1 -> s <> 1 - (1 - p) / (1 - q) ->
  exists n0, forall fuel, (n0 <= fuel)%nat -> exists r, forall o k, fst (sample_bessel3br_esc fuel t a b K (Some u) (Some s) o k) = Ok r.
Proof. exact bessel_ratio_terminates. Qed.
Print Assumptions C36_bessel_terminates.
(** the target is a probability *)
Theorem C36_range : forall t a b K u p q, 0 < t -> Rabs a < K -> Rabs b < K -> K <= u ->
  brown_escape t a b K p -> brown_escape t a b u q ->
  0 <= q <= p /\ p < 1 /\ 0 <= 1 - (1 - p) / (1 - q) < 1.
Proof. exact brown_ratio_range. Qed.
Print Assumptions C36_range.
Theorem C36_inner_bound : forall fuel t a b K u s, 0 < t -> 0 <= s <= 1 -> Rmax (Rabs a) (Rabs b) < K -> u < K ->
  total (sample_brownbr_esc fuel t a b K (Some u) (Some s)) (fun r => r = false).
Proof. exact brown_inner_bound. Qed.
Print Assumptions C36_inner_bound.
(** in general the decision is wrong *)
Theorem C36_refuted : exists t K u s p q, 0 < t /\ 0 < K /\ K <= u /\ 0 <= s <= 1 /\ brown_escape t 0 0 K p /\ brown_escape t 0 0 u q /\
  0 < p < 1 /\ 0 < q < 1 /\ 1 - (1 - p) / (1 - q) < s /\
  forall fuel o k, (2 <= fuel)%nat -> fst (sample_brownbr_esc fuel t 0 0 K (Some u) (Some s) o k) = Ok true.
Proof. exact outer_wrong. Qed.
Print Assumptions C36_refuted.
Example C36_example : exists p q, brown_escape 1 0 0 2 p /\ brown_escape 1 0 0 3 q /\ p <= 1 /\ two_sided_three 1 0 0 3 < 1.
Proof.
  assert (A : forall K, 0 < K -> Rabs 0 < K) by (intros; rewrite Rabs_R0; auto).
  destruct (C34_brackets 1 0 0 2 ltac:(lra) (A 2 ltac:(lra)) (A 2 ltac:(lra))) as (p & P & _ & _ & B).
  destruct (C34_brackets 1 0 0 3 ltac:(lra) (A 3 ltac:(lra)) (A 3 ltac:(lra))) as (q & Q & _).
  exists p, q. split; auto. split; auto.
  assert (E8 : forall x, 4 <= x -> exp (- x) <= / 4).
  { intros x X. eapply Rle_trans; [apply exp_neg_le; lra|]. apply Rinv_le_contravar; lra. }
  split.
  - eapply Rle_trans; [apply (proj2 (B 1%nat ltac:(lia)) eq_refl)|]. change 1%nat with (2 * 0 + 1)%nat. rewrite bs_U by (apply A; lra). unfold bU. rewrite !up_e by lra. simpl brown_sum. simpl INR.
    assert (X : forall z, z = 0 -> exp (- (2 * (2 * (2 * 1 - 1) - z) * (2 * (2 * 1 - 1) - z) / 1)) <= / 4).
    { intros z ->. apply E8. lra. }
    pose proof (X 0 eq_refl). pose proof (X (- 0) ltac:(lra)). lra.
  - unfold two_sided_three, two_sided_term. simpl INR.
    pose proof (exp_pos (- (4 * 1 * 3 * (2 * 1 * 3 + (0 - 0)) / 1))). pose proof (exp_pos (- (4 * 1 * 3 * (2 * 1 * 3 - (0 - 0)) / 1))).
    assert (X : forall x y, x = y -> 4 < y -> exp (- x) < / 4).
    { intros x y -> Y. eapply Rle_lt_trans; [apply exp_neg_le; lra|]. apply Rinv_lt_contravar; lra. }
    pose proof (X (2 * ((2 * 1 - 1) * 3 - 0) * ((2 * 1 - 1) * 3 - 0) / 1) 18 ltac:(field) ltac:(lra)).
    pose proof (X (2 * ((2 * 1 - 1) * 3 + 0) * ((2 * 1 - 1) * 3 + 0) / 1) 18 ltac:(field) ltac:(lra)).
    pose proof (X (2 * (3 * 3 - 0) * (3 * 3 - 0) / 1) 162 ltac:(field) ltac:(lra)).
    pose proof (X (2 * (3 * 3 + 0) * (3 * 3 + 0) / 1) 162 ltac:(field) ltac:(lra)). lra.
Qed.

(** C37 *)
Theorem C37_layer_zero : forall t a b lb ub, 0 < t -> elt lb (Fin (Rmin a b)) -> elt (Fin (Rmax a b)) ub ->
  compute_edges 0 t a b lb ub = Ok (Fin (Rmin a b), Fin (Rmax a b)).
Proof. exact edge_zero. Qed.
Print Assumptions C37_layer_zero.
Theorem C37_inside : forall t a b lb ub, 0 < t -> elt lb (Fin (Rmin a b)) -> elt (Fin (Rmax a b)) ub -> forall i,
  exists le ue, compute_edges i t a b lb ub = Ok (Fin le, Fin ue) /\ elt lb (Fin le) /\ elt (Fin ue) ub /\
    le <= Rmin a b /\ Rmax a b <= ue /\ ((1 <= i)%nat -> le < Rmin a b /\ Rmax a b < ue).
Proof. exact edges_inside. Qed.
Print Assumptions C37_inside.
Theorem C37_nested : forall t a b lb ub, 0 < t -> elt lb (Fin (Rmin a b)) -> elt (Fin (Rmax a b)) ub -> forall i j le ue le' ue', (i < j)%nat ->
  compute_edges i t a b lb ub = Ok (Fin le, Fin ue) -> compute_edges j t a b lb ub = Ok (Fin le', Fin ue') -> le' < le /\ ue < ue'.
Proof. exact edges_nested. Qed.
Print Assumptions C37_nested.
Theorem C37_exhaust : forall t a b lb ub, 0 < t -> elt lb (Fin (Rmin a b)) -> elt (Fin (Rmax a b)) ub ->
  forall x y, elt lb (Fin x) -> elt (Fin y) ub -> exists N, forall i le ue, (N <= i)%nat ->
    compute_edges i t a b lb ub = Ok (Fin le, Fin ue) -> le < x /\ y < ue.
Proof. exact edges_exhaust. Qed.
Print Assumptions C37_exhaust.
(** each edge of layer i is passed with probability 1 / (i^2 + 1), given its bound is not *)
Theorem C37_quantile : forall t a b lb ub, 0 < t -> elt lb (Fin (Rmin a b)) -> elt (Fin (Rmax a b)) ub -> forall i le ue, (1 <= i)%nat ->
  compute_edges i t a b lb ub = Ok (Fin le, Fin ue) ->
  reach_given t a b (Fin le) lb = 1 / (INR i ^ 2 + 1) /\ reach_given t a b (Fin ue) ub = 1 / (INR i ^ 2 + 1).
Proof. exact edges_quantile. Qed.
Print Assumptions C37_quantile.
Example C37_example : elt (Fin (-1)) (Fin (Rmin 0 1)) /\ elt (Fin (Rmax 0 1)) PosInf.
Proof. split; simpl; auto. rewrite Rmin_left; lra. Qed.

(** C38 *)
Theorem C38_layer : forall fuel n t a b lb ub, 0 < t -> elt lb (Fin (Rmin a b)) -> elt (Fin (Rmax a b)) ub ->
  holds_if anyo (sample_layer fuel n t a b lb ub) (outcome (layer_choice t a b lb ub) (fun e => e = BudgetConstraintError)).
Proof. exact sample_layer_ok. Qed.
Print Assumptions C38_layer.
Theorem C38_anchor : forall fuel n t a b lb ub, 0 < t -> elt lb (Fin (Rmin a b)) -> elt (Fin (Rmax a b)) ub ->
  holds_if anyo (sample_anchor fuel n t a b lb ub) (outcome (fun r => exists l le ue le' ue' low p u,
      r = (low, (Fin le, Fin le'), (Fin ue', Fin ue)) /\ layer_choice t a b lb ub l /\
      compute_edges l t a b lb ub = Ok (Fin le, Fin ue) /\ compute_edges (l - 1) t a b lb ub = Ok (Fin le', Fin ue') /\
      elt lb (Fin le) /\ le < le' /\ le' <= Rmin a b /\ Rmax a b <= ue' /\ ue' < ue /\ elt (Fin ue) ub /\
      0 < p < 1 /\ 0 <= u < 1 /\ low = Rltb u p /\
      p = reach_given t a b (Fin le') (Fin le) / (reach_given t a b (Fin le') (Fin le) + reach_given t a b (Fin ue') (Fin ue)))
    (fun e => e = BudgetConstraintError)).
Proof. exact sample_anchor_ok. Qed.
Print Assumptions C38_anchor.
(** edge refinement inside a pair of sectors *)
Theorem C38_edges : forall fuel mp n t a b li ui ls us, 0 < t -> (0 < n)%nat -> li < ui -> ui <= Rmin a b -> Rmax a b < us ->
  holds_if uniform_pos (sample_edges fuel mp n t a b (li, ui) (ls, us)) (outcome (fun r => exists mt mx fl, r = Some (mt, mx, ls, us, fl) /\
     0 < mt < t /\ li < mx < ui /\ (fl = None <-> Rmin a b = ui \/ Rmin a b = ls) /\
     (forall e1 e2, fl = Some (e1, e2) -> (ls <= a -> e1 = true) /\ (ls <= b -> e2 = true) /\ (us < ls -> e1 = false /\ e2 = false)))
    (fun e => e = BudgetConstraintError)).
Proof. exact sample_edges_ok. Qed.
Print Assumptions C38_edges.
Example C38_example : elt NegInf (Fin (Rmin 0 1)) /\ elt (Fin (Rmax 0 1)) (Fin 2) /\ (-2 < -1 /\ -1 <= Rmin 0 1 /\ Rmax 0 1 < 3).
Proof. rewrite Rmin_left, Rmax_right by lra. simpl. lra. Qed.

(** C67 *)
Theorem C67_seeded_min : forall u0 u1 u2 r2 t a b, 0 < u0 < 1 -> 0 < u1 < 1 -> 0 < u2 < 1 -> 0 < r2 -> 0 < t ->
  exists mt mx, gen_seeded_brownbr_min u0 u1 u2 r2 t a b = Ok (mt, mx) /\ mx < Rmin a b /\
    exp (- (2 * (a - mx) * (b - mx) / t)) = u0 /\ 0 < mt < t /\
    let A := a - mx in let B := b - mx in let mu := B / A in
    exists w, 0 < w /\ (if Rltb u2 (1 / (1 + mu)) then mt = t / (1 + w) /\ (B ^ 2 / t) * (w - mu) ^ 2 = mu ^ 2 * r2 * w
      else mt = t / (1 + 1 / w) /\ (A ^ 2 / t) * (w - 1 / mu) ^ 2 = (1 / mu) ^ 2 * r2 * w).
Proof. exact seeded_min. Qed.
Print Assumptions C67_seeded_min.
Theorem C67_wald : forall u1 r2 mu lam, 0 < mu -> 0 < lam -> 0 < r2 ->
  exists c d, 0 < c < mu /\ c * d = mu ^ 2 /\ (forall x, lam * (x - mu) ^ 2 = mu ^ 2 * r2 * x <-> x = c \/ x = d) /\
   gen_seeded_wald u1 r2 mu lam = if Rltb u1 (mu / (mu + c)) then c else d.
Proof. exact wald_choice. Qed.
Print Assumptions C67_wald.
Example C67_example : 0 < 1/2 < 1 /\ 0 < 1 /\ exists mt mx, gen_seeded_brownbr_min (1/2) (1/2) (1/2) 1 1 0 1 = Ok (mt, mx).
Proof. split; [lra|]. split; [lra|]. destruct (C67_seeded_min (1/2) (1/2) (1/2) 1 1 0 1) as (mt & mx & E & _); try lra. eauto. Qed.
