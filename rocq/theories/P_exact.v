(** Property theorems C106: the bridge update of the Ito chain is reversible, and how far its
    target is from Girsanov's density, on paths that are already known. *)
From Coquelicot Require Import Hierarchy RInt Continuity.
From Coq Require Import Reals List Bool Arith Lra.
From Verif Require Import Base Np Rng M_hit M_path M_skel M_seed SpecSkel SpecSeed M_bf M_models M_sw M_mcem M_ito SpecLaw SpecCoin SpecEst SpecExact L_exact L_exact2 L_exact3 L_exact4 L_exact5.
Import ListNotations.
Local Open Scope R_scope.

(** update_sde_bridge is the instance with interpolate_skeleton. *)
Theorem C106_instance : forall fuel mp maxp reduce disc bounds batch pr maxf i thi zn zp t vt o k,
  update_sde_bridge fuel mp maxp reduce disc bounds batch pr maxf i thi zn zp t vt o k = bridge_with (interpolate_skeleton fuel mp maxp) reduce disc bounds batch pr maxf i thi zn zp t vt o k.
Proof. exact bridge_instance. Qed.
Print Assumptions C106_instance.
(** A time spent below a level: the mean of the level's share is what is left of the box over the integral. *)
Theorem C106_levels : forall (f G : R -> R) (T b v : R), 0 < T -> 0 < b -> (forall u, 0 <= u <= T -> 0 <= f u <= b) -> is_RInt f 0 T v ->
  (forall h, continuous G h) -> (forall h, 0 <= h -> is_RInt (fun u => ind (negb (Rltb h (f u)))) 0 T (T * G h)) -> T * RInt G 0 b = T * b - v.
Proof. exact levels. Qed.
Print Assumptions C106_levels.
(** The coin of a seed always answers, hands back the seed and - T le, and its probability differs
    from exp(- integral of the discrepancy above le) by no more than the probability that the
    Poisson number of points does not fit into one batch. *)
Theorem C106_coin : forall path norm denorm disc bounds s T scale x0 x1 v le ue batch, operators norm denorm T scale x0 x1 -> exact_on path disc bounds s T scale x0 x1 v le ue -> (0 < batch)%nat ->
  returns (seed_coin_with (pinned path) norm denorm s disc bounds batch) (fun r => snd (fst r) = - T * le /\ snd r = s) /\
  total (seed_coin_with (pinned path) norm denorm s disc bounds batch) (fun _ => True) /\
  exists p, chance (seed_coin_with (pinned path) norm denorm s disc bounds batch) (fun r => fst (fst r)) p /\ Rabs (p - exp (- (v - T * le))) <= poisson_tail ((ue - le) * T) batch.
Proof. exact seed_coin_law. Qed.
Print Assumptions C106_coin.
(** The update: from either of the two seeds it returns one of the two.  Its probabilities are in
    detailed balance with weights dn and dp, which are Girsanov's densities exp(- integral of the
    discrepancy) up to the error of the coin; without a portkey the acceptance is Barker's. *)
Theorem C106_bridge : forall path reduce disc bounds batch pr maxf i thi zn zp t vt a b v0 v1 vn len uen vp lep uep,
  nth_error t i = Some a -> nth_error t (S i) = Some b -> nth_error vt i = Some v0 -> nth_error vt (S i) = Some v1 ->
  let d := b - a in
  exact_on path (disc thi) (bounds thi) zn d (sqrt d) (reduce thi v0) (reduce thi v1) vn len uen ->
  exact_on path (disc thi) (bounds thi) zp d (sqrt d) (reduce thi v0) (reduce thi v1) vp lep uep -> (0 < batch)%nat -> 0 <= pr <= 1 ->
  exists dn dp acc stay acc' stay',
    Rabs (dn - exp (- vn)) <= exp (- d * len) * poisson_tail ((uen - len) * d) batch /\
    Rabs (dp - exp (- vp)) <= exp (- d * lep) * poisson_tail ((uep - lep) * d) batch /\
    (forall f, average (bridge_with (pinned path) reduce disc bounds batch pr maxf i thi zn zp t vt) f (acc * f zp + stay * f zn)) /\
    (forall f, average (bridge_with (pinned path) reduce disc bounds batch pr maxf i thi zp zn t vt) f (acc' * f zn + stay' * f zp)) /\
    dn * acc = dp * acc' /\ acc + stay = acc' + stay' /\ (pr = 0 -> acc * (dn + dp) = dp * (acc + stay)).
Proof. exact bridge_law. Qed.
Print Assumptions C106_bridge.
(** The error vanishes as the batches grow. *)
Theorem C106_error : forall lam, 0 <= lam -> forall e, 0 < e -> exists n0, forall n, (n0 <= n)%nat -> 0 <= poisson_tail lam n < e.
Proof. exact tail_limit. Qed.
Print Assumptions C106_error.
(** Two seeds over one segment, with different paths and different integrals. *)
Example C106_example : exact_on two_paths ramp ramp_bounds seed_line 1 (sqrt 1) 0 1 (1/2) 0 2 /\ exact_on two_paths ramp ramp_bounds seed_sag 1 (sqrt 1) 0 1 (1/3) 0 2 /\
  (forall lo hi x, lo <= x <= hi -> ramp lo <= ramp x <= ramp hi).
Proof. exact (conj line_exact (conj sag_exact ramp_bounds_ok)). Qed.
