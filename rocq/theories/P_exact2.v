(** Property theorems C107: the hidden update and the parameter updates are reversible, and how
    far their targets are from the posterior, on paths that are already known. *)
From Coquelicot Require Import Hierarchy RInt.
From Coq Require Import Reals List Bool Arith Lra.
From Verif Require Import Base Np Rng M_hit M_path M_skel M_seed SpecSkel SpecSeed M_bf M_models M_sw M_mcem M_ito SpecLaw SpecEst SpecExact SpecExact2 Mat L_exact5 L_exact6 L_exact8 L_exact9 L_exact10 L_exact11.
Import ListNotations.
Local Open Scope R_scope.

(** The sections of the chains are the instances with interpolate_skeleton. *)
Theorem C107_instances : forall fuel mp maxp,
  flip_dual_coin fuel mp maxp = dual_coin_with (interpolate_skeleton fuel mp maxp) /\
  update_hidden_section fuel mp maxp = hidden_section_with (interpolate_skeleton fuel mp maxp) /\
  update_params_section fuel mp maxp = params_section_with (interpolate_skeleton fuel mp maxp) /\
  forall reduce disc grad log_prior loglik batch pre pr maxf propose thi z t vt, thi <> [] ->
    ito_params fuel mp maxp reduce disc grad log_prior loglik batch pre pr maxf propose thi z t vt =
    (do sector <- draw_n (DPick (length thi)); ito_sector_with (interpolate_skeleton fuel mp maxp) reduce disc grad log_prior loglik batch pre pr maxf propose thi z t vt sector).
Proof. exact (fun fuel mp maxp => conj (dual_instance fuel mp maxp) (conj (hidden_instance fuel mp maxp) (conj (params_instance fuel mp maxp) (ito_instance fuel mp maxp)))). Qed.
Print Assumptions C107_instances.
(** The dual coin always answers, hands back the seed, and its probability differs from exp(-
    integral of the positive part of the difference) by no more than the probability that the
    Poisson number of points does not fit into one batch. *)
Theorem C107_dual_coin : forall path norm denorm norm' denorm' T c x0 x1 c' y0 y1, operators norm denorm T c x0 x1 -> operators norm' denorm' T c' y0 y1 -> 0 < T -> forall (f g : R -> R) (up : bool) s C v batch,
  regular (fun u => Rmax 0 (if up then g (segment_path path s T c' y0 y1 u) - f (segment_path path s T c x0 x1 u) else f (segment_path path s T c x0 x1 u) - g (segment_path path s T c' y0 y1 u))) T C v -> (0 < batch)%nat ->
  total (dual_coin_with (pinned path) s C norm denorm f norm' denorm' g up batch) (fun r => snd r = s) /\
  exists p, chance (dual_coin_with (pinned path) s C norm denorm f norm' denorm' g up batch) fst p /\ Rabs (p - exp (- v)) <= poisson_tail (C * T) batch.
Proof. exact dual_coin_law. Qed.
Print Assumptions C107_dual_coin.
(** The hidden section: from either of two hidden states it returns one of the two.  Its
    probabilities are in detailed balance with weights dn and dp, which are the likelihood times
    Girsanov's density over all pieces, up to the error of the coins; without a pre-coin and a
    portkey the acceptance is Barker's. *)
Theorem C107_hidden : forall path vol disc bounds loglik batch pre pr maxf zn hn zp hp nn np vn len uen vp lep uep,
  known_hidden path vol disc bounds zn hn nn vn len uen -> known_hidden path vol disc bounds zp hp np vp lep uep -> (0 < batch)%nat -> 0 <= pr <= 1 ->
  let L h := fst (loglik h None) + snd (loglik h None) : R in
  exists dn dp acc stay acc' stay',
    Rabs (dn - exp (L hn - rsum nn vn)) <= exp (L hn - rsum nn (fun j => span (a_t hn) j * len j)) * rsum nn (overflow (fun j => (uen j - len j) * span (a_t hn) j) batch) /\
    Rabs (dp - exp (L hp - rsum np vp)) <= exp (L hp - rsum np (fun j => span (a_t hp) j * lep j)) * rsum np (overflow (fun j => (uep j - lep j) * span (a_t hp) j) batch) /\
    (forall f, average (hidden_section_with (pinned path) vol disc bounds loglik batch pre pr maxf zn hn zp hp) f (acc * f (true, zp, hp) + stay * f (false, zn, hn))) /\
    (forall f, average (hidden_section_with (pinned path) vol disc bounds loglik batch pre pr maxf zp hp zn hn) f (acc' * f (true, zn, hn) + stay' * f (false, zp, hp))) /\
    dn * acc = dp * acc' /\ (pre = false -> acc + stay = acc' + stay') /\ (pre = false -> pr = 0 -> acc * (dn + dp) = dp * (acc + stay)).
Proof. exact hidden_law. Qed.
Print Assumptions C107_hidden.
(** The parameter section of regime i of the switching chain, from thi with the proposal q and back:
    the weights are likelihood, prior, proposal density and Girsanov's density over the pieces of the regime. *)
Theorem C107_params : forall path vol disc grad log_prior loglik batch pre pr maxf thi q0 q lf lb z h i n C vf vg a b,
  (forall x y T v0 v1 lo hi, grad x y T v0 v1 lo hi = grad y x T v0 v1 lo hi) -> nth_error thi i = Some q0 ->
  let thi' := list_set thi i q in
  known_params path vol disc grad thi thi' z h i n C vf vg a b -> (0 < batch)%nat -> 0 <= pr <= 1 ->
  let W (x : list (list R)) (l : R) := fst (loglik x h (Some i)) + log_prior x + l in
  let err := rsum n (within h i (overflow (fun j => C j * span (a_t h) j) batch)) in
  exists dn dp acc stay acc' stay',
    Rabs (dn - exp (W thi lf - rsum n (within h i vf))) <= exp (W thi lf - rsum n (within h i (fun j => vf j - a j))) * err /\
    Rabs (dp - exp (W thi' lb - rsum n (within h i vg))) <= exp (W thi' lb - rsum n (within h i (fun j => vg j - b j))) * err /\
    (forall f, average (params_section_with (pinned path) vol disc grad log_prior loglik batch pre pr maxf (ret (q, lf, lb)) thi z h i) f (acc * f (true, thi', z) + stay * f (false, thi, z))) /\
    (forall f, average (params_section_with (pinned path) vol disc grad log_prior loglik batch pre pr maxf (ret (q0, lb, lf)) thi' z h i) f (acc' * f (true, thi, z) + stay' * f (false, thi', z))) /\
    dn * acc = dp * acc' /\ (pre = false -> acc + stay = acc' + stay') /\ (pre = false -> pr = 0 -> acc * (dn + dp) = dp * (acc + stay)).
Proof. exact params_law. Qed.
Print Assumptions C107_params.
(** The same for a sector of the Ito chain.  With the pre-coin the weights do not contain the likelihood. *)
Theorem C107_ito : forall path reduce disc grad log_prior loglik batch pre pr maxf thi q0 q lf lb z t vt i n C vf vg a b,
  (forall x y T v0 v1 lo hi, grad x y T v0 v1 lo hi = grad y x T v0 v1 lo hi) -> nth_error thi i = Some q0 ->
  let thi' := list_set thi i q in
  known_ito path reduce disc grad thi thi' z t vt n C vf vg a b -> (0 < batch)%nat -> 0 <= pr <= 1 ->
  let W (x : list R) (l : R) := (if (pre : bool) then 0 else loglik x t vt) + log_prior x + l in
  let err := rsum n (overflow (fun j => C j * span t j) batch) in
  exists dn dp acc stay acc' stay',
    Rabs (dn - exp (W thi lf - rsum n vf)) <= exp (W thi lf - rsum n (fun j => vf j - a j)) * err /\
    Rabs (dp - exp (W thi' lb - rsum n vg)) <= exp (W thi' lb - rsum n (fun j => vg j - b j)) * err /\
    (forall f, average (ito_sector_with (pinned path) reduce disc grad log_prior loglik batch pre pr maxf (fun _ => ret (q, lf, lb)) thi z t vt i) f (acc * f (i, true, thi', z) + stay * f (i, false, thi, z))) /\
    (forall f, average (ito_sector_with (pinned path) reduce disc grad log_prior loglik batch pre pr maxf (fun _ => ret (q0, lb, lf)) thi' z t vt i) f (acc' * f (i, true, thi, z) + stay' * f (i, false, thi', z))) /\
    dn * acc = dp * acc' /\ (pre = false -> acc + stay = acc' + stay') /\ (pre = false -> pr = 0 -> acc * (dn + dp) = dp * (acc + stay)).
Proof. exact ito_law. Qed.
Print Assumptions C107_ito.
(** The bounds of the gradient are symmetric in the two parameters, for all models of the package. *)
Theorem C107_gradients : forall x y T v0 v1 lo hi,
  ou_bounds_grad x y T v0 v1 lo hi = ou_bounds_grad y x T v0 v1 lo hi /\ cir_bounds_grad x y T v0 v1 lo hi = cir_bounds_grad y x T v0 v1 lo hi /\
  ou1_bounds_grad x y T v0 v1 lo hi = ou1_bounds_grad y x T v0 v1 lo hi /\ ou2_bounds_grad x y T v0 v1 lo hi = ou2_bounds_grad y x T v0 v1 lo hi /\ ou3_bounds_grad x y T v0 v1 lo hi = ou3_bounds_grad y x T v0 v1 lo hi.
Proof. exact grads_sym. Qed.
Print Assumptions C107_gradients.
(** Two hidden states with two pieces and two regimes; a regime and a sector whose discrepancy has a slope as its parameter, moved from 1 to 2. *)
Example C107_example :
  known_hidden two_paths (fun _ => 1) ex_disc ex_bounds [seed_line; seed_sag] ex_h 2 (fun j => if Nat.eqb j 0 then 1/2 else 1/3) (fun j => if Nat.eqb j 0 then 0 else 0) (fun j => if Nat.eqb j 0 then 2 else 2) /\
  known_hidden two_paths (fun _ => 1) ex_disc ex_bounds [seed_sag; seed_sag] ex_h 2 (fun j => if Nat.eqb j 0 then 1/3 else 1/3) (fun j => if Nat.eqb j 0 then 0 else 0) (fun j => if Nat.eqb j 0 then 2 else 2) /\
  known_params two_paths (fun _ _ => 1) (fun thi y => slope_disc (row thi y)) slope_grad [[1]; [5]] (list_set [[1]; [5]] 0 [2]) [seed_line; seed_sag] ex_h 0 2
    (fun _ => 2) (fun _ => 1/2) (fun _ => 1) (fun _ => 0) (fun _ => 1/2) /\
  known_ito two_paths (fun _ x => x) slope_disc slope_grad [1] (list_set [1] 0 2) [seed_line] [0; 1] [0; 1] 1 (fun _ => 2) (fun _ => 1/2) (fun _ => 1) (fun _ => 0) (fun _ => 1/2).
Proof. exact (conj (proj1 ex_known_hidden) (conj (proj2 ex_known_hidden) (conj ex_known_params ex_known_ito))). Qed.
