(** Property theorems C110: the random walk proposals of the samplers and the acceptance of the
    parameter section of a switching chain fit together. *)
From Coquelicot Require Import Rcomplements Hierarchy Continuity Derive RInt RInt_analysis.
From Coq Require Import Reals List Bool Arith Lra.
From Verif Require Import Base Np Rng M_mjp M_hit M_path M_skel M_seed SpecSeed M_bf M_models M_sw M_mcem M_ito SpecLaw SpecEst SpecExact SpecExact2 M_adapt SpecJobs SpecWalk M_full L_exact5 L_exact11 L_walk L_walk2.
From Verif Require Import SpecAdapt Mat.
Import ListNotations.
Local Open Scope R_scope.

(** The sampler stands at x, row i of the parameters, and proposes q; from q the same sampler proposes
    x back.  g is the density of the increments in unconstrained coordinates.  pn and pp are the
    posterior weights of the old and the new row up to the error of the batches, there and back the
    densities of the two proposals. *)
Theorem C110_params : forall path vol disc grad log_prior loglik batch pre pr maxf thi z h i n C vf vg a b d lb ub mvn mvn' sp q lf lb_ lf' lb' g o k o' k',
  (forall x y T v0 v1 lo hi, grad x y T v0 v1 lo hi = grad y x T v0 v1 lo hi) -> even_density d g ->
  let x := rw_state (mv_rw sp) in let x' := fun j => nth j q 0 in let sp' := standing sp x' in let thi' := list_set thi i q in
  nth_error thi i = Some (map x (seq 0 d)) -> (forall j, (j < d)%nat -> inside (lb j) (ub j) (x j)) -> (forall j, (j < d)%nat -> inside (lb j) (ub j) (x' j)) ->
  sampler_propose d lb ub mvn sp o k = (Ok (q, lf, lb_), k) -> sampler_propose d lb ub mvn' sp' o' k' = (Ok (map x (seq 0 d), lf', lb'), k') ->
  known_params path vol disc grad thi thi' z h i n C vf vg a b -> (0 < batch)%nat -> 0 <= pr <= 1 ->
  let W (t : list (list R)) := fst (loglik t h (Some i)) + log_prior t in
  let err := rsum n (within h i (overflow (fun j => C j * span (a_t h) j) batch)) in
  exists pn pp acc stay acc' stay',
    Rabs (pn - exp (W thi - rsum n (within h i vf))) <= exp (W thi - rsum n (within h i (fun j => vf j - a j))) * err /\
    Rabs (pp - exp (W thi' - rsum n (within h i vg))) <= exp (W thi' - rsum n (within h i (fun j => vg j - b j))) * err /\
    (forall f, average (params_section_with (pinned path) vol disc grad log_prior loglik batch pre pr maxf (sampler_propose d lb ub mvn sp) thi z h i) f (acc * f (true, thi', z) + stay * f (false, thi, z))) /\
    (forall f, average (params_section_with (pinned path) vol disc grad log_prior loglik batch pre pr maxf (sampler_propose d lb ub mvn' sp') thi' z h i) f (acc' * f (true, thi, z) + stay' * f (false, thi', z))) /\
    forall there back, step_density d lb ub g x x' there -> step_density d lb ub g x' x back -> pn * there * acc = pp * back * acc'.
Proof. exact walk_law. Qed.
Print Assumptions C110_params.

(** The densities of the steps between any two points inside the bounds exist and are unique. *)
Theorem C110_exists : forall d lb ub g x x', (forall i, (i < d)%nat -> inside (lb i) (ub i) (x i)) -> (forall i, (i < d)%nat -> inside (lb i) (ub i) (x' i)) ->
  (exists v, step_density d lb ub g x x' v) /\ (even_density d g -> forall v w, step_density d lb ub g x x' v -> step_density d lb ub g x x' w -> v = w).
Proof. exact step_unique. Qed.
Print Assumptions C110_exists.

(** One coordinate: a step from T y whose increment has density g lands between T a and T b with the
    probability that the increment lands between a - y and b - y. *)
Theorem C110_density : forall lb ub (g : R -> R) y a b, (forall v, continuous g v) -> a <= b -> let T u := fst (transform_to_const u lb ub) in
  exists q : R -> R, (forall u, step_density 1 (fun _ => lb) (fun _ => ub) (fun v => g (v 0%nat)) (fun _ => T y) (fun _ => T u) (q (T u))) /\
    is_RInt (V := R_NormedModule) q (Rmin (T a) (T b)) (Rmax (T a) (T b)) (RInt (V := R_CompleteNormedModule) (fun u => g (u - y)) a b).
Proof. exact walk_density. Qed.
Print Assumptions C110_density.

(** Regime 0 stands at 1 with bounds (0, oo) and proposes 2. *)
Example C110_example : even_density 1 ex_gauss /\ nth_error [[1]; [5]] 0 = Some (map (rw_state (mv_rw ex_sp)) (seq 0 1)) /\
  (forall j, (j < 1)%nat -> inside (ex_lb j) (ex_ub j) (rw_state (mv_rw ex_sp) j)) /\ (forall j, (j < 1)%nat -> inside (ex_lb j) (ex_ub j) (nth j [2] 0)) /\
  (forall o k, sampler_propose 1 ex_lb ex_ub (fun _ _ _ => ln 2) ex_sp o k = (Ok ([2], - ln 2, 0), k)) /\
  (forall o k, sampler_propose 1 ex_lb ex_ub (fun _ _ _ => 0) (standing ex_sp (fun j => nth j [2] 0)) o k = (Ok (map (rw_state (mv_rw ex_sp)) (seq 0 1), 0, - ln 2), k)) /\
  step_density 1 ex_lb ex_ub ex_gauss (rw_state (mv_rw ex_sp)) (fun j => nth j [2] 0) (exp (- (ln 2) ^ 2) / 2) /\
  step_density 1 ex_lb ex_ub ex_gauss (fun j => nth j [2] 0) (rw_state (mv_rw ex_sp)) (exp (- (ln 2) ^ 2)) /\
  known_params two_paths (fun _ _ => 1) (fun thi y => slope_disc (M_models.row thi y)) slope_grad [[1]; [5]] (list_set [[1]; [5]] 0 [2]) [seed_line; seed_sag] ex_h 0 2
    (fun _ => 2) (fun _ => 1/2) (fun _ => 1) (fun _ => 0) (fun _ => 1/2).
Proof. destruct ex_walk as (A & B & C & D & E & F & G & H). repeat (split; [assumption|]). exact ex_known_params. Qed.
