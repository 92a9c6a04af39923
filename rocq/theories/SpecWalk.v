(** Densities of the proposals of the random walk samplers. *)
From Coq Require Import Reals List Bool Arith.
From Verif Require Import Base Mat M_adapt SpecJobs.
Import ListNotations.
Local Open Scope R_scope.

(** the sampler sp, standing at x *)
Definition standing (sp : mv) (x : vec) : mv :=
  mk_mv (mk_rw x (rw_scale (mv_rw sp)) (rw_emp (mv_rw sp)) (rw_periods (mv_rw sp))) (mv_mean sp) (mv_adapt_cov sp) (mv_prop_cov sp).
(** a density of the d coordinates of an increment that does not distinguish it from its negative, as
    that of a centred normal distribution *)
Definition even_density (d : nat) (g : vec -> R) : Prop := forall u w, (forall i, (i < d)%nat -> u i = - w i) -> g u = g w.
(** the constraining map of coordinate i *)
Definition constrain (lb ub : nat -> ext) (i : nat) (y : R) : R := fst (transform_to_const y (lb i) (ub i)).
(** v is the density at x' of a step from x whose increments in unconstrained coordinates have density g *)
Definition step_density (d : nat) (lb ub : nat -> ext) (g : vec -> R) (x x' : vec) (v : R) : Prop :=
  exists y y' D : vec, (forall i, (i < d)%nat -> x i = constrain lb ub i (y i) /\ x' i = constrain lb ub i (y' i) /\ derivable_pt_lim (constrain lb ub i) (y' i) (D i)) /\
    v = g (fun i => y' i - y i) / product d (fun i => Rabs (D i)).
