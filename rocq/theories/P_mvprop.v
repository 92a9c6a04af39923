(** Property theorems C25: which normal law the multivariate random walk proposes from. *)
From Coq Require Import Reals List Bool Arith.
From Verif Require Import Base Np Rng Mat M_adapt SpecAdapt SpecMvprop L_mvprop.
Import ListNotations.
Local Open Scope R_scope.

(** C25: a proposal is one draw of the multivariate normal around the state without its bounds, with the
    proposal covariance times the exponential of the latest log scale; the bounds are put back after. *)
Theorem C25_proposal : forall dim lb ub mvn sp o k prop f b k',
  mv_propose dim lb ub mvn sp o k = (Ok (Some (prop, f, b)), k') ->
  exists y, unbounded dim lb ub (rw_state (mv_rw sp)) y /\
    unbounded dim lb ub prop (mvn y (fun i j => mv_prop_cov sp i j * exp (last (rw_scale (mv_rw sp)) 0))).
Proof. exact mv_propose_normal. Qed.
Print Assumptions C25_proposal.
(** the proposal covariance is that of the samples up to the last update of the scale, and of no later
    one; the running moments start at the mean 0 and the identity, which count as one observation *)
Theorem C25_covariance : forall dim lb ub opt decay air x0 h sp,
  run_opt (mv_adapt dim lb ub opt decay air) (mv_init x0 opt) h = Some sp ->
  exists k reals, (tau air k <= length h < tau air (S k))%nat /\ transformed dim lb ub (firstn (tau air k) h) reals /\
    mv_prop_cov sp = snd (fold_normal 2 reals (fun _ => 0, mident)).
Proof. exact mv_prop_window. Qed.
Print Assumptions C25_covariance.
Example C25_covariance_example : exists sp, run_opt (mv_adapt 1 (fun _ => NegInf) (fun _ => PosInf) (1/4) (1/2) 1) (mv_init (fun _ => 0) (1/4))
    [(fun _ => 2, 1); (fun _ => 5, 0)] = Some sp /\
  mv_prop_cov sp 0%nat 0%nat = 5 / 2 /\ mv_adapt_cov sp 0%nat 0%nat <> 5 / 2.
Proof. exact mv_prop_demo. Qed.
