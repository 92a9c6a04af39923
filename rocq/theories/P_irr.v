(** C105: where the switching sampler can go. *)
From Coq Require Import Reals List Bool Arith Lia Lra.
From Verif Require Import Base Np Rng Mat M_mjp M_inf M_bf M_adapt M_path M_skel M_seed M_models M_sw M_chain M_full SpecMjp SpecLin SpecInf SpecSkel SpecSeed SpecSw SpecChain SpecSupport SpecModels SpecCan SpecIrr SpecFull
  L_lindemo L_swdemo L_inf2 L_inf L_irr4 L_irr5 L_irr6.
Import ListNotations.
Local Open Scope R_scope.

(** C105: for every tour there are proposals and random numbers with which sample_posterior visits it,
    stop after stop, for every number of stops *)
Theorem C105_general : forall L dim mp maxp vol disc bounds grad log_prior loglik batch precoin pr maxf t vt opt decay air alp bet (okrow : list R -> Prop),
  obs_grid t vt (last t 0) -> (4 <= length t)%nat -> (2 <= dim)%nat -> hyper dim (Rlt 0) alp -> hyper dim (Rlt 0) bet ->
  (forall Q, generator dim Q -> pos_off dim Q -> solve_ok L dim (stat_matrix Q) stat_rhs) ->
  (0 < mp)%nat -> (0 < maxp)%nat -> (0 < batch)%nat -> (0 < maxf)%nat ->
  (forall thi, length thi = dim -> Forall okrow thi -> forall y, (y < dim)%nat -> 0 < vol thi y) ->
  (forall thi, length thi = dim -> Forall okrow thi -> forall y, (y < dim)%nat -> spread NegInf PosInf (bounds thi y)) ->
  (forall r, okrow r -> exists r', okrow r' /\ alive grad r r') ->
  forall init stops, okrow init -> tour dim okrow (alive grad) (last t 0) (repeat init dim) stops ->
  exists ins, Forall (inputs_ok okrow) ins /\
    feasible (fun fuel => sample_posterior L dim fuel mp maxp NegInf PosInf vol disc bounds grad log_prior loglik batch precoin pr maxf t vt opt decay air alp bet init ins) (Forall2 (at_stop dim) stops).
Proof. exact tour_feasible. Qed.
Print Assumptions C105_general.
(** C105: the same with the proposals of the adaptive samplers, whatever they have adapted to: only the
    draws of the multivariate normal are chosen *)
Theorem C105_samplers : forall L dim mp maxp vol disc bounds grad log_prior loglik batch precoin pr maxf t vt opt decay air alp bet d lb ub,
  obs_grid t vt (last t 0) -> (4 <= length t)%nat -> (2 <= dim)%nat -> hyper dim (Rlt 0) alp -> hyper dim (Rlt 0) bet ->
  (forall Q, generator dim Q -> pos_off dim Q -> solve_ok L dim (stat_matrix Q) stat_rhs) ->
  (0 < mp)%nat -> (0 < maxp)%nat -> (0 < batch)%nat -> (0 < maxf)%nat ->
  (forall thi, length thi = dim -> Forall (admissible d lb ub) thi -> forall y, (y < dim)%nat -> 0 < vol thi y) ->
  (forall thi, length thi = dim -> Forall (admissible d lb ub) thi -> forall y, (y < dim)%nat -> spread NegInf PosInf (bounds thi y)) ->
  (forall r, admissible d lb ub r -> exists r', admissible d lb ub r' /\ alive grad r r') ->
  forall init stops, admissible d lb ub init -> tour dim (admissible d lb ub) (alive grad) (last t 0) (repeat init dim) stops ->
  exists ins, Forall (fun i => forall j, (valid (fi_params i j) /\ generic (fi_params i j)) /\ (valid (fi_hidden i j) /\ generic (fi_hidden i j))) ins /\
    feasible (fun fuel => full_posterior L dim fuel mp maxp NegInf PosInf vol disc bounds grad log_prior loglik batch precoin pr maxf t vt opt decay air alp bet d lb ub init ins)
      (fun l => Forall2 (at_stop dim) stops (map fst l)).
Proof. exact full_tour. Qed.
Print Assumptions C105_samplers.
(** C105: for ou3.py every list of stops with positive parameters can be visited, one per iteration *)
Theorem C105_ou3 : forall L dim mp maxp disc log_prior loglik batch precoin pr maxf t vt opt decay air alp bet,
  obs_grid t vt (last t 0) -> (4 <= length t)%nat -> (2 <= dim)%nat -> hyper dim (Rlt 0) alp -> hyper dim (Rlt 0) bet ->
  (forall Q, generator dim Q -> pos_off dim Q -> solve_ok L dim (stat_matrix Q) stat_rhs) ->
  (0 < mp)%nat -> (0 < maxp)%nat -> (0 < batch)%nat -> (0 < maxf)%nat ->
  forall init stops, pos2 init -> Forall (stop_ok dim pos2 (last t 0)) stops ->
  exists ins, Forall (fun i => forall j, (valid (fi_params i j) /\ generic (fi_params i j)) /\ (valid (fi_hidden i j) /\ generic (fi_hidden i j))) ins /\
    feasible (fun fuel => full_posterior L dim fuel mp maxp NegInf PosInf ou3_vol disc (fun thi y => as_bounds (ou3_bounds_disc thi y)) ou3_bounds_grad log_prior loglik batch precoin pr maxf
        t vt opt decay air alp bet 2 (fun _ => Fin 0) (fun _ => PosInf) init ins)
      (fun l => Forall2 (at_stop dim) stops (map fst l)).
Proof.
  exact (fun L dim mp maxp disc lp ll batch precoin pr maxf t vt opt decay air alp bet H1 H2 H3 H4 H5 H6 H7 H8 H9 H10 init stops HI HS =>
    model_tour L dim mp maxp _ disc _ _ lp ll batch precoin pr maxf t vt opt decay air alp bet _ ou3_ok H1 H2 H3 H4 H5 H6 H7 H8 H9 H10 init stops HI (tour_any dim pos2 (last t 0) stops HS (repeat init dim))).
Qed.
Print Assumptions C105_ou3.
(** C105: for ou.py and ou2.py every tour that changes the first parameter of a regime whenever it
    changes that regime ... *)
Theorem C105_ou12 : forall L dim mp maxp disc log_prior loglik batch precoin pr maxf t vt opt decay air alp bet vol bounds grad,
  (vol = ou1_vol /\ bounds = (fun thi y => as_bounds (ou1_bounds_disc thi y)) /\ grad = ou1_bounds_grad) \/
  (vol = ou2_vol /\ bounds = (fun thi y => as_bounds (ou2_bounds_disc thi y)) /\ grad = ou2_bounds_grad) ->
  obs_grid t vt (last t 0) -> (4 <= length t)%nat -> (2 <= dim)%nat -> hyper dim (Rlt 0) alp -> hyper dim (Rlt 0) bet ->
  (forall Q, generator dim Q -> pos_off dim Q -> solve_ok L dim (stat_matrix Q) stat_rhs) ->
  (0 < mp)%nat -> (0 < maxp)%nat -> (0 < batch)%nat -> (0 < maxf)%nat ->
  forall init stops, pos2 init -> tour dim pos2 (fun r r' => nth 0 r 0 <> nth 0 r' 0) (last t 0) (repeat init dim) stops ->
  exists ins, Forall (fun i => forall j, (valid (fi_params i j) /\ generic (fi_params i j)) /\ (valid (fi_hidden i j) /\ generic (fi_hidden i j))) ins /\
    feasible (fun fuel => full_posterior L dim fuel mp maxp NegInf PosInf vol disc bounds grad log_prior loglik batch precoin pr maxf
        t vt opt decay air alp bet 2 (fun _ => Fin 0) (fun _ => PosInf) init ins)
      (fun l => Forall2 (at_stop dim) stops (map fst l)).
Proof. exact ou12_tour. Qed.
Print Assumptions C105_ou12.
(** ... and hence every list of stops at every second iteration *)
Theorem C105_ou12_twice : forall L dim mp maxp disc log_prior loglik batch precoin pr maxf t vt opt decay air alp bet vol bounds grad,
  (vol = ou1_vol /\ bounds = (fun thi y => as_bounds (ou1_bounds_disc thi y)) /\ grad = ou1_bounds_grad) \/
  (vol = ou2_vol /\ bounds = (fun thi y => as_bounds (ou2_bounds_disc thi y)) /\ grad = ou2_bounds_grad) ->
  obs_grid t vt (last t 0) -> (4 <= length t)%nat -> (2 <= dim)%nat -> hyper dim (Rlt 0) alp -> hyper dim (Rlt 0) bet ->
  (forall Q, generator dim Q -> pos_off dim Q -> solve_ok L dim (stat_matrix Q) stat_rhs) ->
  (0 < mp)%nat -> (0 < maxp)%nat -> (0 < batch)%nat -> (0 < maxf)%nat ->
  forall init stops, pos2 init -> Forall (stop_ok dim pos2 (last t 0)) stops ->
  exists ins, length ins = (2 * length stops)%nat /\ Forall (fun i => forall j, (valid (fi_params i j) /\ generic (fi_params i j)) /\ (valid (fi_hidden i j) /\ generic (fi_hidden i j))) ins /\
    feasible (fun fuel => full_posterior L dim fuel mp maxp NegInf PosInf vol disc bounds grad log_prior loglik batch precoin pr maxf
        t vt opt decay air alp bet 2 (fun _ => Fin 0) (fun _ => PosInf) init ins)
      (fun l => forall n s, nth_error stops n = Some s -> exists c sps, nth_error l (2 * n + 1) = Some (c, sps) /\ at_stop dim s c).
Proof. exact ou12_twice. Qed.
Print Assumptions C105_ou12_twice.
Example C105_example : obs_grid sw_t sw_v (last sw_t 0) /\ (4 <= length sw_t)%nat /\ hyper 2 (Rlt 0) (hyp2 2) /\
  (forall Q, generator 2 Q -> pos_off 2 Q -> solve_ok la0 2 (stat_matrix Q) stat_rhs) /\ pos2 [3; 1] /\
  Forall (stop_ok 2 pos2 (last sw_t 0)) demo_tour /\ tour 2 pos2 (fun r r' => nth 0 r 0 <> nth 0 r' 0) (last sw_t 0) (repeat [3; 1] 2) demo_tour /\
  tour 2 pos2 (alive ou1_bounds_grad) (last sw_t 0) (repeat [3; 1] 2) demo_tour.
Proof.
  split; [exact sw_grid|]. split; [apply le_n|]. split; [apply hyp2_ok; lra|]. exact (conj la0_solve_all (conj pos2_31 (conj demo_tour_ok (conj demo_tour_first demo_alive)))).
Qed.
