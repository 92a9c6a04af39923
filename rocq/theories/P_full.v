(** C104: the Markov chains with their adaptive parameter samplers. *)
From Coq Require Import Reals List Bool Arith Lia Lra.
From Verif Require Import Base Np Rng Mat M_mjp M_inf M_bf M_adapt M_path M_skel M_seed M_models M_sw M_chain M_mcem M_ito M_full SpecLin SpecInf SpecSkel SpecSw SpecChain SpecAdapt SpecSeed SpecIto SpecFull L_inf2 L_lindemo L_demo L_swdemo L_itodemo L_full L_full2 L_full3 L_full4 L_full5.
Import ListNotations.
Local Open Scope R_scope.

(** every run of the chain with samplers, whether it returns or raises, is a run of the chain of
    C58 and C85 with proposals that are admissible and draw nothing from the chain's generator; if it
    returns, the proposals of an iteration and their densities are those of the samplers left by the
    iteration before *)
Theorem C104_refines : forall L dim fuel mp maxp lb_x ub_x vol disc bounds grad log_prior loglik batch precoin pr maxf t vt opt decay air alp bet d lb ub init ins o k,
  admissible d lb ub init -> exists ins', Forall2 same_draws ins ins' /\ Forall (good_proposals d lb ub dim) ins' /\
  let run := full_posterior L dim fuel mp maxp lb_x ub_x vol disc bounds grad log_prior loglik batch precoin pr maxf t vt opt decay air alp bet d lb ub init ins o k in
  sample_posterior L dim fuel mp maxp lb_x ub_x vol disc bounds grad log_prior loglik batch precoin pr maxf t vt opt decay air alp bet init ins' o k
    = (res_map (map fst) (fst run), snd run) /\
  forall l, fst run = Ok l -> forall n i i' sps, nth_error ins n = Some i -> nth_error ins' n = Some i' ->
    nth_error (repeat (mv_init (fun j => nth j init 0) opt) dim :: map snd l) n = Some sps -> from_samplers d lb ub (fi_mvn i) sps i'.
Proof. exact full_refines. Qed.
Print Assumptions C104_refines.
(** in every iterate every regime's sampler stands at the parameters of that regime, and it got there
    by proposing, moving and adapting once in every iteration *)
Theorem C104_history : forall L dim fuel mp maxp lb_x ub_x vol disc bounds grad log_prior loglik batch precoin pr maxf t vt opt decay air alp bet d lb ub init ins o k l k',
  admissible d lb ub init ->
  full_posterior L dim fuel mp maxp lb_x ub_x vol disc bounds grad log_prior loglik batch precoin pr maxf t vt opt decay air alp bet d lb ub init ins o k = (Ok l, k') ->
  length l = length ins /\
  forall n c sps, nth_error l n = Some (c, sps) -> length (c_thi c) = dim /\ length sps = dim /\ Forall (admissible d lb ub) (c_thi c) /\
  forall j sp, nth_error sps j = Some sp -> rw_state (mv_rw sp) = thi_of j (c, sps) /\
    exists h, map fst h = map (thi_of j) (firstn (Datatypes.S n) l) /\
      sampled d lb ub opt decay air (map (fun i => fi_mvn i j) (firstn (Datatypes.S n) ins)) (mv_init (fun i => nth i init 0) opt) h sp.
Proof. exact full_history. Qed.
Print Assumptions C104_history.
(** the adaptation diminishes: when the scale is changed, by how much at most; the covariance of the
    proposals is symmetric and positive definite in every iteration *)
Theorem C104_schedule : forall L dim fuel mp maxp lb_x ub_x vol disc bounds grad log_prior loglik batch precoin pr maxf t vt opt decay air alp bet d lb ub init ins o k l k',
  in01 opt -> admissible d lb ub init ->
  full_posterior L dim fuel mp maxp lb_x ub_x vol disc bounds grad log_prior loglik batch precoin pr maxf t vt opt decay air alp bet d lb ub init ins o k = (Ok l, k') ->
  forall n c sps, nth_error l n = Some (c, sps) -> forall j sp, nth_error sps j = Some sp ->
  length (rw_emp (mv_rw sp)) = (n + 2)%nat /\ Forall in01 (rw_emp (mv_rw sp)) /\
  exists m, (tau air m <= n + 1 < tau air (Datatypes.S m))%nat /\ length (rw_scale (mv_rw sp)) = (m + 1)%nat /\ nth 0 (rw_scale (mv_rw sp)) 0 = - (1) /\
    (forall i, (1 <= i <= m)%nat -> Rabs (nth i (rw_scale (mv_rw sp)) 0 - nth (i - 1) (rw_scale (mv_rw sp)) 0) <= Rpower (INR (i + 1)) (- decay)) /\
    symmetric d (mv_prop_cov sp) /\ (forall x, (exists i, (i < d)%nat /\ x i <> 0) -> 0 < quad d (mv_prop_cov sp) x).
Proof. exact full_schedule. Qed.
Print Assumptions C104_schedule.
(** every iterate is a state that C58 describes *)
Theorem C104_posterior : forall L dim fuel mp maxp vol disc bounds grad log_prior loglik batch precoin pr maxf t vt opt decay air alp bet d lb ub,
  obs_grid t vt (last t 0) -> (4 <= length t)%nat -> (2 <= dim)%nat -> hyper dim (Rlt 0) alp -> hyper dim (Rlt 0) bet -> expm_exact L ->
  (forall Q, generator dim Q -> pos_off dim Q -> solve_ok L dim (stat_matrix Q) stat_rhs) -> (0 < maxp)%nat ->
  (forall thi, length thi = dim -> Forall (admissible d lb ub) thi -> forall y, (y < dim)%nat -> 0 < vol thi y) ->
  forall init ins, admissible d lb ub init ->
  Forall (fun i => forall j, (valid (fi_params i j) /\ generic (fi_params i j)) /\ (valid (fi_hidden i j) /\ generic (fi_hidden i j))) ins ->
  returns_if generic (full_posterior L dim fuel mp maxp NegInf PosInf vol disc bounds grad log_prior loglik batch precoin pr maxf t vt opt decay air alp bet d lb ub init ins)
    (fun l => length l = length ins /\ Forall (chain_ok dim (admissible d lb ub) t vt) (map fst l)).
Proof. exact full_posterior_ok. Qed.
Print Assumptions C104_posterior.
Example C104_example : obs_grid sw_t sw_v (last sw_t 0) /\ (4 <= length sw_t)%nat /\ hyper 2 (Rlt 0) (hyp2 2) /\ expm_exact la0 /\
  (forall Q, generator 2 Q -> pos_off 2 Q -> solve_ok la0 2 (stat_matrix Q) stat_rhs) /\
  admissible 2 pos_lb pos_ub [2; 3] /\
  (forall thi, length thi = 2%nat -> Forall (admissible 2 pos_lb pos_ub) thi -> forall y, (y < 2)%nat -> 0 < nth 1 (nth y thi []) 0) /\
  (exists i, forall j, (valid (fi_params i j) /\ generic (fi_params i j)) /\ (valid (fi_hidden i j) /\ generic (fi_hidden i j))) /\ in01 (1 / 5).
Proof. exact full_case. Qed.
(** a sampler that is rejected once and then moves *)
Example C104_example_sampled : exists sp, sampled 1 pos_lb pos_ub (1 / 5) (66 / 100) 1 [(fun m _ => m); (fun m _ => m)] (mv_init (fun _ => 2) (1 / 5)) [(fun _ => 2, 0); (fun _ => 2, 1)] sp.
Proof. exact sampled_case. Qed.
(** the Ito chain with its samplers: no input makes it produce an iterate *)
Theorem C104_ito_refuted : forall fuel mp maxp lb_x ub_x reduce disc bounds grad log_prior loglik batch precoin pr maxf opt decay air lb ub init t vt ins o k z k1,
  valid o -> init <> [] -> ins <> [] -> ito_sample_aug fuel mp maxp lb_x ub_x reduce t vt init o k = (Ok z, k1) ->
  fst (ito_full_posterior fuel mp maxp lb_x ub_x reduce disc bounds grad log_prior loglik batch precoin pr maxf opt decay air lb ub init t vt ins o k) = Raise TypeError.
Proof. exact ito_full_raises. Qed.
Print Assumptions C104_ito_refuted.
(** and on every series there are draws with which it gets that far *)
Theorem C104_ito_reached : forall mp maxp reduce disc bounds grad log_prior loglik batch precoin pr maxf opt decay air lb ub init t vt ins, series t vt -> (0 < mp)%nat -> (0 < maxp)%nat ->
  init <> [] -> ins <> [] -> exists o n0, valid o /\ generic o /\ forall fuel, (n0 <= fuel)%nat ->
  fst (ito_full_posterior fuel mp maxp NegInf PosInf reduce disc bounds grad log_prior loglik batch precoin pr maxf opt decay air lb ub init t vt ins o 0%nat) = Raise TypeError.
Proof. exact ito_raises_reached. Qed.
Print Assumptions C104_ito_reached.
Example C104_example_ito : series ito_t ito_v /\ [1; 2] <> [].
Proof. split; [exact ito_series|discriminate]. Qed.
