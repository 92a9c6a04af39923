(** Property theorems C61-C64 and C73-C76: Monte-Carlo EM. *)
From Coq Require Import Reals List Bool Arith ZArith Lia Lra Sorted.
From Verif Require Import Base Np Rng M_mjp M_inf M_bf M_adapt M_path M_skel M_seed M_models M_sw M_chain M_mcem SpecMjp SpecLin SpecInf SpecSkel SpecSeed SpecSw SpecChain SpecEm
  L_rng L_lindemo L_sw10 L_sw12 L_swdemo L_em L_em2 L_em3 L_em4 L_em5 L_em6 L_em7 L_em8 P_seed L_inf2 Mat.
Import ListNotations.
Local Open Scope R_scope.

(** small cases for the examples *)
Definition em_z : partition := [demo_seed; demo_seed; demo_seed; demo_seed].
Lemma em_sorted : StronglySorted Rlt sw_t.
Proof. repeat constructor; lra. Qed.
Lemma em_anch : anch_ok sw_h.
Proof. split; [repeat constructor; cbn; lra|]. cbn. auto with arith. Qed.
Lemma em_demo : StronglySorted Rlt sw_t /\ length sw_v = length sw_t /\ Forall2 (fun z h => anch_ok h /\ length (a_t h) = S (length z) /\ Forall standard z) [em_z] [sw_h] /\
  Forall (fun z => length z = (length sw_t - 1)%nat /\ Forall standard z) [removelast em_z].
Proof. split; [exact em_sorted|]. split; [reflexivity|]. pose proof demo_standard. assert (K : forall n, Forall standard (repeat demo_seed n)) by (intros n; induction n; constructor; auto). split; [|constructor; [split; [reflexivity|exact (K 3%nat)]|constructor]]. constructor; [|constructor]. exact (conj em_anch (conj eq_refl (K 4%nat))). Qed.
Lemma em_demo_supp : anch_ok sw_h /\ all_prepared (np_diff (a_t sw_h)) [[1/2]; [1/4]; [1/4]; [1/2]] em_z /\ Forall (fun y => (y < 2)%nat) (a_y sw_h).
Proof.
  split; [exact em_anch|]. split; [|repeat constructor]. split; [reflexivity|]. split; [reflexivity|]. pose proof demo_standard as H.
  assert (K : forall dt u, 0 < dt -> u = dt / 2 -> prepared dt [u] demo_seed).
  { intros dt u D ->. split; [exact H|]. split; [exact D|]. split; [repeat constructor|]. split; [discriminate|]. intros v [<-|[]]. right. left. cbn. field. lra. }
  intros i dt u s. do 4 (destruct i as [|i]; [cbn; intros E1 E2 E3; injection E1 as <-; injection E2 as <-; injection E3 as <-; apply K; [lra|field]|]). destruct i; cbn; discriminate.
Qed.

(** C61: with a learning rate of at least one the particle numbers start at 1 and increase strictly. *)
Theorem C61_sizes : forall rate, 1 <= rate -> forall j, (1 <= Nat.iter j (next_particles rate) 1)%nat /\ (Nat.iter j (next_particles rate) 1 < Nat.iter (S j) (next_particles rate) 1)%nat.
Proof. exact sizes_grow. Qed.
Print Assumptions C61_sizes.
(** C61: with a learning rate of one half the number of particles never grows. *)
Theorem C61_slow_refuted : next_particles (1 / 2) 1 = 1%nat.
Proof. exact next_stuck. Qed.
Print Assumptions C61_slow_refuted.
(** C61: update_particles makes n * thin successive updates and keeps the first, the (thin+1)-th, ..., exactly n. *)
Theorem C61_particles : forall {P S'} (thin : nat) (upd : P * S' -> M (P * S')) n x o p l s, (1 <= thin)%nat -> fst (update_particles thin upd n x o p) = Ok (l, s) ->
  exists xs, length xs = (n * thin)%nat /\ successive upd x xs /\ length l = n /\ (forall m, nth_error l m = option_map fst (nth_error xs (m * thin))) /\ s = snd (last xs x).
Proof. exact @update_trace. Qed.
Print Assumptions C61_particles.
(** C61 and C62, Ito: every run of at most k iterations. The loop ends exactly at the first small
    change of the objective; iteration j has the j-th number of particles; its chain starts at the
    last particle of the iteration before and its parameters at the initial ones, always. *)
Theorem C61_ito : forall {Th Z} rate ftol (thin : nat) (sample_aug : Th -> M Z) (update_sde : Th -> Z -> M Z) (update_param : Th -> list Z -> M (Th * R)) init k o p l fin, (1 <= thin)%nat ->
  fst (ito_maximize rate ftol thin sample_aug update_sde update_param init k o p) = Ok (l, fin) ->
  stops_first ftol (map (fun y => fst (fst y)) l) fin k /\ (forall j y, nth_error l j = Some y -> length (snd y) = Nat.iter j (next_particles rate) 1%nat) /\
  (forall j y y', nth_error l j = Some y -> nth_error l (S j) = Some y' -> exists z, last_opt (snd y) = Some z /\
     may_return (ito_iterate_em thin update_sde update_param init z (Nat.iter (S j) (next_particles rate) 1%nat)) y').
Proof. exact @ito_all. Qed.
Print Assumptions C61_ito.
(** C61 and C62, switching: the same with parameters, generator, last particle and regime sampler
    of the iteration before. *)
Theorem C62_switching : forall {Th P S'} rate ftol (thin : nat) (update_hidden : Th -> mat -> P * S' -> M (P * S')) (update_param : Th -> list P -> M (Th * R)) (update_generator : list P -> res (mat * R)) k thi lam pp sp o p l fin,
  (1 <= thin)%nat -> fst (sw_em_loop rate ftol thin update_hidden update_param update_generator k None 1 thi lam pp sp o p) = Ok (l, fin) ->
  stops_first ftol (map y_obj l) fin k /\ (forall j y, nth_error l j = Some y -> length (y_pp y) = Nat.iter j (next_particles rate) 1%nat) /\
  (forall j y y', nth_error l j = Some y -> nth_error l (S j) = Some y' -> exists q, last_opt (y_pp y) = Some q /\
     may_return (sw_iterate_em thin update_hidden update_param update_generator (y_thi y) (y_lam y) (q, y_sp y) (Nat.iter (S j) (next_particles rate) 1%nat)) y').
Proof. exact @sw_all. Qed.
Print Assumptions C62_switching.
(** C62: within an iteration the particles are those of [update_particles] at the estimate it
    started from, see C61_particles; both M-steps use all of them and the objectives are added. *)
Theorem C62_switching_step : forall {Th P S'} (thin : nat) (update_hidden : Th -> mat -> P * S' -> M (P * S')) (update_param : Th -> list P -> M (Th * R)) (update_generator : list P -> res (mat * R)) thi lam x n y,
  may_return (sw_iterate_em thin update_hidden update_param update_generator thi lam x n) y ->
  exists v w, may_return (update_particles thin (update_hidden thi lam) n x) (y_pp y, snd y) /\
    may_return (update_param thi (y_pp y)) (y_thi y, v) /\ update_generator (y_pp y) = Ok (y_lam y, w) /\ y_obj y = v + w.
Proof. exact @sw_step. Qed.
Print Assumptions C62_switching_step.
Theorem C62_ito_step : forall {Th Z} (thin : nat) (update_sde : Th -> Z -> M Z) (update_param : Th -> list Z -> M (Th * R)) thi z n y,
  may_return (ito_iterate_em thin update_sde update_param thi z n) y ->
  may_return (update_particles thin (fun x : Z * unit => do z' <- update_sde thi (fst x); ret (z', tt)) n (z, tt)) (snd y, tt) /\
  may_return (update_param thi (snd y)) (snd (fst y), fst (fst y)).
Proof. exact @ito_step_em. Qed.
Print Assumptions C62_ito_step.
(** C62 fails for Ito: a run whose second yield cannot come from the estimate of the first. *)
Theorem C62_ito_refuted : exists (thin : nat) (aug : R -> M nat) (upd : R -> nat -> M nat) (par : R -> list nat -> M (R * R)) o l fin y y',
  fst (ito_maximize (3 / 2) 0 thin aug upd par 0 2 o 0%nat) = Ok (l, fin) /\ nth_error l 0 = Some y /\ nth_error l 1 = Some y' /\ snd (fst y) <> 0 /\
  forall z n, ~ may_return (ito_iterate_em thin upd par (snd (fst y)) z n) y'.
Proof. exact ito_restart. Qed.
Print Assumptions C62_ito_refuted.
Example C61_example : 1 <= 3 / 2 /\ (1 <= 2)%nat.
Proof. split; [lra|auto]. Qed.
Example C62_example : exists (upd : nat -> mat -> nat * nat -> M (nat * nat)) par gen l,
  fst (sw_em_loop 1 0 2 upd par gen 1 None 1 0%nat (fun _ _ => 0) [0%nat] 0%nat {| ora_r := fun _ _ => 0; ora_n := fun _ _ => 0%nat |} 0%nat) = Ok (l, false) /\ length l = 1%nat.
Proof. exists (fun _ _ x => ret (S (fst x), S (snd x))), (fun thi _ => ret (S thi, 0)), (fun _ => Ok (fun _ _ => 0, 0)). eexists. split; reflexivity. Qed.

(** C63: the buffered bounds, coordinate by coordinate, for every combination of finite and infinite bounds. *)
Theorem C63_buffer : forall lb ub n b, 0 <= b -> Forall2 interval (lower_of lb n) (upper_of ub n) -> exists l' u', buffer_bounds lb ub n b = Ok (l', u') /\
  length l' = length (lower_of lb n) /\ length u' = length (lower_of lb n) /\
  forall i l u lo hi, nth_error (lower_of lb n) i = Some l -> nth_error (upper_of ub n) i = Some u -> nth_error l' i = Some lo -> nth_error u' i = Some hi ->
    inset b l u lo hi /\ ele l lo /\ ele lo hi /\ ele hi u.
Proof. exact buffer_ok. Qed.
Print Assumptions C63_buffer.
(** C63: clipping into bounds lands inside, is idempotent and leaves points inside alone. *)
Theorem C63_clip : forall lb ub thi, Forall2 interval lb ub -> length thi = length lb -> exists v, clip lb ub thi = map Fin v /\
  Forall2 (fun y p => ele (fst p) (Fin y) /\ ele (Fin y) (snd p)) v (combine lb ub) /\ clip lb ub v = map Fin v /\
  (Forall2 (fun x p => ele (fst p) (Fin x) /\ ele (Fin x) (snd p)) thi (combine lb ub) -> v = thi).
Proof. exact clip_ok. Qed.
Print Assumptions C63_clip.
(** C63 fails for the call in switching update_param, which passes the number of regimes as the
    number of coordinates: one missing side and a number of parameters other than n is an error. *)
Theorem C63_regimes_refuted : forall n u b, (2 <= n)%nat -> (2 <= length u)%nat -> length u <> n -> buffer_bounds None (Some u) n b = Raise ValueError.
Proof. exact wrong_dimension. Qed.
Print Assumptions C63_regimes_refuted.
Example C63_example : Forall2 interval (lower_of (Some [Fin 0; NegInf; Fin 0]) 3) (upper_of (Some [Fin 1; Fin 5; PosInf]) 3).
Proof. repeat constructor; cbn; try discriminate; try lra; auto. Qed.

(** C64: the initial generator under the hyper-prior of the package. *)
Theorem C64_initial : forall dim a b, b <> 0 -> exists B, init_generator dim (fst (construct_gen_hyperprior a b)) (snd (construct_gen_hyperprior a b)) = Ok B /\
  (forall i j, (i < dim)%nat -> (j < dim)%nat -> exists x, B i j = Some x) /\ (forall i, (i < dim)%nat -> rsum dim (mat_of B i) = 0) /\
  (forall i j, (i < dim)%nat -> (j < dim)%nat -> i <> j -> B i j = Some (a / b)).
Proof. exact const_init. Qed.
Print Assumptions C64_initial.
(** C64: an asymmetric hyper-prior for which the first row of the initial generator does not sum to 0. *)
Theorem C64_asymmetric_refuted : exists alp bet B, hyper 2 (Rlt 0) alp /\ hyper 2 (Rlt 0) bet /\ init_generator 2 alp bet = Ok B /\ rsum 2 (mat_of B 0%nat) <> 0.
Proof. exact asym_init. Qed.
Print Assumptions C64_asymmetric_refuted.
(** C64: after every M-step the rows sum to 0, for any hyper-prior and any particles. *)
Theorem C64_m_step : forall dim hh yy alp bet, yy <> [] -> Forall2 (particle dim) hh yy -> hyper dim (fun _ => True) alp -> hyper dim (Rlt 0) bet ->
  exists lam v, em_update_generator dim hh alp bet = Ok (lam, v) /\ (forall i j, (i < dim)%nat -> (j < dim)%nat -> exists x, lam i j = Some x) /\ (forall i, (i < dim)%nat -> rsum dim (mat_of lam i) = 0) /\
    (forall w, v = Some w <-> em_objective dim yy alp bet (mat_of lam) w).
Proof. exact em_rows_ok. Qed.
Print Assumptions C64_m_step.
Example C64_example : Forall2 (particle 2) [sw_h; sw_h] [sw_y; sw_y] /\ hyper 2 (Rlt 0) (hyp2 2).
Proof. pose proof (hidden_particle 2 sw_t sw_v sw_y sw_h 4 sw_hidden) as H. split; [exact (Forall2_cons _ _ H (Forall2_cons _ _ H (Forall2_nil _)))|apply hyp2_ok; lra]. Qed.

(** C73: with shapes above one the M-step for the generator is the unique maximiser of the
    particles' expected log posterior, and the reported objective is its value. *)
Theorem C73_optimal : forall dim hh yy alp bet, yy <> [] -> Forall2 (particle dim) hh yy -> hyper dim (Rlt 1) alp -> hyper dim (Rlt 0) bet ->
  exists lam v, em_update_generator dim hh alp bet = Ok (lam, Some v) /\ (forall i j, (i < dim)%nat -> (j < dim)%nat -> exists x, lam i j = Some x) /\ generator dim (mat_of lam) /\ pos_off dim (mat_of lam) /\
    em_objective dim yy alp bet (mat_of lam) v /\
    forall gen w, generator dim gen -> pos_off dim gen -> em_objective dim yy alp bet gen w -> w < v \/ w = v /\ forall i j, (i < dim)%nat -> (j < dim)%nat -> gen i j = mat_of lam i j.
Proof. exact em_optimal. Qed.
Print Assumptions C73_optimal.
(** C73 with the default shape one: a transition that no particle makes gets rate zero. *)
Theorem C73_default_refuted : forall dim hh yy alp bet i j, yy <> [] -> Forall2 (particle dim) hh yy -> hyper dim (fun _ => True) alp -> hyper dim (Rlt 0) bet ->
  (i < dim)%nat -> (j < dim)%nat -> i <> j -> alp i j = Some 1 -> Forall (fun y => n_jumps (sk_x y) i j = 0%nat) yy ->
  exists lam v, em_update_generator dim hh alp bet = Ok (lam, v) /\ lam i j = Some 0.
Proof. exact em_zero. Qed.
Print Assumptions C73_default_refuted.
Example C73_example : hyper 2 (Rlt 1) (hyp2 2) /\ particle 2 sw_h sw_y /\ n_jumps (sk_x sw_y) 1 0 = 0%nat.
Proof. split; [apply hyp2_ok; lra|]. split; [exact (hidden_particle 2 sw_t sw_v sw_y sw_h 4 sw_hidden)|reflexivity]. Qed.

(** C74: without thinning, in every iteration of every run, every particle carries the data and
    some jump path, the last one the regime sampler's, and the generators are proper. *)
Theorem C74_particles : forall L dim fuel mp maxp vol disc bounds loglik batch precoin pr maxf t vt opt decay air a b rate ftol omes par init k,
  obs_grid t vt (last t 0) -> (4 <= length t)%nat -> (2 <= dim)%nat -> 1 < a -> 0 < b -> 1 <= rate -> expm_exact L ->
  (forall Q, generator dim Q -> pos_off dim Q -> solve_ok L dim (stat_matrix Q) stat_rhs) -> (forall c i, valid (omes c i)) ->
  returns_if generic (sw_maximize L dim fuel mp maxp NegInf PosInf vol disc bounds loglik batch precoin pr maxf t vt opt decay air
      (fst (construct_gen_hyperprior a b)) (snd (construct_gen_hyperprior a b)) rate ftol 1 omes par init k)
    (fun r => Forall (fun y => generator dim (y_lam y) /\ pos_off dim (y_lam y) /\
       Forall (fun p => exists s, hidden_ok dim t vt s (snd p) (length (fst p))) (y_pp y) /\
       exists p, last_opt (y_pp y) = Some p /\ hidden_ok dim t vt (rw_state (fst (y_sp y))) (snd p) (length (fst p))) (fst r)).
Proof. exact em_states. Qed.
Print Assumptions C74_particles.
(** C74: which states an iteration keeps.  The last particle is state (n-1)*thin + 1 of the chain, the
    regime sampler is left at state n*thin. *)
Theorem C74_kept : forall {Th P S'} (thin : nat) (update_hidden : Th -> mat -> P * S' -> M (P * S')) (update_param : Th -> list P -> M (Th * R)) (update_generator : list P -> res (mat * R)) thi lam x n o p y,
  (1 <= thin)%nat -> fst (sw_iterate_em thin update_hidden update_param update_generator thi lam x n o p) = Ok y ->
  exists xs, length xs = (n * thin)%nat /\ successive (update_hidden thi lam) x xs /\ (forall m, nth_error (y_pp y) m = option_map fst (nth_error xs (m * thin))) /\ y_sp y = snd (last xs x) /\
  ((1 <= n)%nat -> last_opt (y_pp y) = option_map fst (nth_error (x :: xs) ((n - 1) * thin + 1))).
Proof. exact @sw_iterate_states. Qed.
Print Assumptions C74_kept.
(** C74 fails with thinning 2, the default: updates that keep particle and sampler together, and a run after which they differ. *)
Theorem C74_thinning_refuted : exists (upd : R -> mat -> nat * nat -> M (nat * nat)) par gen o l fin y,
  (forall thi lam x, fst x = snd x -> returns (upd thi lam x) (fun x' => fst x' = snd x')) /\
  fst (sw_em_loop 1 0 2 upd par gen 1 None 1 0 (fun _ _ => 0) [0%nat] 0%nat o 0%nat) = Ok (l, fin) /\ nth_error l 0 = Some y /\ last_opt (y_pp y) = Some 1%nat /\ y_sp y = 2%nat.
Proof. exact out_of_step. Qed.
Print Assumptions C74_thinning_refuted.
Example C74_example : obs_grid sw_t sw_v (last sw_t 0) /\ (4 <= length sw_t)%nat /\ 1 < 2 /\ expm_exact la0 /\ (forall Q, generator 2 Q -> pos_off 2 Q -> solve_ok la0 2 (stat_matrix Q) stat_rhs) /\ exists o, valid o /\ generic o.
Proof. split; [exact sw_grid|]. split; [apply le_n|]. split; [lra|]. exact (conj la0_expm (conj la0_solve_all generic_exists)). Qed.

(** C75: once update_objective has filled the seeds, the objective draws no more random numbers and
    always returns, at every parameter: a fixed function for the optimiser. *)
Theorem C75_ito : forall fuel mp maxp reduce disc log_lik log_prior t vt, StronglySorted Rlt t -> (2 <= length t)%nat -> length vt = length t ->
  forall n omes thi zz, (1 <= n)%nat -> (forall i, valid (omes i)) -> Forall (fun z => length z = (length t - 1)%nat /\ Forall standard z) zz ->
  returns_if generic (ito_update_objective fuel mp maxp reduce disc log_lik log_prior t vt n omes thi zz) (fun f => forall thi', exists v, length v = length zz /\ forall o k, f thi' o k = (Ok v, k)).
Proof. exact ito_objective_det. Qed.
Print Assumptions C75_ito.
Theorem C75_switching : forall fuel mp maxp vol disc loglik log_prior n omes thi zz hh, (1 <= n)%nat -> (forall i, valid (omes i)) ->
  Forall2 (fun z h => anch_ok h /\ length (a_t h) = S (length z) /\ Forall standard z) zz hh ->
  returns_if generic (sw_update_objective fuel mp maxp vol disc loglik log_prior n omes thi zz hh) (fun f => forall thi' restrict, exists v, length v = length zz /\ forall o k, f thi' restrict o k = (Ok v, k)).
Proof. exact sw_objective_det. Qed.
Print Assumptions C75_switching.
Example C75_example : StronglySorted Rlt sw_t /\ length sw_v = length sw_t /\ Forall2 (fun z h => anch_ok h /\ length (a_t h) = S (length z) /\ Forall standard z) [em_z] [sw_h] /\
  Forall (fun z => length z = (length sw_t - 1)%nat /\ Forall standard z) [removelast em_z].
Proof. exact em_demo. Qed.

(** C76: the objectives of the regimes add up to the joint one, for the package's likelihood. *)
Theorem C76_sum : forall fuel mp maxp vol disc loglik dim dv f thi z h supp, anch_ok h -> all_prepared (np_diff (a_t h)) supp z -> Forall (fun y => (y < dim)%nat) (a_y h) ->
  (forall r, fst (loglik thi h r) = fst (eval_biased_log_lik (vol thi) dv (pointwise f) h r)) ->
  exists v vr, det (sw_est_log_aug_lik fuel mp maxp vol disc loglik thi z h supp None) v /\
    (forall r, det (sw_est_log_aug_lik fuel mp maxp vol disc loglik thi z h supp (Some r)) (vr r)) /\ rsum dim (fun r => fst (vr r)) = fst v.
Proof. exact est_sum. Qed.
Print Assumptions C76_sum.
(** C76: the objective of a regime depends on that regime's parameters only. *)
Theorem C76_local : forall fuel mp maxp vol disc loglik thi thi' z h supp r, anch_ok h -> all_prepared (np_diff (a_t h)) supp z ->
  vol thi r = vol thi' r -> (forall x, disc thi r x = disc thi' r x) -> fst (loglik thi h (Some r)) = fst (loglik thi' h (Some r)) ->
  exists v v', det (sw_est_log_aug_lik fuel mp maxp vol disc loglik thi z h supp (Some r)) v /\ det (sw_est_log_aug_lik fuel mp maxp vol disc loglik thi' z h supp (Some r)) v' /\ fst v = fst v'.
Proof. exact est_local. Qed.
Print Assumptions C76_local.
(** both for the function handed to the optimiser: its values for one regime depend on the parameters of that regime only (and on the prior) ... *)
Theorem C76_objective_local : forall fuel mp maxp vol disc loglik log_prior n omes thi zz hh, (1 <= n)%nat -> (forall i, valid (omes i)) ->
  Forall2 (fun z h => anch_ok h /\ length (a_t h) = S (length z) /\ Forall standard z) zz hh ->
  returns_if generic (sw_update_objective fuel mp maxp vol disc loglik log_prior n omes thi zz hh) (fun f => forall thi1 thi2 r,
    vol thi1 r = vol thi2 r -> (forall x, disc thi1 r x = disc thi2 r x) -> (forall h, In h hh -> fst (loglik thi1 h (Some r)) = fst (loglik thi2 h (Some r))) ->
    exists v1 v2, det (f thi1 r) v1 /\ det (f thi2 r) v2 /\ Forall2 (fun x1 x2 => x1 - log_prior thi1 = x2 - log_prior thi2) v1 v2).
Proof. exact objective_local. Qed.
Print Assumptions C76_objective_local.
(** ... and add up, over the regimes, to the joint objective of every particle plus one prior per regime *)
Theorem C76_objective_sum : forall fuel mp maxp vol disc loglik log_prior dim dv g n omes thi zz hh, (1 <= n)%nat -> (forall i, valid (omes i)) ->
  Forall2 (fun z h => anch_ok h /\ length (a_t h) = S (length z) /\ Forall standard z) zz hh -> Forall (fun h => Forall (fun y => (y < dim)%nat) (a_y h)) hh ->
  (forall thi' h r, fst (loglik thi' h r) = fst (eval_biased_log_lik (vol thi') dv (pointwise g) h r)) ->
  returns_if generic (sw_update_objective fuel mp maxp vol disc loglik log_prior n omes thi zz hh) (fun f => exists jobs : list (partition * anchorage * list (list R)), map (fun q => snd (fst q)) jobs = hh /\
    forall thi', exists v joint, (forall r, det (f thi' r) (v r) /\ length (v r) = length hh) /\
      Forall2 (fun q x => let '(z, h, u) := q in exists w, det (sw_est_log_aug_lik fuel mp maxp vol disc loglik thi' z h u None) w /\ x = fst w) jobs joint /\
      forall i, (i < length hh)%nat -> rsum dim (fun r => nth i (v r) 0) = nth i joint 0 + INR dim * log_prior thi').
Proof. exact objective_sum. Qed.
Print Assumptions C76_objective_sum.
Example C76_example : anch_ok sw_h /\ all_prepared (np_diff (a_t sw_h)) [[1/2]; [1/4]; [1/4]; [1/2]] em_z /\ Forall (fun y => (y < 2)%nat) (a_y sw_h).
Proof. exact em_demo_supp. Qed.
