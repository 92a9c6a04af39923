(** Property theorems C04-C12 (simulation part), C69 and C70. *)
From Coq Require Import Reals List ZArith Bool Arith Lia Lra Sorted Permutation.
From Verif Require Import Base Np Rng Mat M_mjp SpecMjp SpecLin L_list L_path L_part L_path2 L_rng L_mat L_sim L_race
  L_bridge L_unif L_bridge2 L_bridge3 L_mutate L_prop L_prop2 L_ppp L_stat L_lindemo L_simdemo L_demo.
Import ListNotations.
Local Open Scope R_scope.

(** C04: forward simulation. *)
Theorem C04_forwards_well_formed : forall L fuel fin_t init dim gen,
  0 < fin_t -> (forall x, init = Some x -> (x < dim)%nat) ->
  returns (sample_forwards L fuel fin_t init dim gen)
    (fun s => wf_skel s /\ sk_fin s = fin_t /\ Forall (fun i => (i < dim)%nat) (sk_x s) /\
      (forall x, init = Some x -> initial_state s x) /\
      (init = None -> exists p x, get_stat L dim gen = Some p /\ initial_state s x /\ 0 < p x)).
Proof. exact (fun L fuel fin_t init dim gen H1 H2 => proj1 (returns_any _ _) (sample_forwards_spec anyo L fuel fin_t init dim gen H1 H2)). Qed.
Print Assumptions C04_forwards_well_formed.
(** C04: with non-negative rates it never raises, whatever the draws. *)
Theorem C04_forwards_never_raises : forall L fuel fin_t dim gen i,
  (2 <= dim)%nat -> generator dim gen -> pos_off dim gen -> 0 < fin_t -> (i < dim)%nat ->
  safe (sample_forwards L fuel fin_t (Some i) dim gen)
    (fun s => (wf_skel s /\ sk_fin s = fin_t /\ Forall (fun j => (j < dim)%nat) (sk_x s)) /\ initial_state s i).
Proof. exact (fun L fuel fin_t dim gen i H1 H2 _ H4 H5 => proj1 (safe_any _ _) (forwards_ok L dim gen H1 H2 anyo fuel fin_t i H4 H5)). Qed.
Print Assumptions C04_forwards_never_raises.
(** C04: it stops after at most fin_t / d + 1 jumps when every clock runs at least d. *)
Theorem C04_forwards_terminates : forall L d fuel fin_t dim gen i,
  0 < d -> (2 <= dim)%nat -> (forall a b, (a < dim)%nat -> (b < dim)%nat -> a <> b -> 0 <= gen a b) -> (i < dim)%nat ->
  fin_t < INR fuel * d ->
  forall o k, valid o -> (forall k' sc, d <= ora_r o k' (DExp sc)) ->
  exists s, fst (sample_forwards L (S fuel) fin_t (Some i) dim gen o k) = Ok s.
Proof. exact forwards_term. Qed.
Print Assumptions C04_forwards_terminates.
(** C04: a horizon that is not positive gives an empty skeleton (no initial state). *)
Theorem C04_forwards_empty : forall L fuel fin_t x dim gen, fin_t <= 0 ->
  total (sample_forwards L (S fuel) fin_t (Some x) dim gen) (fun s => s = mk_skel [] [] fin_t).
Proof. exact (fun L fuel fin_t x dim gen H => proj1 (total_any _ _) (sample_forwards_empty anyo L fuel fin_t x dim gen H)). Qed.
Print Assumptions C04_forwards_empty.
Example C04_example : (2 <= 2)%nat /\ generator 2 gen2 /\ pos_off 2 gen2 /\ 0 < 3 /\ (1 < 2)%nat /\
  (exists o, valid o /\ forall k sc, 1 <= ora_r o k (DExp sc)) /\ 3 < INR 4 * 1.
Proof.
  split; [lia|]. split; [exact gen2_generator|]. split; [exact gen2_pos|]. split; [lra|]. split; [lia|]. split.
  - exists (oracle_of script_generic). split; [exact (oracle_of_valid _ script_generic_ok)|]. simpl; intros; lra.
  - simpl; lra.
Qed.

(** C70: every jump of a forward path is the first of competing exponential clocks. *)
Theorem C70_forwards_competing_clocks : forall L fuel fin_t x0 dim gen o k s,
  (2 <= dim)%nat -> pos_off dim gen -> (x0 < dim)%nat ->
  fst (sample_forwards L fuel fin_t (Some x0) dim gen o k) = Ok s ->
  forall m tm xm, nth_error (sk_t s) m = Some tm -> nth_error (sk_x s) m = Some xm ->
  (* the clock of state j during the m-th sojourn: a fresh exponential draw of rate gen[xm, j] *)
  let c j := ora_r o (k + m * (dim - 1) + (if Nat.ltb j xm then j else j - 1)) (DExp (1 / gen xm j)) in
  match nth_error (sk_t s) (S m), nth_error (sk_x s) (S m) with
  | Some t', Some x' => (x' < dim)%nat /\ x' <> xm /\ t' = tm + c x' /\ (forall j, (j < dim)%nat -> j <> xm -> c x' <= c j)
  | None, None => forall j, (j < dim)%nat -> j <> xm -> fin_t <= tm + c j
  | _, _ => False
  end.
Proof. exact forwards_clocks. Qed.
Print Assumptions C70_forwards_competing_clocks.
Example C70_example : exists s, fst (sample_forwards la0 5 3 (Some 0%nat) 2 gen2 (oracle_of script_generic) 0%nat) = Ok s.
Proof. exact (forwards_term la0 1 4 3 2 gen2 0%nat Rlt_0_1 (le_n 2) (proj1 gen2_generator) Nat.lt_0_2 ltac:(simpl; lra) (oracle_of script_generic) 0%nat (oracle_of_valid _ script_generic_ok) ltac:(simpl; intros; lra)). Qed.

(** C05: bridges hit both endpoints (for every draw with non-zero uniforms). *)
Theorem C05_bridge_endpoints : forall L dim gen fin_t fuel i f,
  generator dim gen -> (exists a, (a < dim)%nat /\ gen a a < 0) -> 0 < fin_t -> expm_exact L ->
  (i < dim)%nat -> (f < dim)%nat -> 0 < get_trans L dim fin_t gen i f ->
  safe_if uniform_pos (sample_bridge L fuel fin_t i f dim gen) (bridge_path dim fin_t i f).
Proof. exact (fun L dim gen fin_t fuel i f H1 H2 H3 H4 => bridge_pos_ok L dim gen fin_t H1 H2 H3 H4 fuel i f). Qed.
Print Assumptions C05_bridge_endpoints.
(** C05: with pairwise distinct uniforms the jump times are strictly increasing. *)
Theorem C05_bridge_well_formed : forall L dim gen fin_t fuel i f,
  generator dim gen -> (exists a, (a < dim)%nat /\ gen a a < 0) -> 0 < fin_t -> expm_exact L ->
  (i < dim)%nat -> (f < dim)%nat -> 0 < get_trans L dim fin_t gen i f ->
  safe_if generic (sample_bridge L fuel fin_t i f dim gen)
    (fun s => wf_skel s /\ sk_fin s = fin_t /\ Forall (fun j => (j < dim)%nat) (sk_x s) /\ initial_state s i /\ final_state s f).
Proof. exact (fun L dim gen fin_t fuel i f H1 H2 H3 H4 => bridge_generic_ok L dim gen fin_t H1 H2 H3 H4 fuel i f). Qed.
Print Assumptions C05_bridge_well_formed.
(** C05: the only other outcome, for any draws, is the constant path; it needs a zero
    uniform or a final state that cannot be reached. *)
Theorem C05_bridge_every_outcome : forall L dim gen fin_t fuel i f o k s,
  generator dim gen -> (exists a, (a < dim)%nat /\ gen a a < 0) -> 0 < fin_t -> expm_exact L ->
  valid o -> (i < dim)%nat -> (f < dim)%nat ->
  fst (sample_bridge L fuel fin_t i f dim gen o k) = Ok s ->
  bridge_path dim fin_t i f s \/
  (i <> f /\ s = mk_skel [0] [i] fin_t /\ (ora_r o k (DUniform 0 1) = 0 \/ get_trans L dim fin_t gen i f = 0)).
Proof. exact (fun L dim gen fin_t fuel i f o k s H1 H2 H3 H4 => bridge_all L dim gen fin_t H1 H2 H3 H4 fuel i f o k s). Qed.
Print Assumptions C05_bridge_every_outcome.
Theorem C05_backwards : forall L dim gen fin_t fuel f,
  generator dim gen -> (exists a, (a < dim)%nat /\ gen a a < 0) -> 0 < fin_t -> expm_exact L -> (f < dim)%nat ->
  safe_if uniform_pos (sample_backwards L fuel fin_t f dim gen)
    (fun s => exists i, (i < dim)%nat /\ bridge_path dim fin_t i f s) /\
  safe_if generic (sample_backwards L fuel fin_t f dim gen)
    (fun s => wf_skel s /\ sk_fin s = fin_t /\ Forall (fun j => (j < dim)%nat) (sk_x s) /\ final_state s f).
Proof. exact (fun L dim gen fin_t fuel f H1 H2 H3 H4 => backwards_gen_ok L dim gen fin_t H1 H2 H3 H4 fuel f). Qed.
Print Assumptions C05_backwards.
(** C05 for every documented uniform, including 0.0: refuted. *)
Theorem C05_zero_uniform_refuted : exists o s, valid o /\
  fst (sample_bridge la0 1 1 0 1 2 gen2 o 0%nat) = Ok s /\ final_state s 0%nat /\ ~ final_state s 1%nat.
Proof. exact bridge_zero_uniform. Qed.
Print Assumptions C05_zero_uniform_refuted.
Example C05_example : generator 2 gen2 /\ (exists a, (a < 2)%nat /\ gen2 a a < 0) /\ expm_exact la0 /\
  0 < get_trans la0 2 1 gen2 0%nat 1%nat /\ exists o, valid o /\ generic o /\ uniform_pos o.
Proof.
  split; [exact gen2_generator|]. split; [exists 0%nat; split; [lia|simpl; lra]|]. split; [exact la0_expm|].
  split; [exact exp_gen2_pos|]. destruct generic_exists as (o & V & G). exists o. exact (conj V (conj G (proj1 G))).
Qed.

(** C06 *)
Theorem C06_discrete_chain_stochastic : forall dim gen,
  generator dim gen -> (exists a, (a < dim)%nat /\ gen a a < 0) -> stochastic dim (dtrans dim gen).
Proof. exact (fun dim gen H1 H2 => dtrans_stochastic dim gen H1 (neg_rate dim gen H2)). Qed.
Print Assumptions C06_discrete_chain_stochastic.
Theorem C06_choice_vectors : forall dim gen m cur f pows,
  generator dim gen -> (exists a, (a < dim)%nat /\ gen a a < 0) ->
  (exists n, (S m <= n)%nat /\ pows = map (mpow dim (dtrans dim gen)) (seq 0 (S n))) ->
  (cur < dim)%nat -> (f < dim)%nat -> 0 < mpow dim (dtrans dim gen) (S m) cur f ->
  is_prob_vector (bridge_probs dim (dtrans dim gen) pows m cur f) = true /\
  forall j, (j < dim)%nat -> 0 < nth j (bridge_probs dim (dtrans dim gen) pows m cur f) 0 ->
    0 < mpow dim (dtrans dim gen) m j f.
Proof. exact choice_vector. Qed.
Print Assumptions C06_choice_vectors.
(** C06: hence no call of sample_bridge raises, for any draws, and every call returns. *)
Theorem C06_bridge_never_raises : forall L dim gen fin_t fuel i f o k e,
  generator dim gen -> (exists a, (a < dim)%nat /\ gen a a < 0) -> 0 < fin_t -> expm_exact L ->
  valid o -> (i < dim)%nat -> (f < dim)%nat ->
  fst (sample_bridge L fuel fin_t i f dim gen o k) <> Raise e.
Proof. exact (fun L dim gen fin_t fuel i f o k e H1 H2 H3 H4 => bridge_noraise L dim gen fin_t H1 H2 H3 H4 fuel i f o k e). Qed.
Print Assumptions C06_bridge_never_raises.
Theorem C06_bridge_terminates : forall L dim gen fin_t i f o k,
  generator dim gen -> (exists a, (a < dim)%nat /\ gen a a < 0) -> 0 < fin_t -> expm_exact L ->
  valid o -> (i < dim)%nat -> (f < dim)%nat ->
  exists fuel0, forall fuel, (fuel0 <= fuel)%nat -> exists s, fst (sample_bridge L fuel fin_t i f dim gen o k) = Ok s.
Proof. exact (fun L dim gen fin_t i f o k H1 H2 H3 H4 => bridge_term L dim gen fin_t H1 H2 H3 H4 i f o k). Qed.
Print Assumptions C06_bridge_terminates.
Example C06_example : 0 < mpow 2 (dtrans 2 gen2) 2 0%nat 1%nat /\
  is_prob_vector (bridge_probs 2 (dtrans 2 gen2) (map (mpow 2 (dtrans 2 gen2)) (seq 0 3)) 1 0 1) = true.
Proof.
  assert (H : 0 < mpow 2 (dtrans 2 gen2) 2 0%nat 1%nat) by exact gen2_power.
  split; [exact H|]. apply choice_vector; auto; [exact gen2_generator|exists 0%nat; split; [lia|simpl; lra]|exists 2%nat; auto].
Qed.

(** C69: the number of transitions of the uniformised chain is drawn by exact inversion of
    its conditional distribution function F. *)
Theorem C69_n_trans_inverse_cdf : forall L dim gen fin_t fuel i f o k n l k',
  generator dim gen -> 0 < rate_bound dim gen -> 0 < fin_t -> expm_exact L ->
  valid o -> (i < dim)%nat -> (f < dim)%nat -> 0 < get_trans L dim fin_t gen i f ->
  sample_n_trans fuel dim (dtrans dim gen) (rate_bound dim gen) fin_t (get_trans L dim fin_t gen) i f o k = (Ok (n, l), k') ->
  let lam := rate_bound dim gen * fin_t in
  let v := ora_r o k (DUniform 0 1) in
  let F m := rsum m (fun j => exp (- lam) * (lam ^ j / INR (fact j)) * mpow dim (dtrans dim gen) j i f) / get_trans L dim fin_t gen i f in
  v <= F (S n) /\ (forall m, (m <= n)%nat -> (0 < m)%nat -> F m < v) /\
  l = map (mpow dim (dtrans dim gen)) (seq 0 (S n)).
Proof. exact (fun L dim gen fin_t fuel i f o k n l k' H1 H2 H3 H4 => sample_n_trans_exact L dim gen fin_t H1 H2 H3 H4 fuel i f o k n l k'). Qed.
Print Assumptions C69_n_trans_inverse_cdf.
(** F is a distribution function: it increases to 1. *)
Theorem C69_n_trans_cdf_total : forall L dim gen fin_t i f,
  generator dim gen -> 0 < rate_bound dim gen -> 0 < fin_t -> expm_exact L ->
  (i < dim)%nat -> (f < dim)%nat -> 0 < get_trans L dim fin_t gen i f ->
  let lam := rate_bound dim gen * fin_t in
  Un_cv (fun m => rsum (S m) (fun j => exp (- lam) * (lam ^ j / INR (fact j)) * mpow dim (dtrans dim gen) j i f)
                  / get_trans L dim fin_t gen i f) 1.
Proof. exact (fun L dim gen fin_t i f H1 H2 H3 H4 => n_trans_cdf_lim L dim gen fin_t H1 H2 H4 i f). Qed.
Print Assumptions C69_n_trans_cdf_total.
Example C69_example : 0 < rate_bound 2 gen2 /\ 0 < get_trans la0 2 1 gen2 0%nat 1%nat.
Proof.
  split; [|exact exp_gen2_pos]. apply neg_rate. exists 0%nat. split; [lia|simpl; lra].
Qed.

(** C07: mutation keeps durations and boundary states. *)
Theorem C07_mutate_keeps_boundaries : forall L dim gen fuel (ps : list (skel R)),
  (2 <= dim)%nat -> generator dim gen -> pos_off dim gen -> expm_exact L ->
  (2 <= length ps)%nat -> Forall timed ps -> Forall (fun s => Forall (fun i => (i < dim)%nat) (sk_x s)) ps ->
  safe_if generic (mutate_partition L fuel ps dim gen)
    (fun ps' => length ps' = length ps /\
       forall k p p', nth_error ps k = Some p -> nth_error ps' k = Some p' ->
         wf_skel p' /\ sk_fin p' = sk_fin p /\ Forall (fun i => (i < dim)%nat) (sk_x p') /\
         ((0 < k)%nat -> forall x, initial_state p x -> initial_state p' x) /\
         ((S k < length ps)%nat -> forall x, final_state p x -> final_state p' x)).
Proof. exact mutate_pieces. Qed.
Print Assumptions C07_mutate_keeps_boundaries.
(** C07: partition at conditioning times, mutate, paste: same state at every conditioning time. *)
Theorem C07_proposal_keeps_states : forall L dim gen fuel (s : skel R) cond,
  (2 <= dim)%nat -> generator dim gen -> pos_off dim gen -> expm_exact L ->
  wf_skel s -> Forall (fun i => (i < dim)%nat) (sk_x s) ->
  StronglySorted Rlt cond -> (forall b, In b cond -> 0 < b < sk_fin s) -> cond <> [] ->
  safe_if generic (do ps <- mutate_partition L fuel (partition_skeleton s cond) dim gen; lift (paste_partition ps))
    (fun s' => wf_skel s' /\ sk_fin s' = sk_fin s /\ Forall (fun i => (i < dim)%nat) (sk_x s') /\
       forall b i, In b cond -> (state_at s b i <-> state_at s' b i)).
Proof. exact (fun L dim gen fuel s cond H1 H2 H3 H4 => proposal_ok L dim gen H1 H2 H3 H4 fuel s cond). Qed.
Print Assumptions C07_proposal_keeps_states.
Theorem C07_proposal_without_conditioning : forall L dim gen fuel (s : skel R),
  (2 <= dim)%nat -> generator dim gen -> pos_off dim gen ->
  solve_ok L dim (stat_matrix gen) stat_rhs -> 0 < sk_fin s ->
  safe (do ps <- mutate_partition L fuel (partition_skeleton s []) dim gen; lift (paste_partition ps))
    (fun s' => wf_skel s' /\ sk_fin s' = sk_fin s /\ Forall (fun i => (i < dim)%nat) (sk_x s')).
Proof. exact proposal_fresh_safe. Qed.
Print Assumptions C07_proposal_without_conditioning.
Example C07_example : wf_skel demo /\ Forall (fun i => (i < 2)%nat) (sk_x demo) /\ StronglySorted Rlt [1/2; 1; 5/2] /\
  (forall b, In b [1/2; 1; 5/2] -> 0 < b < sk_fin demo) /\ solve_ok la0 2 (stat_matrix gen2) stat_rhs /\
  Forall timed [demo; demo2].
Proof.
  split; [exact demo_wf|]. split; [simpl; repeat constructor|]. split; [repeat constructor; lra|].
  split; [intros b H; in_cases H; simpl; lra|]. split; [exact la0_solve|]. exact (Forall_cons _ demo_timed (Forall_cons _ demo2_timed (Forall_nil _))).
Qed.

(** C08 *)
Theorem C08_batches_deliver_all_points : forall b0 bs intensity m o k,
  0 < b0 -> Forall (fun b => 0 < b) bs -> 0 < intensity -> (0 < m)%nat -> valid o ->
  exists bts, fst (sample_batch_ppp intensity (b0 :: bs) m o k) = Ok bts /\
    length (concat bts) = ora_n o k (DPoisson (intensity * fold_right Rmult 1 (b0 :: bs))) /\
    (forall i b, nth_error bts i = Some b -> (1 <= length b <= m)%nat /\ ((S i < length bts)%nat -> length b = m)) /\
    Forall (fun pt => exists t r, pt = t :: r /\ 0 <= t /\ Forall2 (fun b u => 0 <= u < b) bs r) (concat bts) /\
    StronglySorted Rle (map (hd 0) (concat bts)).
Proof. exact batch_ppp_points. Qed.
Print Assumptions C08_batches_deliver_all_points.
Example C08_example : 0 < 2 /\ Forall (fun b => 0 < b) [1; 3] /\ 0 < 5 /\ (0 < 4)%nat.
Proof. repeat split; try lra; try lia. repeat constructor; lra. Qed.

(** C09: refuted; it holds for a single batch, and in general up to the number of batches. *)
Theorem C09_batches_in_bounds_refuted : exists o bts pt, valid o /\ fst (sample_batch_ppp 1 [1] 1 o 0%nat) = Ok bts /\
  In pt (concat bts) /\ 1 < hd 0 pt.
Proof. exact ppp_out_of_bounds. Qed.
Print Assumptions C09_batches_in_bounds_refuted.
Theorem C09_bound_times_batches : forall b0 bs intensity m o k bts,
  0 < b0 -> Forall (fun b => 0 < b) bs -> 0 < intensity -> (0 < m)%nat -> valid o ->
  fst (sample_batch_ppp intensity (b0 :: bs) m o k) = Ok bts ->
  Forall (fun pt => 0 <= hd 0 pt <= INR (length bts) * b0) (concat bts) /\
  ((ora_n o k (DPoisson (intensity * fold_right Rmult 1%R (b0 :: bs))%R) <= m)%nat -> Forall (fun pt => 0 <= hd 0 pt <= b0) (concat bts)).
Proof. exact batch_ppp_bound. Qed.
Print Assumptions C09_bound_times_batches.

(** C10 *)
Theorem C10_ppp_points : forall intensity bound o k,
  0 < intensity -> bound <> [] -> Forall (fun b => 0 < b) bound -> valid o ->
  exists pts rows, fst (sample_ppp intensity bound o k) = Ok pts /\
    length rows = ora_n o k (DPoisson (intensity * fold_right Rmult 1 bound)) /\
    (forall r c b, (r < length rows)%nat -> nth_error bound c = Some b ->
       exists row, nth_error rows r = Some row /\ length row = length bound /\
         nth_error row c = Some (ora_r o (S k + r * length bound + c) (DUniform 0 b))) /\
    Permutation pts rows /\ StronglySorted Rle (map (hd 0) pts) /\
    Forall (Forall2 (fun b u => 0 <= u < b) bound) pts.
Proof. exact sample_ppp_ok. Qed.
Print Assumptions C10_ppp_points.
Example C10_example : 0 < 1/2 /\ [1; 3] <> [] /\ Forall (fun b => 0 < b) [1; 3].
Proof. repeat split; try lra; try discriminate. repeat constructor; lra. Qed.

(** C11 *)
Theorem C11_stat_system : forall dim gen x, (1 <= dim)%nat -> (forall i, (i < dim)%nat -> rsum dim (gen i) = 0) ->
  (solves dim (stat_matrix gen) x stat_rhs <-> (rsum dim x = 1 /\ stationary dim gen x)).
Proof. exact (fun dim gen x H1 H2 => stat_system dim gen H1 H2 x). Qed.
Print Assumptions C11_stat_system.
Theorem C11_nonsingular_iff_unique : forall dim gen x0, (1 <= dim)%nat -> (forall i, (i < dim)%nat -> rsum dim (gen i) = 0) ->
  rsum dim x0 = 1 -> stationary dim gen x0 ->
  (nonsingular dim (stat_matrix gen) <->
   (forall x, rsum dim x = 1 -> stationary dim gen x -> forall i, (i < dim)%nat -> x i = x0 i)).
Proof. exact (fun dim gen x0 H1 H2 => stat_unique dim gen H1 H2 x0). Qed.
Print Assumptions C11_nonsingular_iff_unique.
(** with positive rates get_stat succeeds and returns a probability vector *)
Theorem C11_get_stat_positive : forall L dim gen, (1 <= dim)%nat -> (forall i, (i < dim)%nat -> rsum dim (gen i) = 0) ->
  pos_off dim gen -> solve_ok L dim (stat_matrix gen) stat_rhs ->
  exists p, get_stat L dim gen = Some p /\ rsum dim p = 1 /\ (forall i, (i < dim)%nat -> 0 < p i) /\ stationary dim gen p.
Proof. exact (fun L dim gen H1 H2 H3 => get_stat_prob dim gen H1 H2 H3 L). Qed.
Print Assumptions C11_get_stat_positive.
Theorem C11_forwards_from_stationary : forall L fuel fin_t dim gen, 0 < fin_t -> (2 <= dim)%nat ->
  generator dim gen -> pos_off dim gen -> solve_ok L dim (stat_matrix gen) stat_rhs ->
  safe (sample_forwards L fuel fin_t None dim gen)
    (fun s => wf_skel s /\ sk_fin s = fin_t /\ Forall (fun i => (i < dim)%nat) (sk_x s)).
Proof. exact forwards_stat_ok. Qed.
Print Assumptions C11_forwards_from_stationary.
Example C11_example : (forall i, (i < 2)%nat -> rsum 2 (gen2 i) = 0) /\ pos_off 2 gen2 /\ solve_ok la0 2 (stat_matrix gen2) stat_rhs.
Proof. exact (conj (proj2 gen2_generator) (conj gen2_pos la0_solve)). Qed.

(** C12 (simulation part) *)
Theorem C12_trial_generator : forall dim,
  total (sample_trial_generator dim) (fun Q => generator dim Q /\ pos_off dim Q).
Proof. exact trial_generator_ok. Qed.
Print Assumptions C12_trial_generator.
