(** Property theorems C56-C60, C77 and C78: augmented states, weights and decisions of the switching sampler. *)
From Coquelicot Require Import Hierarchy RInt.
From Coq Require Import Reals List Bool Arith ZArith Lia Lra Sorted Permutation.
From Coq Require Import Floats.SpecFloat.
From Verif Require Import Base Np Rng Mat M_mjp M_inf M_bf M_adapt M_path M_skel M_seed M_models M_sw M_chain SpecMjp SpecLin SpecInf SpecBf SpecSkel SpecSeed SpecSw SpecChain
  L_rng L_f64 L_inf2 L_lindemo L_sw L_sw2 L_sw7 L_sw8 L_sw9 L_sw10 L_sw11 L_sw12 L_sw13 L_sw14 L_step3 L_swdemo L_itodemo L_anch L_demo L_gibbs SpecPath.
Import ListNotations.
Local Open Scope R_scope.

(** C56: cutting a state at any times and pasting the pieces gives the state back; what the pieces look like. *)
Theorem C56_split_paste : forall {Z} (z : list Z) (h : anchorage) new_t, hd_error (a_t h) = Some 0 -> z <> [] ->
  length (a_t h) = S (length z) -> length (a_y h) = S (length z) -> length (a_v h) = S (length z) ->
  let '(zp, hp) := split_hidden z h new_t in
  paste_hidden zp hp = Ok (z, h) /\ length zp = length hp /\
  length hp = S (length (filter (fun u => np_isin u new_t) (pyslice (a_t h) 1 (-1)))) /\
  (forall k zz hh, nth_error zp k = Some zz -> nth_error hp k = Some hh ->
     zz <> [] /\ length (a_t hh) = S (length zz) /\ length (a_y hh) = S (length zz) /\ length (a_v hh) = S (length zz) /\ hd_error (a_t hh) = Some 0) /\
  (forall k h1 h2, nth_error hp k = Some h1 -> nth_error hp (S k) = Some h2 ->
     last_opt (a_y h1) = hd_error (a_y h2) /\ last_opt (a_v h1) = hd_error (a_v h2) /\ last_opt (a_y h1) <> None).
Proof. exact @split_facts. Qed.
Print Assumptions C56_split_paste.
Example C56_example : hd_error (a_t sw_h) = Some 0 /\ length (a_t sw_h) = 5%nat /\ length (a_y sw_h) = 5%nat /\ length (a_v sw_h) = 5%nat.
Proof. repeat split. Qed.
(** C56: in binary64 pasting does not give the times back: after cutting at an inner time and pasting,
    a later time of the state is gone, and the next cut at that time finds one section less than a
    fresh augmentation with the same times. *)
Theorem C56_binary64_refuted : exists (h h' : anch F64) (z : list nat) (b u : F64),
  a_t h = [n0; b; u; f_one] /\ nltb n0 b = true /\ nltb b u = true /\ nltb u f_one = true /\ length z = 3%nat /\ length (a_y h) = 4%nat /\ length (a_v h) = 4%nat /\
  Forall (fun f => valid_binary 53 1024 f = true) (a_t h) /\
  (let '(zp, hp) := split_hidden z h [b] in paste_hidden zp hp = Ok (z, h')) /\
  np_isin u (a_t h) = true /\ np_isin u (a_t h') = false /\ length (snd (split_hidden z h' [u])) = 1%nat /\ length (snd (split_hidden z h [u])) = 2%nat.
Proof. exact split_binary64. Qed.
Print Assumptions C56_binary64_refuted.

(** C57: for all bounds, volatilities, paths, data and draws the augmented state carries the data and the path. *)
Theorem C57_sample_aug : forall dim fuel mp maxp lb ub vol y t vt,
  obs_grid t vt (M_mjp.sk_fin y) -> wf_skel y -> Forall (fun s => (s < dim)%nat) (M_mjp.sk_x y) ->
  returns (sample_aug fuel mp maxp lb ub vol y t vt) (fun r => hidden_ok dim t vt y (snd r) (length (fst r))).
Proof. exact aug_hidden. Qed.
Print Assumptions C57_sample_aug.
(** and on unbounded spaces every seed is a standard seed on [0, 1] from 0 to 0 *)
Theorem C57_seeds : forall dim fuel mp maxp vol y t vt,
  obs_grid t vt (M_mjp.sk_fin y) -> wf_skel y -> Forall (fun s => (s < dim)%nat) (M_mjp.sk_x y) -> (0 < maxp)%nat -> (forall y, (y < dim)%nat -> 0 < vol y) ->
  returns_if generic (sample_aug fuel mp maxp NegInf PosInf vol y t vt) (fun r => Forall (fun s => standard s /\ ends 1 0 0 s) (fst r)).
Proof. exact aug_seeds. Qed.
Print Assumptions C57_seeds.
(** the values at the regime changes between two observations: the Brownian bridge run on the
    clock V of the accumulated squared volatility, from one observation to the next *)
Theorem C57_anchor_law : forall vol (s : M_mjp.skel R) a b n, timed s -> (forall y, In y (M_mjp.sk_x s) -> 0 < vol y) ->
  length (M_mjp.sk_t s) = S (S n) ->
  exists (V : nat -> R) X m c, V 0%nat = 0 /\
    (forall k, (k <= S n)%nat -> V (S k) = V k + (nth (S k) (M_mjp.sk_t s ++ [M_mjp.sk_fin s]) 0 - nth k (M_mjp.sk_t s ++ [M_mjp.sk_fin s]) 0) * vol (nth k (M_mjp.sk_x s) 0%nat) ^ 2) /\
    (forall o k, sample_anchors vol (M_mjp.sk_t s) (M_mjp.sk_x s) (M_mjp.sk_fin s) a b o k = (Ok (a :: X (normals o k (S n))), (k + S n)%nat)) /\
    gaussian (S n) X m c /\
    forall i j, (i < S n)%nat -> (j < S n)%nat ->
      nth i m 0 = a + (b - a) * V (S i) / V (S (S n)) /\
      entry c i j = Rmin (V (S i)) (V (S j)) * (V (S (S n)) - Rmax (V (S i)) (V (S j))) / V (S (S n)).
Proof. exact anchors_gaussian. Qed.
Print Assumptions C57_anchor_law.
Example C57_anchor_example : timed demo /\ (forall y, In y (M_mjp.sk_x demo) -> 0 < INR y + 1) /\ length (M_mjp.sk_t demo) = 3%nat.
Proof. split; [exact (proj1 demo_wf)|]. split; [intros y _; pose proof (pos_INR y); lra|reflexivity]. Qed.
Example C57_example : obs_grid sw_t sw_v (M_mjp.sk_fin sw_y) /\ wf_skel sw_y /\ Forall (fun s => (s < 2)%nat) (M_mjp.sk_x sw_y) /\ off_grid sw_t sw_y.
Proof. exact (conj sw_grid (conj sw_y_wf (conj sw_y_dim sw_off))). Qed.

(** C58: one update of the hidden state, from any state that carries the data and the sampler's
    path, with any coins, volatilities and likelihoods and any generators of the jobs. *)
Theorem C58_update_hidden : forall L dim fuel mp maxp lb ub vol disc bounds loglik batch precoin pr maxf t vt opt decay air lam omes sp z h,
  obs_grid t vt (last t 0) -> (4 <= length t)%nat -> (2 <= dim)%nat -> generator dim lam -> pos_off dim lam -> expm_exact L -> solve_ok L dim (stat_matrix lam) stat_rhs ->
  (forall i, valid (omes i)) -> hidden_ok dim t vt (rw_state sp) h (length z) ->
  returns_if generic (update_hidden L fuel mp maxp lb ub vol disc bounds loglik batch precoin pr maxf t vt opt decay air dim lam omes sp z h)
    (fun r => let '((y', _), (z', h', sp')) := r in
       hidden_ok dim t vt (rw_state sp') h' (length z') /\ (off_grid t (rw_state sp) -> off_grid t y' -> off_grid t (rw_state sp'))).
Proof. exact update_hidden_ok. Qed.
Print Assumptions C58_update_hidden.
Example C58_example_update : obs_grid sw_t sw_v (last sw_t 0) /\ generator 2 gen2 /\ pos_off 2 gen2 /\ expm_exact la0 /\ solve_ok la0 2 (stat_matrix gen2) stat_rhs /\
  (exists o, valid o /\ generic o) /\ hidden_ok 2 sw_t sw_v (rw_state (rw_init sw_y 0 0)) sw_h 4.
Proof. exact (conj sw_grid (conj gen2_generator (conj gen2_pos (conj la0_expm (conj la0_solve (conj generic_exists sw_hidden)))))). Qed.
(** C58: every iterate of sample_posterior, for every number of iterations. *)
Theorem C58_sample_posterior : forall L dim fuel mp maxp vol disc bounds grad log_prior loglik batch precoin pr maxf t vt opt decay air alp bet (okrow : list R -> Prop),
  obs_grid t vt (last t 0) -> (4 <= length t)%nat -> (2 <= dim)%nat -> hyper dim (Rlt 0) alp -> hyper dim (Rlt 0) bet -> expm_exact L ->
  (forall Q, generator dim Q -> pos_off dim Q -> solve_ok L dim (stat_matrix Q) stat_rhs) -> (0 < maxp)%nat ->
  (forall thi, length thi = dim -> Forall okrow thi -> forall y, (y < dim)%nat -> 0 < vol thi y) ->
  forall init ins, okrow init -> Forall (inputs_ok okrow) ins ->
  returns_if generic (sample_posterior L dim fuel mp maxp NegInf PosInf vol disc bounds grad log_prior loglik batch precoin pr maxf t vt opt decay air alp bet init ins)
    (fun l => length l = length ins /\ Forall (chain_ok dim okrow t vt) l).
Proof. exact posterior_ok. Qed.
Print Assumptions C58_sample_posterior.
Example C58_example_posterior : obs_grid sw_t sw_v (last sw_t 0) /\ (4 <= length sw_t)%nat /\ hyper 2 (Rlt 0) (hyp2 2) /\ expm_exact la0 /\
  (forall Q, generator 2 Q -> pos_off 2 Q -> solve_ok la0 2 (stat_matrix Q) stat_rhs) /\ (exists i, inputs_ok (fun r => r = [1]) i).
Proof. split; [exact sw_grid|]. split; [apply le_n|]. split; [apply hyp2_ok; lra|]. exact (conj la0_expm (conj la0_solve_all sw_inputs)). Qed.

(** C15: the generator of an iteration is drawn given the regime path: shape = prior shape plus
    the number of jumps, rate = prior rate plus the time spent up to the last jump. *)
Theorem C15_gibbs_draw : forall dim t vt y h n alp bet o k, hidden_ok dim t vt y h n -> hyper dim (Rlt 0) alp -> hyper dim (Rlt 0) bet ->
  exists lam k' (rank : nat -> nat -> nat) (hold : nat -> R) tl_, mcmc_update_generator dim h alp bet o k = (Ok lam, k') /\ last_jump y tl_ /\
    (forall i (f : R -> nat), (forall u, 0 <= u < tl_ -> state_at y u (f u)) -> is_RInt (fun u => if Nat.eqb (f u) i then 1 else 0) 0 tl_ (hold i)) /\
    (forall i j i' j', (i < dim)%nat -> (j < dim)%nat -> i <> j -> (i' < dim)%nat -> (j' < dim)%nat -> i' <> j' -> rank i j = rank i' j' -> i = i' /\ j = j') /\
    forall i j a b, (i < dim)%nat -> (j < dim)%nat -> i <> j -> alp i j = Some a -> bet i j = Some b ->
      (k <= rank i j < k')%nat /\ lam i j = Some (ora_r o (rank i j) (DGamma (INR (n_jumps (M_mjp.sk_x y) i j) + a) (1 / (hold i + b)))).
Proof. exact update_generator_draws. Qed.
Print Assumptions C15_gibbs_draw.
Example C15_example_gibbs : hidden_ok 2 sw_t sw_v (rw_state (rw_init sw_y 0 0)) sw_h 4 /\ hyper 2 (Rlt 0) (hyp2 2).
Proof. split; [exact sw_hidden|apply hyp2_ok; lra]. Qed.

(** C59: what update_params returns is, regime by regime, what that regime's section returned. *)
Theorem C59_local : forall fuel mp maxp vol disc grad log_prior loglik batch precoin pr maxf propose omes thi z h accs thi' z',
  (forall i, valid (omes i)) -> (length (a_t h) = S (length z) /\ length (a_y h) = S (length z) /\ length (a_v h) = S (length z)) ->
  update_params fuel mp maxp vol disc grad log_prior loglik batch precoin pr maxf propose omes thi z h = Ok (accs, thi', z') ->
  length accs = length thi /\ length thi' = length thi /\ length z' = length z /\
  (forall j, (j < length z)%nat -> exists i, nth_error (a_y h) j = Some i /\ (i < length thi)%nat) /\
  forall i, (i < length thi)%nat -> exists acc thi_i z_i q lf lb,
    fst (update_params_section fuel mp maxp vol disc grad log_prior loglik batch precoin pr maxf (propose i) thi z h i (omes i) 0%nat) = Ok (acc, thi_i, z_i) /\
    fst (propose i (omes i) 0%nat) = Ok (q, lf, lb) /\
    nth_error accs i = Some acc /\ nth_error thi' i = (if acc : bool then Some q else nth_error thi i) /\
    (forall j, nth_error (a_y h) j = Some i -> (j < length z)%nat -> nth_error z' j = nth_error z_i j) /\
    (forall j, nth_error (a_y h) j <> Some i -> nth_error z_i j = nth_error z j).
Proof. exact update_params_local. Qed.
Print Assumptions C59_local.
(** C59: a section's draws, failures, decision and parameters do not depend on the seeds of intervals
    spent in other regimes, so it flips no coin on them. *)
Theorem C59_own_intervals_only : forall fuel mp maxp vol disc grad log_prior loglik batch precoin pr maxf propose thi h i z1 z2,
  (length (a_t h) = S (length z1) /\ length (a_y h) = S (length z1) /\ length (a_v h) = S (length z1)) -> agree_on h i z1 z2 ->
  alike (fun r r' => fst r = fst r' /\ agree_on h i (snd r) (snd r'))
    (update_params_section fuel mp maxp vol disc grad log_prior loglik batch precoin pr maxf propose thi z1 h i)
    (update_params_section fuel mp maxp vol disc grad log_prior loglik batch precoin pr maxf propose thi z2 h i).
Proof. exact section_alike. Qed.
Print Assumptions C59_own_intervals_only.
(** C59: jobs with their own generators, run in any order, give the results of the ordered run. *)
Theorem C59_any_schedule : forall {A} omes (job : nat -> M A) n order store, Permutation order (seq 0 n) ->
  ((exists l, run_jobs 0 omes (map job (seq 0 n)) = Ok l) <-> (exists st, run_in_order omes job order store = Ok st)) /\
  forall l st, run_jobs 0 omes (map job (seq 0 n)) = Ok l -> run_in_order omes job order store = Ok st ->
    length l = n /\ forall i, (i < n)%nat -> nth_error l i = st i.
Proof. exact @schedule_free. Qed.
Print Assumptions C59_any_schedule.
Example C59_example : agree_on sw_h 1 [1; 2; 3; 4]%nat [8; 9; 3; 4]%nat.
Proof. split; auto. intros [|[|[|[|[|j]]]]]; cbn; intros H; try discriminate; auto; destruct j; discriminate. Qed.

(** C60 *)
Theorem C60_value : forall vol dv f h n, length (a_t h) = S n -> length (a_y h) = S n -> length (a_v h) = S n -> forall restrict,
  fst (eval_biased_log_lik vol dv (pointwise f) h restrict) =
  Mat.rsum n (fun k => if match restrict with Some r => Nat.eqb (nth k (a_y h) 0%nat) r | None => true end then term vol dv f h k else 0).
Proof. exact lik_fst. Qed.
Print Assumptions C60_value.
Theorem C60_decomposes : forall vol dv f dim h n, length (a_t h) = S n -> length (a_y h) = S n -> length (a_v h) = S n -> Forall (fun y => (y < dim)%nat) (a_y h) ->
  Mat.rsum dim (fun r => fst (eval_biased_log_lik vol dv (pointwise f) h (Some r))) = fst (eval_biased_log_lik vol dv (pointwise f) h None).
Proof. exact lik_decomposes. Qed.
Print Assumptions C60_decomposes.
(** the value restricted to a regime depends on that regime's parameters only *)
Theorem C60_local : forall vol vol' dv f f' h n r, length (a_t h) = S n -> length (a_y h) = S n -> length (a_v h) = S n -> vol r = vol' r -> (forall x, f r x = f' r x) ->
  fst (eval_biased_log_lik vol dv (pointwise f) h (Some r)) = fst (eval_biased_log_lik vol' dv (pointwise f') h (Some r)).
Proof. exact lik_local. Qed.
Print Assumptions C60_local.
Example C60_example : length (a_t sw_h) = 5%nat /\ length (a_y sw_h) = 5%nat /\ length (a_v sw_h) = 5%nat /\ Forall (fun y => (y < 2)%nat) (a_y sw_h).
Proof. repeat split. repeat constructor. Qed.
(** the second component: the log density of the observed increments given the regime path, less the
    driftless part of the selected intervals *)
Theorem C60_observed : forall dim t vt y h n, obs_grid t vt (last t 0) -> hidden_ok dim t vt y h n -> off_grid t y -> forall vol dv f restrict,
  snd (eval_biased_log_lik vol dv (pointwise f) h restrict) =
  Mat.rsum (length t - 1) (obs_term vol dv t vt h) -
  Mat.rsum n (fun k => if match restrict with Some r => Nat.eqb (nth k (a_y h) 0%nat) r | None => true end then term vol dv (fun _ _ => 0) h k else 0).
Proof. exact lik_observed. Qed.
Print Assumptions C60_observed.
(** both together: the drift terms of all intervals and the densities of the observed increments *)
Theorem C60_full : forall dim t vt y h n, obs_grid t vt (last t 0) -> hidden_ok dim t vt y h n -> off_grid t y -> forall vol dv f,
  fst (eval_biased_log_lik vol dv (pointwise f) h None) + snd (eval_biased_log_lik vol dv (pointwise f) h None) =
  Mat.rsum n (fun k => let y := nth k (a_y h) 0%nat in (f y (nth (S k) (a_v h) 0) - f y (nth k (a_v h) 0)) / vol y ^ 2) +
  Mat.rsum (length t - 1) (obs_term vol dv t vt h).
Proof. exact lik_full. Qed.
Print Assumptions C60_full.
Example C60_example_hidden : obs_grid sw_t sw_v (last sw_t 0) /\ hidden_ok 2 sw_t sw_v sw_y sw_h 4 /\ off_grid sw_t sw_y.
Proof. split; [exact sw_grid|]. split; [exact sw_hidden|exact sw_off]. Qed.

(** C77: what a section decides, given the proposal and the next uniform *)
Theorem C77_params : forall fuel mp maxp vol disc grad log_prior loglik batch precoin pr maxf propose thi z h i o k q lf lb k1,
  valid o -> propose o k = (Ok (q, lf, lb), k1) ->
  let thi' := list_set thi i q in
  let w' := fst (loglik thi' h (Some i)) + log_prior thi' + lb in
  let w := fst (loglik thi h (Some i)) + log_prior thi + lf in
  let u := ora_r o k1 (DUniform 0 1) in
  let run a b := do r <- sample_twocoin_joint (fun up s => do x <- flip_param_coins fuel mp maxp vol disc grad batch thi thi' s h up i; ret (x, snd x)) (fun s => ret s) a b pr maxf z;
                 let '((acc, _, z'), _) := r in ret (acc, if (acc : bool) then thi' else thi, z') in
  let section := update_params_section fuel mp maxp vol disc grad log_prior loglik batch precoin pr maxf propose thi z h i in
  (precoin = true -> barker_ratio w' w <= u -> section o k = (Ok (false, thi, z), S k1)) /\
  (precoin = true -> u < barker_ratio w' w -> section o k = run 0 0 o (S k1)) /\
  (precoin = false -> section o k = run w' w o k1).
Proof. exact params_decision. Qed.
Print Assumptions C77_params.
Theorem C77_hidden : forall fuel mp maxp vol disc bounds loglik batch precoin pr maxf z h z' h' o k n n',
  valid o -> length z = n -> length (a_t h) = S n -> length (a_y h) = S n -> length (a_v h) = S n ->
  length z' = n' -> length (a_t h') = S n' -> length (a_y h') = S n' -> length (a_v h') = S n' ->
  let w := Mat.rsum n (low_integral vol bounds h z) + (fst (loglik h None) + snd (loglik h None)) in
  let w' := Mat.rsum n' (low_integral vol bounds h' z') + (fst (loglik h' None) + snd (loglik h' None)) in
  let u := ora_r o k (DUniform 0 1) in
  let coins := flip_hidden_coins fuel mp maxp vol disc bounds batch in
  let run a b := do r <- sample_twocoin (fun (first : bool) s => if first then do x <- coins (fst s) h'; ret (x, (snd x, snd s)) else do x <- coins (snd s) h; ret (x, (fst s, snd x))) a b pr z maxf (z', z);
                 let '((acc, _, zz), _) := r in ret (acc, zz, if (acc : bool) then h' else h) in
  let section := update_hidden_section fuel mp maxp vol disc bounds loglik batch precoin pr maxf z h z' h' in
  (precoin = true -> barker_ratio w' w <= u -> section o k = (Ok (false, z, h), S k)) /\
  (precoin = true -> u < barker_ratio w' w -> section o k = run 0 0 o (S k)) /\
  (precoin = false -> section o k = run w' w o k).
Proof. exact hidden_decision. Qed.
Print Assumptions C77_hidden.
Example C77_example : barker_ratio (ln 3) 0 = 3 / 4 /\ exists o, valid o /\ (ret ([1], 0, 0) : M (list R * R * R)) o 0%nat = (Ok ([1], 0, 0), 0%nat).
Proof.
  split; [unfold barker_ratio; rewrite exp_ln, exp_0 by lra; lra|]. destruct generic_exists as (o & V & _). exists o. auto.
Qed.

(** C78: the weight of a hidden state is a function of it; refining its seeds does not change it *)
Theorem C78_hidden_value : forall vol bounds loglik z h n, length z = n -> length (a_t h) = S n -> length (a_y h) = S n -> length (a_v h) = S n ->
  forall o k, eval_hidden_weight vol bounds loglik z h o k = (Ok (Mat.rsum n (low_integral vol bounds h z) + (fst (loglik h None) + snd (loglik h None))), k).
Proof. exact hidden_weight_value. Qed.
Print Assumptions C78_hidden_value.
Theorem C78_hidden_refined : forall vol bounds loglik z z' h n, length z = n -> length (a_t h) = S n -> length (a_y h) = S n -> length (a_v h) = S n -> Forall2 extends z z' ->
  forall o k o' k', fst (eval_hidden_weight vol bounds loglik z h o k) = fst (eval_hidden_weight vol bounds loglik z' h o' k').
Proof. exact hidden_weight_refined. Qed.
Print Assumptions C78_hidden_refined.
Example C78_example : length (repeat raw_demo 4) = 4%nat /\ length (a_t sw_h) = 5%nat /\ length (a_y sw_h) = 5%nat /\ length (a_v sw_h) = 5%nat /\ Forall2 extends (repeat raw_demo 4) (repeat fine_demo 4).
Proof. repeat (split; [reflexivity|]). cbn [repeat]. repeat (apply Forall2_cons; [apply fine_extends|]). apply Forall2_nil. Qed.
