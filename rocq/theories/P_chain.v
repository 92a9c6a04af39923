(** Property theorems C85 and C86: the trail of the two samplers; computations that can succeed. *)
From Coq Require Import Reals List Bool Arith Lia Lra Sorted.
From Verif Require Import Base Np Rng Mat M_mjp M_inf M_bf M_adapt M_hit M_path M_skel M_seed M_models M_sw M_chain M_mcem M_ito SpecHit SpecSkel SpecSeed SpecModels SpecEm SpecIto SpecTrail SpecCan
  L_rng L_itodemo L_can L_can2 L_can3 L_can4 L_trail.
Import ListNotations.
Local Open Scope R_scope.

(** C85 *)
Theorem C85_ito : forall fuel mp maxp lb ub reduce disc bounds grad log_prior loglik batch precoin pr maxf t vt o init ins k l k',
  ito_sample_posterior fuel mp maxp lb ub reduce disc bounds grad log_prior loglik batch precoin pr maxf init t vt ins o k = (Ok l, k') ->
  exists z k1, ito_sample_aug fuel mp maxp lb ub reduce t vt init o k = (Ok z, k1) /\
  trail (fun i s s' => exists k0 sector accept z1 k1 k2,
      ito_params fuel mp maxp reduce disc grad log_prior loglik batch precoin pr maxf (ii_propose i) (fst s) (snd s) t vt o k0
        = (Ok (sector, accept, fst s', z1), k1) /\
      update_sde fuel mp maxp lb ub reduce disc bounds batch pr maxf (ii_omes i) (fst s') z1 t vt o k1 = (Ok (snd s'), k2))
    (init, z) ins l.
Proof. exact ito_trail_start. Qed.
Print Assumptions C85_ito.
Theorem C85_switching : forall L dim fuel mp maxp lb ub vol disc bounds grad log_prior loglik batch precoin pr maxf t vt opt decay air alp bet o,
  forall ins c k l k',
  resume_sampling L dim fuel mp maxp lb ub vol disc bounds grad log_prior loglik batch precoin pr maxf t vt opt decay air alp bet ins c o k = (Ok l, k') ->
  trail (fun i c c' => exists k0 lam k1 acc z1 acc2 k2,
      mcmc_update_generator dim (c_h c) alp bet o k0 = (Ok lam, k1) /\ c_lam c' = mat_of lam /\
      update_params fuel mp maxp vol disc grad log_prior loglik batch precoin pr maxf (in_propose i) (in_params i) (c_thi c) (c_z c) (c_h c)
        = Ok (acc, c_thi c', z1) /\
      update_hidden L fuel mp maxp lb ub (vol (c_thi c')) (disc (c_thi c')) (bounds (c_thi c')) (loglik (c_thi c')) batch precoin pr maxf
        t vt opt decay air dim (c_lam c') (in_hidden i) (c_sp c) z1 (c_h c) o k1 = (Ok (acc2, (c_z c', c_h c', c_sp c')), k2))
    c ins l.
Proof. exact sw_trail. Qed.
Print Assumptions C85_switching.
Theorem C85_switching_start : forall L dim fuel mp maxp lb ub vol disc bounds grad log_prior loglik batch precoin pr maxf t vt opt decay air alp bet o init ins k l k',
  sample_posterior L dim fuel mp maxp lb ub vol disc bounds grad log_prior loglik batch precoin pr maxf t vt opt decay air alp bet init ins o k = (Ok l, k') ->
  exists T y k1 z h k2, last_opt t = Some T /\
    sample_forwards L fuel T None dim (mat_of (get_ev dim alp bet)) o k = (Ok y, k1) /\
    sample_aug fuel mp maxp lb ub (vol (repeat init dim)) y t vt o k1 = (Ok (z, h), k2) /\
    resume_sampling L dim fuel mp maxp lb ub vol disc bounds grad log_prior loglik batch precoin pr maxf t vt opt decay air alp bet ins
      (mk_chain (repeat init dim) (mat_of (get_ev dim alp bet)) z h (rw_init y opt 0)) o k2 = (Ok l, k').
Proof. exact sw_trail_start. Qed.
Print Assumptions C85_switching_start.
(** runs of any length exist, see C86_chain *)

(** C86 *)
Theorem C86_raw : forall mp n t a b lb ub, (0 < mp)%nat -> (0 < n)%nat -> 0 < t -> elt lb (Fin (Rmin a b)) -> elt (Fin (Rmax a b)) ub ->
  feasible (fun fuel => sample_raw_skeleton fuel mp n t a b lb ub)
    (fun s => well_formed s /\ ends t a b s /\ k_tight s < k_loose s /\ elt lb (Fin (k_tight s)) /\ elt (Fin (k_loose s)) ub).
Proof. exact raw_feasible. Qed.
Print Assumptions C86_raw.
Theorem C86_skeleton : forall mp n k T a lb ub endpoint disc bd x, (0 < mp)%nat -> (0 < n)%nat -> 0 < T -> (forall o i, endpoint o i = (Ok x, i)) ->
  inside lb ub a -> inside lb ub x -> spread_skel lb ub bd ->
  feasible (fun fuel => sample_skeleton fuel mp n (S k) T a lb ub endpoint disc bd) (fun s => well_formed s /\ horizon s = T /\ nth 0 (k_x s) 0 = a /\ last (k_x s) 0 = x).
Proof. exact skeleton_feasible. Qed.
Print Assumptions C86_skeleton.
Theorem C86_bridge : forall norm denorm T c x0 x1, operators norm denorm T c x0 x1 -> 0 < T -> 0 < c ->
  forall mp n k lb ub disc bounds, (0 < mp)%nat -> (0 < n)%nat -> inside lb ub x0 -> inside lb ub x1 -> spread lb ub bounds ->
  feasible (fun fuel => sample_seed_bridge fuel mp n (S k) lb ub norm denorm disc bounds) (fun s => standard s /\ ends 1 0 0 s).
Proof. exact bridge_feasible. Qed.
Print Assumptions C86_bridge.
(** the chain can follow every list of moves: sector, proposed value, accepted or not *)
Theorem C86_chain : forall mp maxp reduce disc bounds grad log_prior loglik batch precoin pr maxf t vt, series t vt ->
  (0 < mp)%nat -> (0 < maxp)%nat -> (0 < batch)%nat -> (0 < maxf)%nat ->
  forall moves ins init, length ins = length moves -> Forall live ins -> spread NegInf PosInf (bounds init) ->
  along (fun a b => coins_alive grad t vt a b /\ spread NegInf PosInf (bounds b)) init moves ->
  feasible (fun fuel => ito_sample_posterior fuel mp maxp NegInf PosInf reduce disc bounds grad log_prior loglik batch precoin pr maxf init t vt ins)
    (fun l => map fst l = follow init moves).
Proof. exact chain_feasible. Qed.
Print Assumptions C86_chain.
Theorem C86_ou : forall mp maxp disc log_prior loglik batch precoin pr maxf t vt moves ins init, series t vt ->
  (0 < mp)%nat -> (0 < maxp)%nat -> (0 < batch)%nat -> (0 < maxf)%nat -> not_both_zero vt ->
  length ins = length moves -> Forall live ins -> pos2 init -> along (fun a b => a <> b /\ pos2 b) init moves ->
  feasible (fun fuel => ito_sample_posterior fuel mp maxp NegInf PosInf ou_reduce disc (fun thi => as_bounds (ou_bounds_disc thi)) ou_bounds_grad log_prior loglik batch precoin pr maxf init t vt ins)
    (fun l => map fst l = follow init moves).
Proof. exact ou_chain. Qed.
Print Assumptions C86_ou.
Example C86_example : series ito_t ito_v /\ not_both_zero ito_v /\ (exists i, Forall live [i; i; i]) /\ pos2 [1; 2] /\
  along (fun a b => a <> b /\ pos2 b) [1; 2] [(0%nat, 3, true); (1%nat, 1, false); (1%nat, 5, true)] /\
  follow [1; 2] [(0%nat, 3, true); (1%nat, 1, false); (1%nat, 5, true)] = [[3; 2]; [3; 2]; [3; 5]].
Proof. exact chain_demo. Qed.
