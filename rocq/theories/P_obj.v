(** Property theorems C116: the Monte-Carlo objective of the M-step is unbiased. *)
From Coquelicot Require Import Hierarchy Derive Continuity AutoDerive RInt RInt_analysis.
From Coq Require Import Reals List Bool Arith Lra Lia.
From Verif Require Import Base Np Rng M_mjp M_hit M_path M_skel M_seed SpecSeed M_models M_inf M_sw M_adapt M_mcem SpecLaw SpecEst SpecObj L_itodemo L_swdemo L_obj L_obj2 L_obj3 L_obj4 Mat.
Import ListNotations.
Local Open Scope R_scope.

(** C116: the programs below are those of the code with the interpolation of skeletons left open *)
Theorem C116_ito_instance : forall fuel mp mx reduce disc log_lik t vt thi z supp_t o k,
  ito_est_log_aug_lik fuel mp mx reduce disc log_lik t vt thi z supp_t o k = ito_log_with (interpolate_skeleton fuel mp mx) reduce disc log_lik t vt thi z supp_t o k.
Proof. exact ito_log_instance. Qed.
Print Assumptions C116_ito_instance.
Theorem C116_switching_instance : forall fuel mp mx vol disc loglik thi z h supp_t restrict o k,
  sw_est_log_aug_lik fuel mp mx vol disc loglik thi z h supp_t restrict o k = sw_log_with (interpolate_skeleton fuel mp mx) vol disc loglik thi z h supp_t restrict o k.
Proof. exact sw_log_instance. Qed.
Print Assumptions C116_switching_instance.
Theorem C116_objective_instance : forall fuel mp mx reduce disc log_lik log_prior t vt n omes thi zz o k,
  ito_update_objective fuel mp mx reduce disc log_lik log_prior t vt n omes thi zz o k = ito_objective_with (interpolate_skeleton fuel mp mx) reduce disc log_lik log_prior t vt n omes thi zz o k.
Proof. exact ito_objective_instance. Qed.
Print Assumptions C116_objective_instance.
Theorem C116_switching_objective_instance : forall fuel mp mx vol disc loglik log_prior n omes thi zz hh o k,
  sw_update_objective fuel mp mx vol disc loglik log_prior n omes thi zz hh o k = sw_objective_with (interpolate_skeleton fuel mp mx) vol disc loglik log_prior n omes thi zz hh o k.
Proof. exact sw_objective_instance. Qed.
Print Assumptions C116_switching_objective_instance.

(** C116: on known paths the estimate of ito has mean log-likelihood minus the integral of the
    discrepancy, for any number m >= 1 of support times per segment *)
Theorem C116_ito : forall path reduce disc log_lik t vt thi z s0 n m (v : nat -> R),
  (0 < m)%nat -> (0 < n)%nat -> length z = n -> length t = S n -> length vt = S n ->
  (forall i, (i < n)%nat -> let dt := nth (S i) t 0 - nth i t 0 in
     integral_along path (disc thi) (nth i z s0) dt (sqrt dt) (reduce thi (nth i vt 0)) (reduce thi (nth (S i) vt 0)) (v i)) ->
  average (do supp_t <- map_m (supports m) (np_diff t); ito_log_with (pinned path) reduce disc log_lik t vt thi z supp_t) fst (log_lik thi - Mat.rsum n v).
Proof. exact ito_log_law. Qed.
Print Assumptions C116_ito.
(** C116: the same for switching; segments of other regimes than the selected one do not count *)
Theorem C116_switching : forall path vol disc loglik thi z h restrict s0 m (v : nat -> R), (0 < m)%nat -> matches z h ->
  (forall i, (i < length z)%nat -> selected restrict (nth i (a_y h) 0%nat) = true -> let dt := nth (S i) (a_t h) 0 - nth i (a_t h) 0 in let y := nth i (a_y h) 0%nat in
     integral_along path (disc thi y) (nth i z s0) dt (sqrt dt * vol thi y) (nth i (a_v h) 0) (nth (S i) (a_v h) 0) (v i)) ->
  average (do supp_t <- map_m (supports m) (np_diff (a_t h)); sw_log_with (pinned path) vol disc loglik thi z h supp_t restrict) fst
    (fst (loglik thi h restrict) - Mat.rsum (length z) (fun i => if selected restrict (nth i (a_y h) 0%nat) then v i else 0)).
Proof. exact sw_log_law. Qed.
Print Assumptions C116_switching.
(** C116: what update_objective returns, built at thi and evaluated at thi', has for each imputation j
    the mean log-likelihood minus integral plus log-prior, all at thi' *)
Theorem C116_objective : forall path reduce disc log_lik log_prior t vt thi thi' zz omes j s0 n m (v : nat -> R),
  (0 < m)%nat -> (0 < n)%nat -> Forall (fun z => length z = n) zz -> length t = S n -> length vt = S n -> (j < length zz)%nat ->
  (forall i, (i < n)%nat -> let dt := nth (S i) t 0 - nth i t 0 in
     integral_along path (disc thi') (nth i (nth j zz []) s0) dt (sqrt dt) (reduce thi' (nth i vt 0)) (reduce thi' (nth (S i) vt 0)) (v i)) ->
  average (do f <- ito_objective_with (pinned path) reduce disc log_lik log_prior t vt m omes thi zz; f thi') (fun l => nth j l 0) (log_lik thi' - Mat.rsum n v + log_prior thi').
Proof. exact ito_objective_law. Qed.
Print Assumptions C116_objective.
Theorem C116_switching_objective : forall path vol disc loglik log_prior thi thi' restrict zz hh omes j h0 s0 m (v : nat -> R), (0 < m)%nat -> Forall2 matches zz hh -> (j < length zz)%nat ->
  (let z := nth j zz [] in let h := nth j hh h0 in forall i, (i < length z)%nat -> nth i (a_y h) 0%nat = restrict -> let dt := nth (S i) (a_t h) 0 - nth i (a_t h) 0 in
     integral_along path (disc thi' restrict) (nth i z s0) dt (sqrt dt * vol thi' restrict) (nth i (a_v h) 0) (nth (S i) (a_v h) 0) (v i)) ->
  average (do f <- sw_objective_with (pinned path) vol disc loglik log_prior m omes thi zz hh; f thi' restrict) (fun l => nth j l 0)
    (fst (loglik thi' (nth j hh h0) (Some restrict)) - Mat.rsum (length (nth j zz [])) (fun i => if Nat.eqb (nth i (a_y (nth j hh h0)) 0%nat) restrict then v i else 0) + log_prior thi').
Proof. exact sw_objective_law. Qed.
Print Assumptions C116_switching_objective.

(** C116: what the M-step maximises, the average of the objective over the imputations, has the mean
    that it stands for *)
Theorem C116_ito_mstep : forall path reduce disc log_lik log_prior t vt thi thi' zz omes s0 n m (v : nat -> nat -> R),
  (0 < m)%nat -> (0 < n)%nat -> (0 < length zz)%nat -> Forall (fun z => length z = n) zz -> length t = S n -> length vt = S n ->
  (forall j i, (j < length zz)%nat -> (i < n)%nat -> let dt := nth (S i) t 0 - nth i t 0 in
     integral_along path (disc thi') (nth i (nth j zz []) s0) dt (sqrt dt) (reduce thi' (nth i vt 0)) (reduce thi' (nth (S i) vt 0)) (v j i)) ->
  average (do f <- ito_objective_with (pinned path) reduce disc log_lik log_prior t vt m omes thi zz; f thi') np_mean
    (Mat.rsum (length zz) (fun j => log_lik thi' - Mat.rsum n (v j) + log_prior thi') / INR (length zz)).
Proof. exact ito_mean_law. Qed.
Print Assumptions C116_ito_mstep.
Theorem C116_switching_mstep : forall path vol disc loglik log_prior thi thi' restrict zz hh omes h0 s0 m (v : nat -> nat -> R), (0 < m)%nat -> (0 < length zz)%nat -> Forall2 matches zz hh ->
  (forall j i, (j < length zz)%nat -> let z := nth j zz [] in let h := nth j hh h0 in (i < length z)%nat -> nth i (a_y h) 0%nat = restrict -> let dt := nth (S i) (a_t h) 0 - nth i (a_t h) 0 in
     integral_along path (disc thi' restrict) (nth i z s0) dt (sqrt dt * vol thi' restrict) (nth i (a_v h) 0) (nth (S i) (a_v h) 0) (v j i)) ->
  average (do f <- sw_objective_with (pinned path) vol disc loglik log_prior m omes thi zz hh; f thi' restrict) np_mean
    (Mat.rsum (length zz) (fun j => let h := nth j hh h0 in fst (loglik thi' h (Some restrict)) -
       Mat.rsum (length (nth j zz [])) (fun i => if Nat.eqb (nth i (a_y h) 0%nat) restrict then v j i else 0) + log_prior thi') / INR (length zz)).
Proof. exact sw_mean_law. Qed.
Print Assumptions C116_switching_mstep.

(** C116: on known paths the variance of the estimate is that of one support time per segment, divided
    by the number m of support times *)
Theorem C116_ito_variance : forall path reduce disc log_lik t vt thi z s0 n m (v q : nat -> R),
  (0 < m)%nat -> (0 < n)%nat -> length z = n -> length t = S n -> length vt = S n ->
  (forall i, (i < n)%nat -> let dt := nth (S i) t 0 - nth i t 0 in
     integral_along path (disc thi) (nth i z s0) dt (sqrt dt) (reduce thi (nth i vt 0)) (reduce thi (nth (S i) vt 0)) (v i) /\
     integral_along path (fun x => disc thi x ^ 2) (nth i z s0) dt (sqrt dt) (reduce thi (nth i vt 0)) (reduce thi (nth (S i) vt 0)) (q i)) ->
  average (do supp_t <- map_m (supports m) (np_diff t); ito_log_with (pinned path) reduce disc log_lik t vt thi z supp_t) (fun r => (fst r - (log_lik thi - Mat.rsum n v)) ^ 2)
    (Mat.rsum n (fun i => (nth (S i) t 0 - nth i t 0) * q i - v i ^ 2) / INR m).
Proof. exact ito_log_var. Qed.
Print Assumptions C116_ito_variance.
Theorem C116_switching_variance : forall path vol disc loglik thi z h restrict s0 m (v q : nat -> R), (0 < m)%nat -> matches z h ->
  (forall i, (i < length z)%nat -> selected restrict (nth i (a_y h) 0%nat) = true -> let dt := nth (S i) (a_t h) 0 - nth i (a_t h) 0 in let y := nth i (a_y h) 0%nat in
     integral_along path (disc thi y) (nth i z s0) dt (sqrt dt * vol thi y) (nth i (a_v h) 0) (nth (S i) (a_v h) 0) (v i) /\
     integral_along path (fun x => disc thi y x ^ 2) (nth i z s0) dt (sqrt dt * vol thi y) (nth i (a_v h) 0) (nth (S i) (a_v h) 0) (q i)) ->
  let on i x := if selected restrict (nth i (a_y h) 0%nat) then x else 0 in
  average (do supp_t <- map_m (supports m) (np_diff (a_t h)); sw_log_with (pinned path) vol disc loglik thi z h supp_t restrict)
    (fun r => (fst r - (fst (loglik thi h restrict) - Mat.rsum (length z) (fun i => on i (v i)))) ^ 2)
    (Mat.rsum (length z) (fun i => on i ((nth (S i) (a_t h) 0 - nth i (a_t h) 0) * q i - v i ^ 2)) / INR m).
Proof. exact sw_log_var. Qed.
Print Assumptions C116_switching_variance.

(** a path from 0 to 1 over two time units, along which the discrepancy x has integral 1 *)
Example C116_example : forall s, integral_along (fun _ _ => 0) (fun x => x) s 2 (sqrt 2) 0 1 1.
Proof.
  intros s. split; [lra|]. apply (is_RInt_ext (fun u : R => u / 2)).
  - intros u _. assert (E : u / 2 = segment_path (fun _ _ => 0) s 2 (sqrt 2) 0 1 u) by (unfold segment_path, path_at; field). exact E.
  - replace 1 with (minus (2 ^ 2 / 4) (0 ^ 2 / 4)) by (unfold minus, plus, opp; cbn; lra). apply (is_RInt_derive (fun u : R => u ^ 2 / 4) (fun u : R => u / 2)).
    + intros u _. auto_derive; [exact Logic.I|field].
    + intros u _. apply (continuous_mult (K := R_AbsRing) (fun u : R => u) (fun _ => / 2)); [apply continuous_id|apply continuous_const].
Qed.
(** and the square of x has integral 2/3 *)
Example C116_example_square : forall s, integral_along (fun _ _ => 0) (fun x => x ^ 2) s 2 (sqrt 2) 0 1 (2 / 3).
Proof.
  intros s. split; [lra|]. apply (is_RInt_ext (fun u : R => u ^ 2 / 4)).
  - intros u _. assert (E : u ^ 2 / 4 = segment_path (fun _ _ => 0) s 2 (sqrt 2) 0 1 u ^ 2) by (unfold segment_path, path_at; field). exact E.
  - replace (2 / 3) with (minus (2 ^ 3 / 12) (0 ^ 3 / 12)) by (unfold minus, plus, opp; cbn; lra). apply (is_RInt_derive (fun u : R => u ^ 3 / 12) (fun u : R => u ^ 2 / 4)).
    + intros u _. auto_derive; [exact Logic.I|field].
    + intros u _. apply (ex_derive_continuous (fun u : R => u ^ 2 / 4)). auto_derive. exact Logic.I.
Qed.
Example C116_example_switching : matches (repeat raw_demo 4) sw_h.
Proof. unfold matches. cbn. repeat (split; [lia|]). intros i Hi. destruct i as [|[|[|[|i]]]]; cbn; try lia; lra. Qed.
