(** Property theorems C97, C98 and C99: est_aug_lik, est_se, fill_wiener_vector. *)
From Coquelicot Require Import Hierarchy Derive Continuity AutoDerive RInt RInt_analysis.
From Coq Require Import Reals List Bool Arith Lra Lia Sorted.
From Verif Require Import Base Np Rng M_mjp M_hit M_path SpecPath M_skel M_seed SpecSeed M_inf M_sw M_adapt M_mcem SpecEm M_est SpecLaw SpecGauss SpecEst L_est L_est2 L_est3 L_est4 Mat.
Import ListNotations.
Local Open Scope R_scope.

(** C97: [seed_est_with] is the estimate of the code with the interpolation of skeletons left open *)
Theorem C97_instance : forall fuel mp mx norm denorm s disc bounds o k,
  seed_est_coin fuel mp mx norm denorm s disc bounds o k = seed_est_with (interpolate_skeleton fuel mp mx) norm denorm s disc bounds o k.
Proof. exact est_instance. Qed.
Print Assumptions C97_instance.
(** C97: on a known path the estimate of one segment has mean exp(- integral of the discrepancy) *)
Theorem C97_segment : forall path norm denorm disc bounds s T scale x0 x1 v, operators norm denorm T scale x0 x1 -> estimable path disc bounds s T scale x0 x1 v ->
  average (seed_est_with (pinned path) norm denorm s disc bounds) (fun r => exp_of (fst (fst r)) * exp (snd (fst r))) (exp (- v)).
Proof. exact segment_law. Qed.
Print Assumptions C97_segment.
(** C97: est_aug_lik of ito *)
Theorem C97_ito : forall path reduce disc bounds log_lik t vt thi z s0 n (v : nat -> R),
  (0 < n)%nat -> length z = n -> length t = S n -> length vt = S n ->
  (forall i, (i < n)%nat -> let dt := nth (S i) t 0 - nth i t 0 in
     estimable path (disc thi) (bounds thi) (nth i z s0) dt (sqrt dt) (reduce thi (nth i vt 0)) (reduce thi (nth (S i) vt 0)) (v i)) ->
  average (ito_aug_with (seed_est_with (pinned path)) reduce disc bounds log_lik t vt thi z) (fun r => exp_of (fst r)) (exp (log_lik thi - Mat.rsum n v)).
Proof. exact ito_aug_law. Qed.
Print Assumptions C97_ito.
(** C97: est_aug_lik of switching; segments of other regimes than the selected one do not count *)
Theorem C97_switching : forall path vol disc bounds loglik thi z h restrict s0 n (v : nat -> R),
  (0 < n)%nat -> length z = n -> length (a_t h) = S n -> length (a_y h) = S n -> length (a_v h) = S n ->
  (forall i, (i < n)%nat -> selected restrict (nth i (a_y h) 0%nat) = true -> let dt := nth (S i) (a_t h) 0 - nth i (a_t h) 0 in let y := nth i (a_y h) 0%nat in
     estimable path (disc thi y) (bounds thi y) (nth i z s0) dt (sqrt dt * vol thi y) (nth i (a_v h) 0) (nth (S i) (a_v h) 0) (v i)) ->
  average (sw_aug_with (seed_est_with (pinned path)) vol disc bounds loglik thi z h restrict) (fun r => exp_of (fst r))
    (exp (fst (loglik thi h restrict) + snd (loglik thi h restrict) - Mat.rsum n (fun i => if selected restrict (nth i (a_y h) 0%nat) then v i else 0))).
Proof. exact sw_aug_law. Qed.
Print Assumptions C97_switching.
Example C97_example : forall s, estimable (fun _ _ => 0) (fun x => x) (fun _ _ => (0, 0, Fin 2)) s 1 1 0 1 (1 / 2).
Proof.
  intros s. split; [lra|]. split.
  - apply (is_RInt_ext (fun u : R => u)).
    + intros u _. assert (E : u = segment_path (fun _ _ => 0) s 1 1 0 1 u) by (unfold segment_path, path_at; field). exact E.
    + replace (1 / 2) with (minus (1 ^ 2 / 2) (0 ^ 2 / 2)) by (unfold minus, plus, opp; cbn; lra). apply (is_RInt_derive (fun u : R => u ^ 2 / 2) (fun u : R => u)).
      * intros u _. auto_derive; [exact Logic.I|field].
      * intros u _. apply continuous_id.
  - exists 0, 0, 2. split; [reflexivity|]. split; [lra|]. intros u Hu. unfold segment_path, path_at. lra.
Qed.
(** C97 fails when the discrepancy has no finite upper bound where the seed runs: the estimate of
    the log-likelihood is then -inf, whatever is drawn, so that the estimated likelihood is 0 *)
Theorem C97_ito_infinite_refuted : forall fuel mp mx reduce disc bounds log_lik t vt thi z s0 i inf le,
  (i < length z)%nat -> (S i < length t)%nat -> (S i < length vt)%nat ->
  (let dt := nth (S i) t 0 - nth i t 0 in let x0 := reduce thi (nth i vt 0) in let x1 := reduce thi (nth (S i) vt 0) in
   bounds thi (low_z (nth i z s0) * sqrt dt + Rmin x0 x1) (high_z (nth i z s0) * sqrt dt + Rmax x0 x1) = (inf, le, PosInf)) ->
  returns (ito_est_aug_lik fuel mp mx reduce disc bounds log_lik t vt thi z) (fun r => fst r = None).
Proof. exact ito_infinite. Qed.
Print Assumptions C97_ito_infinite_refuted.
Theorem C97_switching_infinite_refuted : forall fuel mp mx vol disc bounds loglik thi z h restrict s0 i inf le,
  (i < length z)%nat -> (S i < length (a_t h))%nat -> (S i < length (a_v h))%nat -> (S i < length (a_y h))%nat -> selected restrict (nth i (a_y h) 0%nat) = true ->
  (let dt := nth (S i) (a_t h) 0 - nth i (a_t h) 0 in let y := nth i (a_y h) 0%nat in let x0 := nth i (a_v h) 0 in let x1 := nth (S i) (a_v h) 0 in
   bounds thi y (low_z (nth i z s0) * (sqrt dt * vol thi y) + Rmin x0 x1) (high_z (nth i z s0) * (sqrt dt * vol thi y) + Rmax x0 x1) = (inf, le, PosInf)) ->
  returns (sw_est_aug_lik fuel mp mx vol disc bounds loglik thi z h restrict) (fun r => fst r = None).
Proof. exact sw_infinite. Qed.
Print Assumptions C97_switching_infinite_refuted.

(** C98: the wrapped objective of est_se evaluates the objective inside the bounds only, and where
    it is asked to when that is inside *)
Theorem C98_wrap : forall A lb ub (f : list R -> M A) x, Forall2 interval lb ub -> length x = length lb ->
  exists y, in_box lb ub y /\ (in_box lb ub x -> y = x) /\ forall o k, wrap lb ub f x o k = f y o k.
Proof. exact wrap_run. Qed.
Print Assumptions C98_wrap.
(** C98: whatever differentiation does with the objective, est_se depends on it inside the bounds only *)
Theorem C98_box : forall hess grad inv lb ub f g thi, Forall2 interval lb ub -> length thi = length lb ->
  (forall x o k, in_box lb ub x -> f x o k = g x o k) ->
  (forall f g, (forall x o k, length x = length thi -> f x o k = g x o k) -> forall o k, hess f thi o k = hess g thi o k) ->
  (forall f g, (forall x o k, length x = length thi -> f x o k = g x o k) -> forall o k, grad f thi o k = grad g thi o k) ->
  forall o k, se_of hess grad inv lb ub f thi o k = se_of hess grad inv lb ub g thi o k.
Proof. exact se_box. Qed.
Print Assumptions C98_box.
(** C98: no standard errors at a bound; nothing is evaluated or drawn *)
Theorem C98_touch : forall hess grad inv lb ub f thi, thi <> [] -> length lb = length thi -> length ub = length thi -> touches lb ub thi ->
  forall o k, se_of hess grad inv lb ub f thi o k = (Ok None, k).
Proof. exact se_touch. Qed.
Print Assumptions C98_touch.
(** C98: variances that are returned are positive *)
Theorem C98_positive : forall hess grad inv lb ub f thi, thi <> [] -> length lb = length thi -> length ub = length thi ->
  returns (se_of hess grad inv lb ub f thi) (fun r => match r with Some se => ~ touches lb ub thi /\ forall i row, nth_error se i = Some row -> 0 < nth i row 0 | None => True end).
Proof. exact se_positive. Qed.
Print Assumptions C98_positive.
Theorem C98_ito : forall hess grad inv fuel mp mx reduce disc log_lik log_prior t vt lb ub buffer n_supports omes thi zz l u, thi <> [] ->
  buffer_bounds lb ub (length thi) buffer = Ok (l, u) -> length l = length thi -> length u = length thi ->
  returns (ito_est_se hess grad inv fuel mp mx reduce disc log_lik log_prior t vt lb ub buffer n_supports omes thi zz)
    (fun r => match r with Some se => ~ touches l u thi /\ forall i row, nth_error se i = Some row -> 0 < nth i row 0 | None => True end).
Proof. exact ito_se_positive. Qed.
Print Assumptions C98_ito.
Theorem C98_switching : forall hess grad inv fuel mp mx vol disc loglik log_prior lb ub buffer n_supports omes thi zz hh,
  returns (sw_est_se hess grad inv fuel mp mx vol disc loglik log_prior lb ub buffer n_supports omes thi zz hh)
    (fun rs => length rs = length thi /\ Forall (fun r => match r with Some se => forall i row, nth_error se i = Some row -> 0 < nth i row 0 | None => True end) rs).
Proof. exact sw_se_positive. Qed.
Print Assumptions C98_switching.
(** C98: regime k of a switching model: the objective of regime k as a function of row k of the
    parameters, the other rows as they are *)
Theorem C98_switching_rows : forall hess grad inv fuel mp mx vol disc loglik log_prior lb ub buffer n_supports omes thi zz hh (F : nat -> list R -> list (list R)),
  (forall k x, (k < length thi)%nat -> replaces thi k x (F k x)) -> forall o n,
  sw_est_se hess grad inv fuel mp mx vol disc loglik log_prior lb ub buffer n_supports omes thi zz hh o n =
  (do b <- lift (buffer_bounds lb ub (length thi) buffer);
   do f <- sw_update_objective fuel mp mx vol disc loglik log_prior n_supports omes thi zz hh;
   map_m (fun k => se_of hess grad inv (fst b) (snd b) (fun x => f (F k x) k) (nth k thi [])) (seq 0 (length thi))) o n.
Proof. exact sw_se_rows. Qed.
Print Assumptions C98_switching_rows.
Example C98_example_rows : replaces [[1; 2]; [3; 4]; [5; 6]] 1 [7; 8] [[1; 2]; [7; 8]; [5; 6]].
Proof. exact replaces_example. Qed.
(** C98: the missing information that est_se subtracts is symmetric and positive semidefinite *)
Theorem C98_missing : forall d g (x : nat -> R), (2 <= length g)%nat ->
  (forall i j, (i < d)%nat -> (j < d)%nat -> entry (np_cov d g) i j = entry (np_cov d g) j i) /\
  0 <= rsum d (fun i => rsum d (fun j => x i * x j * entry (np_cov d g) i j)).
Proof. exact cov_psd. Qed.
Print Assumptions C98_missing.
Example C98_example : Forall2 interval [Fin 0; NegInf] [Fin 1; PosInf] /\ in_box [Fin 0; NegInf] [Fin 1; PosInf] [1 / 2; 7] /\ touches [Fin 0; NegInf] [Fin 1; PosInf] [1; 7] /\
  ~ in_box [Fin 0; NegInf] [Fin 1; PosInf] [2; 7].
Proof.
  split; [|split; [|split]].
  - repeat constructor; cbn; try lra; discriminate.
  - repeat constructor; cbn; try lra.
  - exists 0%nat, 1. split; [reflexivity|]. right. reflexivity.
  - intros H. inversion H; subst. cbn in *. lra.
Qed.
(** C98 fails for difference steps that leave the bounds: the wrapped objective is flat there, and
    the slope of a linear objective is found by central differences exactly for the smaller steps *)
Theorem C98_step_refuted : forall l u x h c, l < x < u -> 0 < h -> c <> 0 -> exists a b,
  (forall o k, wrap [Fin l] [Fin u] (fun y => ret (c * nth 0 y 0)) [x + h] o k = (Ok a, k)) /\
  (forall o k, wrap [Fin l] [Fin u] (fun y => ret (c * nth 0 y 0)) [x - h] o k = (Ok b, k)) /\
  ((a - b) / (2 * h) = c <-> h <= x - l /\ h <= u - x).
Proof. exact step_slope. Qed.
Print Assumptions C98_step_refuted.
(** C98 fails for switching models without bounds, whose rows have another length than there are
    regimes: est_se passes the number of regimes as the number of parameters *)
Theorem C98_regimes_refuted : forall hess grad inv fuel mp mx vol disc loglik log_prior buffer n_supports omes thi zz hh row o k,
  nth_error thi 0 = Some row -> length row <> length thi ->
  forall r, fst (sw_est_se hess grad inv fuel mp mx vol disc loglik log_prior None None buffer n_supports omes thi zz hh o k) <> Ok r.
Proof. exact sw_se_regimes. Qed.
Print Assumptions C98_regimes_refuted.

(** C99: within one interval of the grid, fill_wiener_vector inserts the new times in order, keeps
    the values there are, and returns the positions of the new ones *)
Theorem C99_insert : forall t x new_t j, StronglySorted Rlt t -> 0 <= nth 0 t 0 -> length x = length t -> new_t <> [] -> StronglySorted Rlt new_t -> in_gap t j new_t ->
  forall o k, exists row k', fill_wiener_vector t x new_t o k =
    (Ok (firstn (S j) t ++ new_t ++ skipn (S j) t, firstn (S j) x ++ row ++ skipn (S j) x, seq (S j) (length new_t)), k') /\ length row = length new_t.
Proof. exact fill_ok. Qed.
Print Assumptions C99_insert.
(** C99: the new values are jointly those of a Brownian bridge between the neighbours *)
Theorem C99_law : forall t x new_t j th, StronglySorted Rlt t -> 0 <= nth 0 t 0 -> length x = length t -> new_t <> [] -> StronglySorted Rlt new_t -> in_gap t j new_t ->
  average (fill_wiener_vector t x new_t)
    (fun r => exp (rsum (length new_t) (fun i => th i * nth (nth i (snd r) 0%nat) (snd (fst r)) 0)))
    (gaussian_mgf (length new_t) (fun i => nth j x 0 + (nth (S j) x 0 - nth j x 0) * (nth i new_t 0 - nth j t 0) / (nth (S j) t 0 - nth j t 0))
       (fun i i' => (Rmin (nth i new_t 0) (nth i' new_t 0) - nth j t 0) * (nth (S j) t 0 - Rmax (nth i new_t 0) (nth i' new_t 0)) / (nth (S j) t 0 - nth j t 0)) th).
Proof. exact fill_law. Qed.
Print Assumptions C99_law.
Example C99_example : StronglySorted Rlt [0; 1; 3] /\ 0 <= nth 0 [0; 1; 3] 0 /\ StronglySorted Rlt [3 / 2; 2] /\ in_gap [0; 1; 3] 1 [3 / 2; 2].
Proof. split; [|split; [|split; [|split]]]; cbn; try lia; try lra; repeat constructor; lra. Qed.
(** C99 fails for every other set of new times: spread over several intervals, on the grid or empty *)
Theorem C99_spread_refuted : forall t x new_t o k r k', StronglySorted Rlt t -> fill_wiener_vector t x new_t o k = (Ok r, k') -> exists j, in_gap t j new_t /\ new_t <> [].
Proof. exact fill_only. Qed.
Print Assumptions C99_spread_refuted.
Example C99_example_spread : StronglySorted Rlt [0; 1; 3] /\ ~ exists j, in_gap [0; 1; 3] j [1 / 2; 2].
Proof.
  split; [repeat constructor; lra|]. intros (j & L & F). inversion F; subst. inversion H2; subst. cbn in L. destruct j as [|[|j]]; cbn in *; try lia; lra.
Qed.
