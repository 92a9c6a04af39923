(** Property theorems C77-C83: the sampler of ito/mcmc.py and the forward simulation of ito/static.py. *)
From Coq Require Import Reals List Bool Arith Lia Lra Sorted.
From Verif Require Import Base Np Rng Mat M_mjp M_bf M_path M_skel M_seed M_models M_sw M_mcem M_ito SpecBf SpecSkel SpecSeed SpecEm SpecModels SpecArs SpecIto
  L_rng L_ito L_ito2 L_ito3 L_itodemo.
Import ListNotations.
Local Open Scope R_scope.

(** C77: the decision of update_params.  With the pre-coin the likelihood does not enter it. *)
Theorem C77_ito_params : forall fuel mp maxp reduce disc grad log_prior loglik batch precoin pr maxf propose thi z t vt o k q lf lb k1, valid o -> thi <> [] ->
  let i := ora_n o k (DPick (length thi)) in
  propose i o (S k) = (Ok (q, lf, lb), k1) ->
  let thi' := list_set thi i q in
  let u := ora_r o k1 (DUniform 0 1) in
  let run a b := do r <- sample_twocoin_joint (fun up s => do x <- ito_flip_param_coins fuel mp maxp reduce disc grad batch thi thi' s t vt up; ret (x, snd x)) (fun s => ret s) a b pr maxf z;
                 let '((acc, _, z'), _) := r in ret (i, acc, if (acc : bool) then thi' else thi, z') in
  let update := ito_params fuel mp maxp reduce disc grad log_prior loglik batch precoin pr maxf propose thi z t vt in
  (precoin = true -> barker_ratio (log_prior thi' + lb) (log_prior thi + lf) <= u -> update o k = (Ok (i, false, thi, z), S k1)) /\
  (precoin = true -> u < barker_ratio (log_prior thi' + lb) (log_prior thi + lf) -> update o k = run 0 0 o (S k1)) /\
  (precoin = false -> update o k = run (loglik thi' t vt + log_prior thi' + lb) (loglik thi t vt + log_prior thi + lf) o k1).
Proof. exact ito_params_decision. Qed.
Print Assumptions C77_ito_params.
(** the decision of update_sde_bridge: the two-coin factory with the weights of the proposed and of the current seed *)
Theorem C77_ito_bridge : forall fuel mp maxp reduce disc bounds batch pr maxf i thi zn zp t vt a b v0 v1,
  nth_error t i = Some a -> nth_error t (S i) = Some b -> nth_error vt i = Some v0 -> nth_error vt (S i) = Some v1 ->
  let w s := - (b - a) * low_level (bounds thi) (sqrt (b - a)) (reduce thi v0) (reduce thi v1) s in
  let coin s := do r <- flip_sde_coins fuel mp maxp reduce disc bounds batch thi [s] [0; b - a] [v0; v1]; do q <- only (snd r); ret (fst r, q) in
  forall o k, update_sde_bridge fuel mp maxp reduce disc bounds batch pr maxf i thi zn zp t vt o k =
    (do r <- sample_twocoin (fun (first : bool) s => if first then do x <- coin (fst s); ret (x, (snd x, snd s)) else do x <- coin (snd s); ret (x, (fst s, snd x))) (w zp) (w zn) pr zn maxf (zp, zn);
     ret (snd (fst r))) o k.
Proof. exact bridge_decision. Qed.
Print Assumptions C77_ito_bridge.
Example C77_ito_example : [2; 3] <> [] /\ (exists o, valid o /\ (ret (1, 0, 0) : M (R * R * R)) o 1%nat = (Ok (1, 0, 0), 1%nat)) /\
  nth_error ito_t 1 = Some 1 /\ nth_error ito_t 2 = Some 3 /\ nth_error ito_v 1 = Some 2 /\ nth_error ito_v 2 = Some 1.
Proof. split; [discriminate|]. split; [destruct generic_exists as (o & V & _); exists o; auto|]. repeat split. Qed.

(** C78 *)
Theorem C78_ito_value : forall reduce bounds thi z t vt, S (length z) = length t -> length vt = length t ->
  det (eval_sde_weight reduce bounds thi z t vt) (Mat.rsum (length z) (ito_weight (bounds thi) t (map (reduce thi) vt) z)).
Proof. exact sde_weight_value. Qed.
Print Assumptions C78_ito_value.
Theorem C78_ito_refined : forall reduce bounds thi z z' t vt, S (length z) = length t -> length vt = length t -> Forall2 extends z z' ->
  forall o k o' k', fst (eval_sde_weight reduce bounds thi z t vt o k) = fst (eval_sde_weight reduce bounds thi z' t vt o' k').
Proof. exact sde_weight_refined. Qed.
Print Assumptions C78_ito_refined.
Example C78_ito_example : S (length [raw_demo; raw_demo]) = length ito_t /\ length ito_v = length ito_t /\ Forall2 extends [raw_demo; raw_demo] [fine_demo; fine_demo] /\ raw_demo <> fine_demo.
Proof. repeat (split; [reflexivity|]). split; [repeat (apply Forall2_cons; [apply fine_extends|]); apply Forall2_nil|discriminate]. Qed.

(** C79 *)
Theorem C79_chain : forall fuel mp maxp lb ub reduce disc bounds grad log_prior loglik batch precoin pr maxf t vt, series t vt -> (0 < maxp)%nat ->
  forall (adm : list R -> Prop), (forall thi, adm thi -> forall v, In v vt -> inside lb ub (reduce thi v)) ->
  forall init ins, adm init -> Forall (ito_inputs_ok adm) ins ->
  returns_if generic (ito_sample_posterior fuel mp maxp lb ub reduce disc bounds grad log_prior loglik batch precoin pr maxf init t vt ins)
    (fun l => length l = length ins /\ Forall (fun c => adm (fst c) /\ length (fst c) = length init /\ seeds_ok t (snd c)) l).
Proof. exact ito_posterior_ok. Qed.
Print Assumptions C79_chain.
Example C79_example : series ito_t ito_v /\ (forall thi, positive2 thi -> forall v, In v ito_v -> inside NegInf PosInf (ou_reduce thi v)) /\ positive2 [1; 2] /\ exists i, Forall (ito_inputs_ok positive2) [i; i; i].
Proof.
  split; [exact ito_series|]. split; [intros; apply ou_inside|]. split; [split; [reflexivity|repeat constructor; lra]|]. destruct ito_inputs_exist as [i Hi]. exists i. repeat constructor; apply Hi.
Qed.

(** C80: one coordinate of the parameters is updated, and the seeds only gain points *)
Theorem C80_params : forall fuel mp maxp reduce disc grad log_prior loglik batch precoin pr maxf t vt, series t vt ->
  forall propose thi z o k s acc thi' z' k', valid o -> generic o -> S (length z) = length t -> Forall standard z ->
  ito_params fuel mp maxp reduce disc grad log_prior loglik batch precoin pr maxf propose thi z t vt o k = (Ok (s, acc, thi', z'), k') ->
  (s < length thi)%nat /\ s = ora_n o k (DPick (length thi)) /\
  (exists q lf lb k1, propose s o (S k) = (Ok (q, lf, lb), k1) /\ thi' = (if acc : bool then list_set thi s q else thi)) /\
  Forall standard z' /\ Forall2 extends z z'.
Proof. exact params_ok. Qed.
Print Assumptions C80_params.
(** a bridge update keeps one of the two seeds, possibly with more points *)
Theorem C80_bridge : forall fuel mp maxp reduce disc bounds batch pr maxf t vt, series t vt -> forall i thi zn zp a b v0 v1,
  nth_error t i = Some a -> nth_error t (S i) = Some b -> nth_error vt i = Some v0 -> nth_error vt (S i) = Some v1 -> standard zn -> standard zp ->
  returns_if generic (update_sde_bridge fuel mp maxp reduce disc bounds batch pr maxf i thi zn zp t vt) (fun z => standard z /\ (extends zn z \/ extends zp z)).
Proof. exact bridge_ok. Qed.
Print Assumptions C80_bridge.
(** and depends on the data only through the duration and the two values of its interval *)
Theorem C80_bridge_local : forall fuel mp maxp reduce disc bounds batch pr maxf i thi zn zp t vt j t' vt' a b a' b' v0 v1,
  nth_error t i = Some a -> nth_error t (S i) = Some b -> nth_error vt i = Some v0 -> nth_error vt (S i) = Some v1 ->
  nth_error t' j = Some a' -> nth_error t' (S j) = Some b' -> nth_error vt' j = Some v0 -> nth_error vt' (S j) = Some v1 -> b' - a' = b - a ->
  forall o k, update_sde_bridge fuel mp maxp reduce disc bounds batch pr maxf i thi zn zp t vt o k = update_sde_bridge fuel mp maxp reduce disc bounds batch pr maxf j thi zn zp t' vt' o k.
Proof. exact bridge_local. Qed.
Print Assumptions C80_bridge_local.
Example C80_example : seeds_ok ito_t [raw_demo; fine_demo] /\ Forall standard [raw_demo; fine_demo].
Proof. split; [exact ito_seeds|]. apply Forall_cons; [apply raw_standard|]. apply Forall_cons; [apply fine_standard|]. apply Forall_nil. Qed.

(** C81 *)
Theorem C81_value : forall reduce dv sx thi t vt, length vt = length t ->
  ito_loglik reduce dv sx thi t vt = Mat.rsum (length t - 1) (ito_term (reduce thi) (dv thi) (sx thi) t vt).
Proof. exact ito_loglik_value. Qed.
Print Assumptions C81_value.
Theorem C81_intervals : forall reduce dv sx thi t vt, length vt = length t ->
  ito_loglik reduce dv sx thi t vt = Mat.rsum (length t - 1) (fun i => ito_loglik reduce dv sx thi [0; nth (S i) t 0 - nth i t 0] [nth i vt 0; nth (S i) vt 0]).
Proof. exact ito_loglik_intervals. Qed.
Print Assumptions C81_intervals.
Example C81_example : length ito_v = length ito_t /\ (length ito_t - 1 = 2)%nat.
Proof. split; reflexivity. Qed.

(** C82 *)
Theorem C82_ou : forall b sg T x0, 0 < T -> - b < / T -> strictly_concave_on NegInf PosInf (endpt_f (ou_sx [b; sg]) T x0) (endpt_df (ou_drift [b; sg]) T x0).
Proof. exact endpt_ou. Qed.
Print Assumptions C82_ou.
Theorem C82_cir : forall k mu s T x0, 0 < T -> 0 <= k -> 0 < s -> s ^ 2 <= 4 * k * mu ->
  strictly_concave_on (Fin 0) PosInf (endpt_f (cir_sx [k; mu; s]) T x0) (endpt_df (cir_drift [k; mu; s]) T x0).
Proof. exact endpt_cir. Qed.
Print Assumptions C82_cir.
(** below that parameter region the target given to the log-concave sampler is not log-concave *)
Theorem C82_cir_refuted : forall k mu s T x0, 0 < T -> 0 <= k -> 0 < s -> 4 * k * mu < s ^ 2 ->
  ~ concave_on (Fin 0) PosInf (endpt_f (cir_sx [k; mu; s]) T x0) (endpt_df (cir_drift [k; mu; s]) T x0).
Proof. exact endpt_cir_not. Qed.
Print Assumptions C82_cir_refuted.
Example C82_example : 0 < 2 /\ - (1) < / 2 /\ 1 ^ 2 <= 4 * 1 * 1 /\ 4 * 1 * 1 < 3 ^ 2.
Proof. repeat split; lra. Qed.

(** C83 *)
Theorem C83_path : forall fuel mp maxp n reduce dereduce disc bounds lb ub endpoint t T v fin (P : R -> Prop), 0 < T -> (0 < maxp)%nat -> StronglySorted Rlt t ->
  dereduce (reduce v) = v -> (forall w, fin = Some w -> dereduce (reduce w) = w) ->
  (match fin with Some w => P (reduce w) | None => returns_if generic endpoint P end) ->
  (forall b, P b -> elt lb (Fin (Rmin (reduce v) b)) /\ elt (Fin (Rmax (reduce v) b)) ub) ->
  returns_if generic (sample_sde fuel mp maxp n reduce dereduce disc bounds lb ub endpoint t T v fin)
    (Forall2 (fun u w => 0 <= u <= T /\ (u = 0 -> w = v) /\ (u = T -> match fin with Some f => w = f | None => exists x, P x /\ w = dereduce x end)) t).
Proof. exact forward_path. Qed.
Print Assumptions C83_path.
Example C83_example : cir_dereduce [1; 2; 3] (cir_reduce [1; 2; 3] 4) = 4 /\ StronglySorted Rlt ito_t /\ elt (Fin 0) (Fin (Rmin (cir_reduce [1; 2; 3] 4) (cir_reduce [1; 2; 3] 9))).
Proof.
  assert (E : forall a b, 0 < b -> a = b * b -> cir_reduce [1; 2; 3] a = 2 * b / 3). { intros a b Hb ->. unfold cir_reduce, par. cbn. rewrite sqrt_square by lra. reflexivity. }
  split; [rewrite (E 4 2) by lra; unfold cir_dereduce, par; cbn; lra|]. split; [apply ito_series|]. rewrite (E 4 2), (E 9 3) by lra. cbn. unfold Rmin. destruct (Rle_dec _ _); lra.
Qed.
