(** The Monte-Carlo objective on known paths: what the M-step maximises. *)
From Coq Require Import Reals List Bool Arith ZArith Lra Lia Psatz.
From Verif Require Import Base Np Rng L_list L_rng M_mjp M_hit M_path M_skel M_seed SpecSkel SpecSeed L_seed L_seed3 M_models M_inf M_sw M_adapt M_mcem
  SpecLaw SpecCoin SpecEst SpecObj L_law L_law2 L_law3 L_law5 L_em5 L_occ L_est L_est4 L_obj L_obj2 L_mat Mat.
Import ListNotations.
Local Open Scope R_scope.

Lemma average_rsum : forall A (m : M A) (f : nat -> A -> R) (v : nat -> R) n, (0 < n)%nat -> (forall j, (j < n)%nat -> average m (f j) (v j)) -> average m (fun a => Mat.rsum n (fun j => f j a)) (Mat.rsum n v).
Proof.
  intros A m f v n Hn H. induction n as [|n IH]; [lia|]. cbn [Mat.rsum]. destruct n as [|n].
  - cbn [Mat.rsum]. refine (average_ext _ _ _ _ _ _ (average_eq _ _ _ _ _ _ (H 0%nat ltac:(lia)))); [intros a; ring|ring].
  - apply average_plus; [apply IH; [lia|intros; apply H; lia]|apply H; lia].
Qed.
Lemma mean_rsum : forall (l : list R) n, length l = n -> np_mean l = / INR n * Mat.rsum n (fun j => nth j l 0).
Proof.
  intros l n L. unfold np_mean. rewrite L. unfold Rdiv. rewrite Rmult_comm. f_equal. rewrite <- rsum_seq. unfold M_models.rsum. f_equal. rewrite <- L. clear L.
  induction l as [|a l IH]; [reflexivity|]. cbn [length seq map nth]. f_equal. rewrite <- seq_shift, map_map. exact IH.
Qed.
Lemma mean_law : forall (m : M (list R)) n (v : nat -> R), (0 < n)%nat -> returns m (fun l => length l = n) -> (forall j, (j < n)%nat -> average m (fun l => nth j l 0) (v j)) ->
  average m np_mean (Mat.rsum n v / INR n).
Proof.
  intros m n v Hn HL H. pose proof (average_scal _ _ _ _ (/ INR n) (average_rsum _ _ _ _ _ Hn H)) as P. refine (average_swap _ _ _ _ _ _ (average_eq _ _ _ _ _ _ P)); [|unfold Rdiv; ring].
  intros o k Ho. specialize (HL o k Ho). destruct (fst (m o k)) as [l|e|]; auto. symmetry. apply mean_rsum. exact HL.
Qed.
Lemma ito_objective_len : forall interp reduce disc log_lik log_prior t vt m omes thi zz thi', returns (do f <- ito_objective_with interp reduce disc log_lik log_prior t vt m omes thi zz; f thi') (fun l => length l = length zz).
Proof.
  intros interp reduce disc log_lik log_prior t vt m omes thi zz thi' o k Ho. unfold ito_objective_with.
  remember (map_m (supports m) (np_diff t)) as ms eqn:E. clear E. unfold bind at 1 2. destruct (ms o k) as [[supp|e|] k1]; cbn; auto.
  unfold bind at 1, lift. destruct (run_jobs 0 omes (map (fun z => ito_log_with interp reduce disc log_lik t vt thi z supp) zz)) as [r|e|] eqn:ER; cbn; auto.
  assert (LR : length r = length zz).
  { assert (G : forall A (jobs : list (M A)) i r, run_jobs i omes jobs = Ok r -> length r = length jobs).
    { intros A jobs. induction jobs as [|j jobs IH]; intros i r0 E; cbn in E; [injection E as <-; reflexivity|].
      destruct (fst (j (omes i) 0%nat)); cbn in E; try discriminate. destruct (run_jobs (S i) omes jobs) eqn:E2; cbn in E; try discriminate. injection E as <-. cbn. f_equal. eapply IH. exact E2. }
    apply G in ER. rewrite map_length in ER. exact ER. }
  destruct r as [|r0 r]; [exact Logic.I|]. unfold ret at 1. set (rr := r0 :: r) in *.
  pose proof (map_m_len _ _ (fun z => ito_log_with interp reduce disc log_lik t vt thi' z supp) (map snd rr) o k1 Ho) as Q. unfold bind.
  destruct (map_m (fun z => ito_log_with interp reduce disc log_lik t vt thi' z supp) (map snd rr) o k1) as [[l|e|] k2]; cbn [fst] in *; auto. unfold ret. cbn [fst]. rewrite map_length, Q, map_length. exact LR.
Qed.

Lemma ito_mean_law : forall path reduce disc log_lik log_prior t vt thi thi' zz omes s0 n m (v : nat -> nat -> R),
  (0 < m)%nat -> (0 < n)%nat -> (0 < length zz)%nat -> Forall (fun z => length z = n) zz -> length t = S n -> length vt = S n ->
  (forall j i, (j < length zz)%nat -> (i < n)%nat -> let dt := nth (S i) t 0 - nth i t 0 in
     integral_along path (disc thi') (nth i (nth j zz []) s0) dt (sqrt dt) (reduce thi' (nth i vt 0)) (reduce thi' (nth (S i) vt 0)) (v j i)) ->
  average (do f <- ito_objective_with (pinned path) reduce disc log_lik log_prior t vt m omes thi zz; f thi') np_mean
    (Mat.rsum (length zz) (fun j => log_lik thi' - Mat.rsum n (v j) + log_prior thi') / INR (length zz)).
Proof.
  intros path reduce disc log_lik log_prior t vt thi thi' zz omes s0 n m v Hm Hn HJ Hz Ht Hv HE. apply mean_law; [exact HJ|apply ito_objective_len|].
  intros j Hj. apply (ito_objective_law path reduce disc log_lik log_prior t vt thi thi' zz omes j s0 n m (v j)); auto.
Qed.

Lemma jobs_len : forall A omes (jobs : list (M A)) i r, run_jobs i omes jobs = Ok r -> length r = length jobs.
Proof.
  intros A omes jobs. induction jobs as [|j jobs IH]; intros i r0 E; cbn in E; [injection E as <-; reflexivity|].
  destruct (fst (j (omes i) 0%nat)); cbn in E; try discriminate. destruct (run_jobs (S i) omes jobs) eqn:E2; cbn in E; try discriminate. injection E as <-. cbn. f_equal. eapply IH. exact E2.
Qed.
Lemma sw_objective_len : forall interp vol disc loglik log_prior m omes thi zz hh thi' restrict, length hh = length zz ->
  returns (do f <- sw_objective_with interp vol disc loglik log_prior m omes thi zz hh; f thi' restrict) (fun l => length l = length zz).
Proof.
  intros interp vol disc loglik log_prior m omes thi zz hh thi' restrict LH o k Ho. unfold sw_objective_with.
  pose proof (map_m_len _ _ (fun h => map_m (supports m) (np_diff (a_t h))) hh o k Ho) as LS.
  remember (map_m (fun h => map_m (supports m) (np_diff (a_t h))) hh) as ms eqn:E. clear E. unfold bind at 1 2. destruct (ms o k) as [[supp|e|] k1]; cbn; auto. cbn [fst] in LS.
  unfold bind at 1, lift. destruct (run_jobs 0 omes (map (fun p => let '(z, h, t) := p in sw_log_with interp vol disc loglik thi z h t None) (zip3 zz hh supp))) as [r|e|] eqn:ER; cbn; auto.
  assert (LR : length r = length zz) by (apply jobs_len in ER; rewrite map_length, zip3_length in ER; lia).
  destruct r as [|r0 r]; [exact Logic.I|]. unfold ret at 1. set (rr := r0 :: r) in *.
  pose proof (map_m_len _ _ (fun p => let '(z, h, t) := p in sw_log_with interp vol disc loglik thi' z h t (Some restrict)) (zip3 (map snd rr) hh supp) o k1 Ho) as Q. unfold bind.
  destruct (map_m (fun p => let '(z, h, t) := p in sw_log_with interp vol disc loglik thi' z h t (Some restrict)) (zip3 (map snd rr) hh supp) o k1) as [[l|e|] k2]; cbn [fst] in *; auto.
  unfold ret. cbn [fst]. rewrite map_length, Q, zip3_length, map_length. lia.
Qed.
Lemma sw_mean_law : forall path vol disc loglik log_prior thi thi' restrict zz hh omes h0 s0 m (v : nat -> nat -> R), (0 < m)%nat -> (0 < length zz)%nat -> Forall2 matches zz hh ->
  (forall j i, (j < length zz)%nat -> let z := nth j zz [] in let h := nth j hh h0 in (i < length z)%nat -> nth i (a_y h) 0%nat = restrict -> let dt := nth (S i) (a_t h) 0 - nth i (a_t h) 0 in
     integral_along path (disc thi' restrict) (nth i z s0) dt (sqrt dt * vol thi' restrict) (nth i (a_v h) 0) (nth (S i) (a_v h) 0) (v j i)) ->
  average (do f <- sw_objective_with (pinned path) vol disc loglik log_prior m omes thi zz hh; f thi' restrict) np_mean
    (Mat.rsum (length zz) (fun j => let h := nth j hh h0 in fst (loglik thi' h (Some restrict)) -
       Mat.rsum (length (nth j zz [])) (fun i => if Nat.eqb (nth i (a_y h) 0%nat) restrict then v j i else 0) + log_prior thi') / INR (length zz)).
Proof.
  intros path vol disc loglik log_prior thi thi' restrict zz hh omes h0 s0 m v Hm HJ F HE. apply mean_law; [exact HJ|apply sw_objective_len; exact (f2_length _ _ _ _ _ F)|].
  intros j Hj. apply (sw_objective_law path vol disc loglik log_prior thi thi' restrict zz hh omes j h0 s0 m (v j)); auto. intros z h i Hi HY. exact (HE j i Hj Hi HY).
Qed.
