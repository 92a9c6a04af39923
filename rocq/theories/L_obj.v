(** The Monte-Carlo objective on known paths. *)
From Coquelicot Require Import Rcomplements Hierarchy Rbar Lim_seq Continuity Derive RInt RInt_analysis.
From Coq Require Import Reals List Bool Arith ZArith Lra Lia Psatz Permutation.
From Verif Require Import Base Np Rng L_list L_rng M_mjp M_hit M_path M_skel M_seed SpecSkel SpecSeed L_seed L_seed3 M_models M_inf M_sw M_adapt M_mcem
  SpecLaw SpecCoin SpecEst SpecObj L_law L_law2 L_law3 L_law5 L_em5 L_occ L_est L_est4 Mat.
Import ListNotations.
Local Open Scope R_scope.

Lemma ito_log_instance : forall fuel mp mx reduce disc log_lik t vt thi z supp_t o k,
  ito_est_log_aug_lik fuel mp mx reduce disc log_lik t vt thi z supp_t o k = ito_log_with (interpolate_skeleton fuel mp mx) reduce disc log_lik t vt thi z supp_t o k.
Proof. reflexivity. Qed.
Lemma sw_log_instance : forall fuel mp mx vol disc loglik thi z h supp_t restrict o k,
  sw_est_log_aug_lik fuel mp mx vol disc loglik thi z h supp_t restrict o k = sw_log_with (interpolate_skeleton fuel mp mx) vol disc loglik thi z h supp_t restrict o k.
Proof. reflexivity. Qed.
Lemma ito_objective_instance : forall fuel mp mx reduce disc log_lik log_prior t vt n omes thi zz o k,
  ito_update_objective fuel mp mx reduce disc log_lik log_prior t vt n omes thi zz o k = ito_objective_with (interpolate_skeleton fuel mp mx) reduce disc log_lik log_prior t vt n omes thi zz o k.
Proof. reflexivity. Qed.
Lemma sw_objective_instance : forall fuel mp mx vol disc loglik log_prior n omes thi zz hh o k,
  sw_update_objective fuel mp mx vol disc loglik log_prior n omes thi zz hh o k = sw_objective_with (interpolate_skeleton fuel mp mx) vol disc loglik log_prior n omes thi zz hh o k.
Proof. reflexivity. Qed.

(** means of sums, with a constant carried along *)
Definition law {A} (m : M A) (g : A -> R) (v : R) : Prop := forall c, average m (fun a => c + g a) (c + v).
Lemma law_sum : forall A B (m : A -> M B) (l : list A) (G : list (B -> R)) (v : nat -> R), length G = length l ->
  (forall i a g, nth_error l i = Some a -> nth_error G i = Some g -> law (m a) g (v i)) ->
  law (map_m m l) (fun bs => M_models.rsum (map (fun p => fst p (snd p)) (combine G bs))) (M_models.rsum (map v (seq 0 (length l)))).
Proof.
  intros A B m l. induction l as [|a l IH]; intros [|g G] v L H c; cbn in L; try discriminate.
  - apply (average_ret _ [] (fun bs => c + M_models.rsum [])).
  - cbn [map_m length seq map]. rewrite <- seq_shift, map_map.
    specialize (IH G (fun i => v (S i)) ltac:(lia) (fun i a' g' E E' => H (S i) a' g' E E')).
    set (W := M_models.rsum (map (fun i => v (S i)) (seq 0 (length l)))) in *.
    apply (average_bind0 _ _ _ _ _ (fun b => (c + W) + g b)).
    + refine (average_eq _ _ _ _ _ _ (H 0%nat a g eq_refl eq_refl (c + W))). unfold M_models.rsum. cbn [fold_right]. fold (M_models.rsum (map (fun i => v (S i)) (seq 0 (length l)))). fold W. ring.
    + intros b. apply average_map. refine (average_ext _ _ _ _ _ _ (average_eq _ _ _ _ _ _ (IH (c + g b)))); [|ring].
      intros bs. unfold M_models.rsum. cbn [combine map fold_right fst snd]. ring.
Qed.
Lemma law_draws : forall (f : R -> R) T v a (l : list nat), 0 < T -> is_RInt f 0 T v ->
  law (map_m (fun _ => draw_r (DUniform 0 T)) l) (fun us => a * fold_right Rplus 0 (map f us)) (a * (INR (length l) * (v / T))).
Proof.
  intros f T v a l HT Hv. induction l as [|x l IH]; intros c.
  - refine (average_eq _ _ _ _ _ _ (average_ret _ _ _)). cbn. ring.
  - cbn [map_m]. set (W := a * (INR (length l) * (v / T))) in *.
    apply (average_r _ _ _ _ (fun u => (c + W) + a * f u)).
    + split; [lra|]. pose proof (is_RInt_plus _ _ _ _ _ _ (is_RInt_const 0 T (c + W)) (is_RInt_scal _ _ _ a _ Hv)) as P.
      unfold plus, scal in P; cbn in P; unfold mult in P; cbn in P. cbn [length]. rewrite S_INR.
      match goal with |- is_RInt _ _ _ ?w => replace w with ((T - 0) * (c + W) + a * v) by (unfold W; field; lra) end. exact P.
    + intros u _. apply average_map. refine (average_ext _ _ _ _ _ _ (average_eq _ _ _ _ _ _ (IH (c + a * f u)))); [|ring].
      intros us. cbn [map fold_right]. ring.
Qed.
Lemma sum_perm : forall (l l' : list R), Permutation l l' -> fold_right Rplus 0 l = fold_right Rplus 0 l'.
Proof. intros l l' P. induction P; cbn; lra. Qed.
Lemma supports_law : forall (f : R -> R) T v n, (0 < n)%nat -> 0 < T -> is_RInt f 0 T v -> law (supports n T) (fun s => - T * np_mean (map f s)) (- v).
Proof.
  intros f T v n Hn HT Hv c. unfold supports. apply average_map. assert (HN : 0 < INR n) by (apply lt_0_INR; lia).
  pose proof (law_draws f T v (- T / INR n) (seq 0 n) HT Hv c) as P. rewrite seq_length in P.
  replace (c + - v) with (c + - T / INR n * (INR n * (v / T))) by (field; lra). refine (average_swap _ _ _ _ _ _ P).
  pose proof (map_m_len _ _ (fun _ : nat => draw_r (DUniform 0 T)) (seq 0 n)) as Q. intros o k Ho. specialize (Q o k Ho). destruct (fst _) as [us|e|]; auto. rewrite seq_length in Q.
  unfold np_mean. rewrite map_length, (Permutation_length (np_sort_perm us)), Q, (sum_perm _ _ (Permutation_map f (np_sort_perm us))). unfold Rdiv. ring.
Qed.

Lemma pure_run : forall A B (f : A -> M B) (g : A -> B) l, (forall a o k, In a l -> f a o k = (Ok (g a), k)) -> forall o k, map_m f l o k = (Ok (map g l), k).
Proof.
  intros A B f g l. induction l as [|a l IH]; intros H o k; [reflexivity|]. cbn [map_m map]. unfold bind at 1. rewrite H by (left; reflexivity).
  unfold bind. rewrite IH by (intros; apply H; right; assumption). reflexivity.
Qed.
(** the values read off a known path *)
Definition vals (path : skel -> R -> R) (ops : normop * normop) (z : skel) (s : list R) : list R :=
  match snd (snd ops (fst (fst ops s None)) (Some (map (path z) (fst (fst ops s None))))) with Some x => x | None => [] end.
Lemma vals_eq : forall path norm denorm T scale x0 x1 z s, operators norm denorm T scale x0 x1 -> vals path (norm, denorm) z s = map (segment_path path z T scale x0 x1) s.
Proof.
  intros path norm denorm T scale x0 x1 z s OP. unfold vals. cbn [fst snd]. rewrite (op_norm_none _ _ _ _ _ _ OP). cbn [fst]. rewrite (op_denorm_some _ _ _ _ _ _ OP). cbn [snd].
  induction s as [|u s IH]; [reflexivity|]. cbn [map combine fst snd]. f_equal. exact IH.
Qed.
Lemma interp_run : forall path norm denorm T scale x0 x1 z s, operators norm denorm T scale x0 x1 -> forall o k,
  interpolate_with (pinned path) norm denorm z s o k = (Ok (z, vals path (norm, denorm) z s), k).
Proof.
  intros path norm denorm T scale x0 x1 z s OP o k. unfold interpolate_with, vals, bind, pinned, ret, values_of, lift_opt. cbn [fst snd].
  rewrite (op_norm_none _ _ _ _ _ _ OP). cbn [fst snd]. rewrite (op_denorm_some _ _ _ _ _ _ OP). reflexivity.
Qed.
Lemma ito_regroup : forall (path : skel -> R -> R) (disc : R -> R) D supp z ops,
  map (fun p : R * list R => - fst p * np_mean (map disc (snd p))) (combine D (map snd (map (fun p : list R * skel * (normop * normop) => let '(t_, z_, n) := p in (z_, vals path n z_ t_)) (zip3 supp z ops)))) =
  map (fun p : (list R -> R) * list R => fst p (snd p)) (combine (map (fun p : R * skel * (normop * normop) => let '(d, z_, n) := p in fun s => - d * np_mean (map disc (vals path n z_ s))) (zip3 D z ops)) supp).
Proof.
  unfold zip3. intros path disc D. induction D as [|d D IH]; intros [|s supp] [|z0 z] [|n ops]; try reflexivity. cbn [combine map fst snd]. f_equal. apply IH.
Qed.
Lemma zip3_third : forall A B C (l : list A) (m : list B) (n : list C) p, In p (zip3 l m n) -> In (snd p) n.
Proof. intros A B C l m n [a c] H. unfold zip3 in H. apply in_combine_r in H. exact H. Qed.
Lemma first_of : forall (path : skel -> R -> R) supp z (ops : list (normop * normop)), length supp = length z -> length ops = length z ->
  map fst (map (fun p : list R * skel * (normop * normop) => let '(t_, z_, n) := p in (z_, vals path n z_ t_)) (zip3 supp z ops)) = z.
Proof.
  unfold zip3. intros path supp. induction supp as [|s supp IH]; intros [|z0 z] [|n ops] L1 L2; cbn in *; try discriminate; try reflexivity. f_equal. apply IH; lia.
Qed.
Lemma ops_length : forall reduce t vt thi n, length t = S n -> length vt = S n -> length (ito_normops reduce t vt thi) = n.
Proof.
  intros reduce t vt thi n Ht Hv. unfold ito_normops. rewrite map_length, zip3_length, np_diff_length, map_length.
  assert (E : length (tl (map (reduce thi) vt)) = n) by (destruct vt; cbn in *; [lia|rewrite map_length; lia]). lia.
Qed.
Lemma ito_value : forall path reduce disc log_lik t vt thi z supp n, (0 < n)%nat -> length z = n -> length t = S n -> length vt = S n -> length supp = n -> forall o k,
  ito_log_with (pinned path) reduce disc log_lik t vt thi z supp o k =
  (Ok (log_lik thi + M_models.rsum (map (fun p => fst p (snd p)) (combine (map (fun p : R * skel * (normop * normop) => let '(d, z_, n) := p in fun s => - d * np_mean (map (disc thi) (vals path n z_ s)))
    (zip3 (np_diff t) z (ito_normops reduce t vt thi))) supp)), z), k).
Proof.
  intros path reduce disc log_lik t vt thi z supp n Hn Hz Ht Hv Hs o k. unfold ito_log_with. unfold bind at 1.
  rewrite (pure_run _ _ _ (fun p : list R * skel * (normop * normop) => let '(t_, z_, n) := p in (z_, vals path n z_ t_))).
  - pose proof (ops_length reduce t vt thi n Ht Hv) as LO. rewrite <- ito_regroup.
    pose proof (first_of path supp z (ito_normops reduce t vt thi) ltac:(lia) ltac:(lia)) as F.
    destruct (map (fun p : list R * skel * (normop * normop) => let '(t_, z_, n) := p in (z_, vals path n z_ t_)) (zip3 supp z (ito_normops reduce t vt thi))) as [|r0 rs]; [cbn in F; subst z; cbn in Hz; lia|].
    unfold ret. rewrite F. reflexivity.
  - intros [[s z_] n'] o' k' I. apply zip3_third in I. cbn [snd] in I. unfold ito_normops in I. apply in_map_iff in I as ([[dt x0] x1] & <- & _). cbn [fst snd].
    apply (interp_run path _ _ _ _ _ _ _ _ (ito_operators dt x0 x1)).
Qed.
Lemma rsum_seq : forall n (v : nat -> R), M_models.rsum (map v (seq 0 n)) = Mat.rsum n v.
Proof.
  intros n v. induction n as [|n IH]; [reflexivity|]. rewrite seq_S, map_app. cbn [Mat.rsum Nat.add map]. rewrite <- IH. unfold M_models.rsum. rewrite fold_right_app. cbn [fold_right].
  generalize (map v (seq 0 n)). intros l. induction l as [|a l IHl]; cbn; [ring|rewrite IHl; ring].
Qed.
Lemma rsum_opp : forall n (v : nat -> R), Mat.rsum n (fun i => - v i) = - Mat.rsum n v.
Proof. intros n v. induction n as [|n IH]; cbn; [ring|rewrite IH; ring]. Qed.
Lemma ito_supp_law : forall path reduce disc t vt thi z s0 n m (v : nat -> R),
  (0 < m)%nat -> (0 < n)%nat -> length z = n -> length t = S n -> length vt = S n ->
  (forall i, (i < n)%nat -> let dt := nth (S i) t 0 - nth i t 0 in
     integral_along path (disc thi) (nth i z s0) dt (sqrt dt) (reduce thi (nth i vt 0)) (reduce thi (nth (S i) vt 0)) (v i)) ->
  law (map_m (supports m) (np_diff t)) (fun supp => M_models.rsum (map (fun p => fst p (snd p)) (combine (map (fun p : R * skel * (normop * normop) => let '(d, z_, n) := p in fun s => - d * np_mean (map (disc thi) (vals path n z_ s)))
    (zip3 (np_diff t) z (ito_normops reduce t vt thi))) supp))) (- Mat.rsum n v).
Proof.
  intros path reduce disc t vt thi z s0 n m v Hm Hn Hz Ht Hv HE.
  pose proof (ops_length reduce t vt thi n Ht Hv) as LO. assert (LD : length (np_diff t) = n) by (rewrite np_diff_length; lia).
  rewrite <- rsum_opp, <- rsum_seq, <- LD. apply law_sum; [rewrite map_length, zip3_length; lia|].
  intros i dt g Hi Hg. rewrite nth_error_map in Hg. destruct (nth_error (zip3 _ _ _) i) as [[[d z_] nm]|] eqn:E; [|discriminate]. cbn in Hg. injection Hg as <-.
  assert (Hin : (i < n)%nat) by (rewrite <- LD; apply nth_error_Some; congruence).
  apply rows_zip3 in E as (D & Z & O). assert (d = dt) as -> by congruence. clear D.
  unfold ito_normops in O. rewrite nth_error_map in O. destruct (nth_error (zip3 _ _ _) i) as [[[d x0] x1]|] eqn:E; [|discriminate]. cbn in O. injection O as <-.
  apply rows_zip3 in E as (D & X0 & X1). assert (d = dt) as -> by congruence. rewrite tl_at in X1.
  rewrite nth_error_map in X0, X1. destruct (nth_error vt i) as [a|] eqn:A; [|discriminate]. destruct (nth_error vt (S i)) as [b|] eqn:B; [|discriminate].
  cbn in X0, X1. injection X0 as <-. injection X1 as <-. specialize (HE i Hin). cbv zeta in HE. apply diff_nth in Hi as [E _]. rewrite <- E in HE.
  rewrite (nth_of _ _ _ _ s0 Z), (nth_of _ _ _ _ 0 A), (nth_of _ _ _ _ 0 B) in HE. destruct HE as [HT HI].
  pose proof (supports_law _ dt (v i) m Hm HT HI) as P. intros c. refine (average_ext _ _ _ _ _ _ (P c)). intros s. rewrite (vals_eq _ _ _ _ _ _ _ _ _ (ito_operators dt _ _)), map_map. reflexivity.
Qed.
Lemma ito_log_law : forall path reduce disc log_lik t vt thi z s0 n m (v : nat -> R),
  (0 < m)%nat -> (0 < n)%nat -> length z = n -> length t = S n -> length vt = S n ->
  (forall i, (i < n)%nat -> let dt := nth (S i) t 0 - nth i t 0 in
     integral_along path (disc thi) (nth i z s0) dt (sqrt dt) (reduce thi (nth i vt 0)) (reduce thi (nth (S i) vt 0)) (v i)) ->
  average (do supp_t <- map_m (supports m) (np_diff t); ito_log_with (pinned path) reduce disc log_lik t vt thi z supp_t) fst (log_lik thi - Mat.rsum n v).
Proof.
  intros path reduce disc log_lik t vt thi z s0 n m v Hm Hn Hz Ht Hv HE.
  pose proof (ito_supp_law path reduce disc t vt thi z s0 n m v Hm Hn Hz Ht Hv HE (log_lik thi)) as P.
  refine (average_bind _ _ _ _ _ _ (fun supp => length supp = n) _ P _ _).
  - pose proof (map_m_len _ _ (supports m) (np_diff t)) as Q. rewrite np_diff_length, Ht in Q. intros o k Ho. specialize (Q o k Ho). destruct (fst _); auto. lia.
  - intros supp Hs. refine (average_comp _ (ret (_, z)) _ _ _ _ (average_ret _ (_, z) fst)). intros o k _. rewrite (ito_value path reduce disc log_lik t vt thi z supp n Hn Hz Ht Hv Hs). reflexivity.
Qed.
