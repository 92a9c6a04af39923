(** The Monte-Carlo objective on known paths: variances. *)
From Coquelicot Require Import Rcomplements Hierarchy Rbar Lim_seq Continuity Derive RInt RInt_analysis.
From Coq Require Import Reals List Bool Arith ZArith Lra Lia Psatz Permutation.
From Verif Require Import Base Np Rng L_list L_rng M_mjp M_hit M_path M_skel M_seed SpecSkel SpecSeed L_seed L_seed3 M_models M_inf M_sw M_adapt M_mcem
  SpecLaw SpecCoin SpecEst SpecObj L_law L_law2 L_law3 L_law5 L_em5 L_occ L_est L_est4 L_obj L_obj2 L_mat Mat.
Import ListNotations.
Local Open Scope R_scope.

(** second moments of sums, with a constant carried along: v is the mean and w the variance *)
Definition law2 {A} (m : M A) (g : A -> R) (v w : R) : Prop := forall c d, average m (fun a => (c + g a) ^ 2 + d) ((c + v) ^ 2 + w + d).
Lemma rsum_cons : forall a l, M_models.rsum (a :: l) = a + M_models.rsum l.
Proof. reflexivity. Qed.
Lemma law2_sum : forall A B (m : A -> M B) (l : list A) (G : list (B -> R)) (v w : nat -> R), length G = length l ->
  (forall i a g, nth_error l i = Some a -> nth_error G i = Some g -> law2 (m a) g (v i) (w i)) ->
  law2 (map_m m l) (fun bs => M_models.rsum (map (fun p => fst p (snd p)) (combine G bs))) (M_models.rsum (map v (seq 0 (length l)))) (M_models.rsum (map w (seq 0 (length l)))).
Proof.
  intros A B m l. induction l as [|a l IH]; intros [|g G] v w L H c d; cbn in L; try discriminate.
  - refine (average_eq _ _ _ _ _ _ (average_ret _ _ _)). unfold M_models.rsum. cbn. ring.
  - cbn [map_m length seq map]. rewrite <- seq_shift, !map_map.
    specialize (IH G (fun i => v (S i)) (fun i => w (S i)) ltac:(lia) (fun i a' g' E E' => H (S i) a' g' E E')).
    rewrite !rsum_cons. set (V := M_models.rsum (map (fun i => v (S i)) (seq 0 (length l)))) in *. set (W := M_models.rsum (map (fun i => w (S i)) (seq 0 (length l)))) in *.
    apply (average_bind0 _ _ _ _ _ (fun b => ((c + V) + g b) ^ 2 + (W + d))).
    + refine (average_eq _ _ _ _ _ _ (H 0%nat a g eq_refl eq_refl (c + V) (W + d))). ring.
    + intros b. apply average_map. refine (average_ext _ _ _ _ _ _ (average_eq _ _ _ _ _ _ (IH (c + g b) d))); [|ring].
      intros bs. cbn [combine map fst snd]. rewrite rsum_cons. f_equal. f_equal. ring.
Qed.
Lemma law2_draws : forall (f : R -> R) T v q a (l : list nat), 0 < T -> is_RInt f 0 T v -> is_RInt (fun u => f u ^ 2) 0 T q ->
  law2 (map_m (fun _ => draw_r (DUniform 0 T)) l) (fun us => a * fold_right Rplus 0 (map f us)) (a * (INR (length l) * (v / T))) (INR (length l) * (a ^ 2 * (q / T - (v / T) ^ 2))).
Proof.
  intros f T v q a l HT Hv Hq. induction l as [|x l IH]; intros c d.
  - refine (average_eq _ _ _ _ _ _ (average_ret _ _ _)). cbn. ring.
  - cbn [map_m]. set (V := a * (INR (length l) * (v / T))) in *. set (W := INR (length l) * (a ^ 2 * (q / T - (v / T) ^ 2))) in *.
    apply (average_r _ _ _ _ (fun u => (c + a * f u + V) ^ 2 + W + d)).
    + split; [lra|].
      pose proof (is_RInt_plus _ _ _ _ _ _ (is_RInt_plus _ _ _ _ _ _ (is_RInt_const 0 T ((c + V) ^ 2 + W + d)) (is_RInt_scal _ _ _ (2 * (c + V) * a) _ Hv)) (is_RInt_scal _ _ _ (a ^ 2) _ Hq)) as P.
      unfold plus, scal in P; cbn -[pow] in P; unfold mult in P; cbn -[pow] in P. cbn [length]. rewrite S_INR.
      match goal with |- is_RInt _ _ _ ?w => replace w with ((T - 0) * ((c + V) ^ 2 + W + d) + 2 * (c + V) * a * v + a ^ 2 * q) by (unfold V, W; field; lra) end.
      refine (is_RInt_ext _ _ _ _ _ _ P). intros u _. match goal with |- ?a = ?b => change (@eq R a b) end. ring.
    + intros u _. apply average_map. refine (average_ext _ _ _ _ _ _ (average_eq _ _ _ _ _ _ (IH (c + a * f u) d))); [|ring].
      intros us. cbn [map fold_right]. ring.
Qed.
Lemma supports_law2 : forall (f : R -> R) T v q n, (0 < n)%nat -> 0 < T -> is_RInt f 0 T v -> is_RInt (fun u => f u ^ 2) 0 T q ->
  law2 (supports n T) (fun s => - T * np_mean (map f s)) (- v) ((T * q - v ^ 2) / INR n).
Proof.
  intros f T v q n Hn HT Hv Hq c d. unfold supports. apply average_map. assert (HN : 0 < INR n) by (apply lt_0_INR; lia).
  pose proof (law2_draws f T v q (- T / INR n) (seq 0 n) HT Hv Hq c d) as P. rewrite seq_length in P.
  match type of P with average _ _ ?x => match goal with |- average _ _ ?y => replace y with x by (field; lra) end end. refine (average_swap _ _ _ _ _ _ P).
  pose proof (map_m_len _ _ (fun _ : nat => draw_r (DUniform 0 T)) (seq 0 n)) as Q. intros o k Ho. specialize (Q o k Ho). destruct (fst _) as [us|e|]; auto. rewrite seq_length in Q.
  unfold np_mean. rewrite map_length, (Permutation_length (np_sort_perm us)), Q, (sum_perm _ _ (Permutation_map f (np_sort_perm us))). unfold Rdiv. ring.
Qed.
Lemma law2_const : forall m T, 0 < T -> law2 (supports m T) (fun _ => 0) 0 0.
Proof.
  intros m T HT c d. pose proof (law_const m T 0 HT ((c + 0) ^ 2 + d)) as P. refine (average_ext _ _ _ _ _ _ (average_eq _ _ _ _ _ _ P)); [intros; ring|ring].
Qed.
Lemma ito_supp_law2 : forall path reduce disc t vt thi z s0 n m (v q : nat -> R),
  (0 < m)%nat -> (0 < n)%nat -> length z = n -> length t = S n -> length vt = S n ->
  (forall i, (i < n)%nat -> let dt := nth (S i) t 0 - nth i t 0 in
     integral_along path (disc thi) (nth i z s0) dt (sqrt dt) (reduce thi (nth i vt 0)) (reduce thi (nth (S i) vt 0)) (v i) /\
     integral_along path (fun x => disc thi x ^ 2) (nth i z s0) dt (sqrt dt) (reduce thi (nth i vt 0)) (reduce thi (nth (S i) vt 0)) (q i)) ->
  law2 (map_m (supports m) (np_diff t)) (fun supp => M_models.rsum (map (fun p => fst p (snd p)) (combine (map (fun p : R * skel * (normop * normop) => let '(d, z_, n) := p in fun s => - d * np_mean (map (disc thi) (vals path n z_ s)))
    (zip3 (np_diff t) z (ito_normops reduce t vt thi))) supp))) (- Mat.rsum n v) (Mat.rsum n (fun i => ((nth (S i) t 0 - nth i t 0) * q i - v i ^ 2) / INR m)).
Proof.
  intros path reduce disc t vt thi z s0 n m v q Hm Hn Hz Ht Hv HE.
  pose proof (ops_length reduce t vt thi n Ht Hv) as LO. assert (LD : length (np_diff t) = n) by (rewrite np_diff_length; lia).
  rewrite <- rsum_opp, <- !rsum_seq, <- LD. apply law2_sum; [rewrite map_length, zip3_length; lia|].
  intros i dt g Hi Hg. rewrite nth_error_map in Hg. destruct (nth_error (zip3 _ _ _) i) as [[[d z_] nm]|] eqn:E; [|discriminate]. cbn in Hg. injection Hg as <-.
  assert (Hin : (i < n)%nat) by (rewrite <- LD; apply nth_error_Some; congruence).
  apply rows_zip3 in E as (D & Z & O). assert (d = dt) as -> by congruence. clear D.
  unfold ito_normops in O. rewrite nth_error_map in O. destruct (nth_error (zip3 _ _ _) i) as [[[d x0] x1]|] eqn:E; [|discriminate]. cbn in O. injection O as <-.
  apply rows_zip3 in E as (D & X0 & X1). assert (d = dt) as -> by congruence. rewrite tl_at in X1.
  rewrite nth_error_map in X0, X1. destruct (nth_error vt i) as [a|] eqn:A; [|discriminate]. destruct (nth_error vt (S i)) as [b|] eqn:B; [|discriminate].
  cbn in X0, X1. injection X0 as <-. injection X1 as <-. specialize (HE i Hin). cbv zeta in HE. apply diff_nth in Hi as [E _]. rewrite <- E in *.
  rewrite (nth_of _ _ _ _ s0 Z), (nth_of _ _ _ _ 0 A), (nth_of _ _ _ _ 0 B) in HE. destruct HE as [[HT HI] [_ HQ]].
  pose proof (supports_law2 _ dt (v i) (q i) m Hm HT HI HQ) as P. intros c e. refine (average_ext _ _ _ _ _ _ (P c e)). intros s. rewrite (vals_eq _ _ _ _ _ _ _ _ _ (ito_operators dt _ _)), map_map. reflexivity.
Qed.
Lemma ito_log_var : forall path reduce disc log_lik t vt thi z s0 n m (v q : nat -> R),
  (0 < m)%nat -> (0 < n)%nat -> length z = n -> length t = S n -> length vt = S n ->
  (forall i, (i < n)%nat -> let dt := nth (S i) t 0 - nth i t 0 in
     integral_along path (disc thi) (nth i z s0) dt (sqrt dt) (reduce thi (nth i vt 0)) (reduce thi (nth (S i) vt 0)) (v i) /\
     integral_along path (fun x => disc thi x ^ 2) (nth i z s0) dt (sqrt dt) (reduce thi (nth i vt 0)) (reduce thi (nth (S i) vt 0)) (q i)) ->
  average (do supp_t <- map_m (supports m) (np_diff t); ito_log_with (pinned path) reduce disc log_lik t vt thi z supp_t) (fun r => (fst r - (log_lik thi - Mat.rsum n v)) ^ 2)
    (Mat.rsum n (fun i => (nth (S i) t 0 - nth i t 0) * q i - v i ^ 2) / INR m).
Proof.
  intros path reduce disc log_lik t vt thi z s0 n m v q Hm Hn Hz Ht Hv HE.
  pose proof (ito_supp_law2 path reduce disc t vt thi z s0 n m v q Hm Hn Hz Ht Hv HE (Mat.rsum n v) 0) as P.
  set (Q := fun supp => M_models.rsum (map (fun p => fst p (snd p)) (combine (map (fun p : R * skel * (normop * normop) => let '(d, z_, n) := p in fun s => - d * np_mean (map (disc thi) (vals path n z_ s)))
    (zip3 (np_diff t) z (ito_normops reduce t vt thi))) supp))).
  refine (average_bind _ _ _ _ _ (fun supp => (Mat.rsum n v + Q supp) ^ 2 + 0) (fun supp => length supp = n) _ _ _ _).
  - refine (average_eq _ _ _ _ _ _ P). unfold Rdiv at 2. rewrite <- L_mat.rsum_scal_r. replace (Mat.rsum n v + - Mat.rsum n v) with 0 by ring. unfold Rdiv. ring.
  - pose proof (map_m_len _ _ (supports m) (np_diff t)) as L. rewrite np_diff_length, Ht in L. intros o k Ho. specialize (L o k Ho). destruct (fst _); auto. lia.
  - intros supp Hs. apply (average_comp _ (ret (log_lik thi + Q supp, z))).
    + intros o k _. exact (ito_value path reduce disc log_lik t vt thi z supp n Hn Hz Ht Hv Hs o k).
    + refine (average_eq _ _ _ _ _ _ (average_ret _ _ _)). cbn [fst]. ring.
Qed.
Lemma sw_log_var : forall path vol disc loglik thi z h restrict s0 m (v q : nat -> R), (0 < m)%nat -> matches z h ->
  (forall i, (i < length z)%nat -> selected restrict (nth i (a_y h) 0%nat) = true -> let dt := nth (S i) (a_t h) 0 - nth i (a_t h) 0 in let y := nth i (a_y h) 0%nat in
     integral_along path (disc thi y) (nth i z s0) dt (sqrt dt * vol thi y) (nth i (a_v h) 0) (nth (S i) (a_v h) 0) (v i) /\
     integral_along path (fun x => disc thi y x ^ 2) (nth i z s0) dt (sqrt dt * vol thi y) (nth i (a_v h) 0) (nth (S i) (a_v h) 0) (q i)) ->
  let on i x := if selected restrict (nth i (a_y h) 0%nat) then x else 0 in
  average (do supp_t <- map_m (supports m) (np_diff (a_t h)); sw_log_with (pinned path) vol disc loglik thi z h supp_t restrict)
    (fun r => (fst r - (fst (loglik thi h restrict) - Mat.rsum (length z) (fun i => on i (v i)))) ^ 2)
    (Mat.rsum (length z) (fun i => on i ((nth (S i) (a_t h) 0 - nth i (a_t h) 0) * q i - v i ^ 2)) / INR m).
Proof.
  intros path vol disc loglik thi z h restrict s0 m v q Hm (Hn & Ht & Hy & Hv & HI) HE on. set (n := length z) in *. assert (Hz : length z = n) by reflexivity.
  pose proof (sw_ops_length (vol thi) h n Ht Hy Hv) as LO. assert (LD : length (np_diff (a_t h)) = n) by (rewrite np_diff_length; lia).
  set (w := fun i => on i (((nth (S i) (a_t h) 0 - nth i (a_t h) 0) * q i - v i ^ 2) / INR m)).
  assert (P : law2 (map_m (supports m) (np_diff (a_t h))) (sw_terms path vol disc thi z h restrict) (- Mat.rsum n (fun i => on i (v i))) (Mat.rsum n w)).
  { rewrite <- rsum_opp, <- !rsum_seq, <- LD. unfold sw_terms. apply law2_sum; [unfold zip4; rewrite map_length, !combine_length; lia|].
    intros i dt g Hi Hg. rewrite nth_error_map in Hg. destruct (nth_error (zip4 _ _ _ _) i) as [[[[d y0] z_] nm]|] eqn:E; [|discriminate]. cbn in Hg. injection Hg as <-.
    assert (Hin : (i < n)%nat) by (rewrite <- LD; apply nth_error_Some; congruence).
    apply rows_zip4 in E as (D & Y & Z & O). assert (d = dt) as -> by congruence. clear D.
    unfold sw_normops in O. rewrite nth_error_map in O. destruct (nth_error (zip4 _ _ _ _) i) as [[[[d y1] x0] x1]|] eqn:E; [|discriminate]. cbn in O. injection O as <-.
    apply rows_zip4 in E as (D & Y1 & X0 & X1). assert (d = dt) as -> by congruence. rewrite tl_at in X1. apply rm_at in Y1. assert (y1 = y0) as -> by congruence.
    specialize (HE i Hin). specialize (HI i Hin). cbv zeta in HE. apply diff_nth in Hi as [E _]. assert (HT : 0 < dt) by lra.
    unfold w, on. rewrite <- E in *. rewrite (nth_of _ _ _ _ 0%nat Y) in *. rewrite (nth_of _ _ _ _ s0 Z), (nth_of _ _ _ _ 0 X0), (nth_of _ _ _ _ 0 X1) in HE.
    destruct (selected restrict y0); [|rewrite Ropp_0; apply law2_const; exact HT].
    destruct (HE eq_refl) as [[_ HR] [_ HQ]]. pose proof (supports_law2 _ dt (v i) (q i) m Hm HT HR HQ) as P. intros c e. refine (average_ext _ _ _ _ _ _ (P c e)).
    intros s. rewrite (vals_eq _ _ _ _ _ _ _ _ _ (sw_operators (vol thi y0) dt _ _)), map_map. reflexivity. }
  specialize (P (Mat.rsum n (fun i => on i (v i))) 0). refine (average_bind _ _ _ _ _ _ (fun supp => length supp = n) _ (average_eq _ _ _ _ _ _ P) _ _).
  - unfold Rdiv. rewrite <- L_mat.rsum_scal_r. rewrite (L_mat.rsum_ext n w (fun i => on i ((nth (S i) (a_t h) 0 - nth i (a_t h) 0) * q i - v i ^ 2) * / INR m)).
    + ring.
    + intros i _. unfold w, on. destruct (selected _ _); unfold Rdiv; ring.
  - apply supp_len. exact Ht.
  - intros supp Hs. apply (average_comp _ (ret (fst (loglik thi h restrict) + sw_terms path vol disc thi z h restrict supp, z))).
    + intros o k _. exact (sw_value path vol disc loglik thi z h supp restrict _ Hn eq_refl Ht Hy Hv Hs o k).
    + refine (average_eq _ _ _ _ _ _ (average_ret _ _ _)). cbn [fst]. ring.
Qed.
