(** Property theorems C88 and the laws of C20 and C21: probabilities obtained by integrating
    out the draws of the code itself (SpecLaw). *)
From Coquelicot Require Import Hierarchy RInt Continuity.
From Coq Require Import Reals List Bool Arith Lra Lia.
From Verif Require Import Base Np Rng L_rng M_mjp M_bf M_path M_skel SpecLaw SpecCoin SpecFactory L_law L_law2 L_law3 L_law4 L_law5 L_law6 L_law7.
Import ListNotations.
Local Open Scope R_scope.

(** The probabilities of SpecLaw are what they are called: unique, between 0 and 1, additive, monotone. *)
Theorem C88_law_unique : forall A (m : M A) f v v', average m f v -> average m f v' -> v = v'.
Proof. exact average_unique. Qed.
Print Assumptions C88_law_unique.
Theorem C88_law_additive : forall A (m : M A) f g u v, average m f u -> average m g v -> average m (fun a => f a + g a) (u + v).
Proof. exact average_plus. Qed.
Print Assumptions C88_law_additive.
Theorem C88_law_monotone : forall A (m : M A) f g u v, average m f u -> average m g v -> returns m (fun a => f a <= g a) -> u <= v.
Proof. exact average_le. Qed.
Print Assumptions C88_law_monotone.
Theorem C88_law_range : forall A (m : M A) E p, chance m E p -> 0 <= p <= 1.
Proof. exact chance_range. Qed.
Print Assumptions C88_law_range.

(** sample_ppp draws a Poisson point process: its generating functional, in any dimension, *)
Theorem C88_ppp : forall lam bound g w, 0 < lam -> bound <> [] -> Forall (fun b => 0 < b) bound ->
  average (draw_rs (map (DUniform 0) bound)) g w ->
  average (sample_ppp lam bound) (product g) (exp (- (lam * np_prod bound * (1 - w)))).
Proof. exact ppp_law. Qed.
Print Assumptions C88_ppp.
(** on the line, *)
Theorem C88_ppp_line : forall lam T (g : R -> R) (v : R), 0 < lam -> 0 < T -> is_RInt (fun u => 1 - g u) 0 T v ->
  average (sample_ppp lam [T]) (product (fun r => g (nth 0 r 0))) (exp (- (lam * v))).
Proof. exact ppp_line. Qed.
Print Assumptions C88_ppp_line.
(** and the probability that no point falls below a curve. *)
Theorem C88_thinning : forall S T (phi : R -> R) (v : R), 0 < S -> 0 < T -> (forall u, 0 <= u <= T -> 0 <= phi u <= S) -> is_RInt phi 0 T v ->
  chance (sample_ppp 1 [T; S]) (forallb (fun r => negb (Rltb (nth 1 r 0) (phi (nth 0 r 0))))) (exp (- v)).
Proof. exact thinning. Qed.
Print Assumptions C88_thinning.
Example C88_thinning_example : chance (sample_ppp 1 [1; 1]) (forallb (fun r => negb (Rltb (nth 1 r 0) (nth 0 r 0)))) (exp (- (1/2))).
Proof. exact (C88_thinning 1 1 (fun u => u) (1/2) Rlt_0_1 Rlt_0_1 (fun u H => H) diagonal_integral). Qed.

(** The coins of the code are instances of the coins with an open interpolation. *)
Theorem C88_coin_instance : forall fuel mp mx disc bounds cent n p s o k,
  poisson_loop fuel mp mx n disc bounds cent p s o k = coin_with (interpolate_skeleton fuel mp mx) n disc bounds cent p s o k.
Proof. exact coin_instance. Qed.
Print Assumptions C88_coin_instance.
Theorem C88_estimate_instance : forall fuel mp mx s disc bd cent le ue fin_t o k,
  bd (Rmin (k_loose s) (k_tight s)) (Rmax (k_loose s) (k_tight s)) = (cent, le, ue) -> last_opt (k_t s) = Some fin_t ->
  est_poisson_coin fuel mp mx s disc bd o k = estimate_with (interpolate_skeleton fuel mp mx) disc cent le ue fin_t s o k.
Proof. exact estimate_instance. Qed.
Print Assumptions C88_estimate_instance.
(** On any given path the exponential of the estimate has mean exp(- integral of the centred discrepancy). *)
Theorem C88_estimator_unbiased : forall disc w cent le ue T (v : R), le < ue -> 0 < T -> (forall u, 0 <= u <= T -> disc (w u) < ue) ->
  is_RInt (fun u => disc (w u) - cent) 0 T v ->
  average (estimate_with (frozen w) disc cent le ue T tt) (fun r => exp (fst r)) (exp (- v)).
Proof. exact estimator. Qed.
Print Assumptions C88_estimator_unbiased.
Example C88_estimator_example : average (estimate_with (frozen (fun u => u)) (fun x => x - 0) 0 0 2 1 tt) (fun r => exp (fst r)) (exp (- (1/2))).
Proof.
  apply (C88_estimator_unbiased (fun x => x - 0) (fun u => u) 0 0 2 1 (1/2)); [lra|lra|intros; lra|].
  apply (is_RInt_ext (fun u => u)); [intros; cbv beta; symmetry; rewrite Rminus_0_r; apply Rminus_0_r|]. exact diagonal_integral.
Qed.

(** Points handed out in a single batch are as good as independent uniform points: the coin
    succeeds with the probability that none of them falls below the curve. *)
Theorem C88_one_batch : forall w disc cent T b (G : R -> R) n, 0 < T -> 0 < b ->
  (forall h, 0 <= h <= b -> is_RInt (fun u => ind (negb (Rltb h (disc (w u) - cent)))) 0 T (T * G h)) ->
  (forall h, continuous G h) ->
  chance (coin_with (frozen w) 2 disc [b; T] cent (mk_ppp (S n) [S n] 0) tt) fst ((RInt G 0 b / b) ^ S n) /\
  chance (draw_rows (S n) (map (DUniform 0) [b; T])) (forallb (above (fun u => disc (w u) - cent))) ((RInt G 0 b / b) ^ S n).
Proof. exact coin_one_batch. Qed.
Print Assumptions C88_one_batch.
Example C88_one_batch_example : forall n,
  chance (coin_with (frozen (fun u => u)) 2 (fun x => x) [1; 1] 0 (mk_ppp (S n) [S n] 0) tt) fst ((RInt clamp 0 1 / 1) ^ S n).
Proof. exact (fun n => proj1 (C88_one_batch (fun u => u) (fun x => x) 0 1 1 clamp n Rlt_0_1 Rlt_0_1 diagonal_above clamp_continuous)). Qed.
(** From the second batch on they are not: three points handed out as two and one. *)
Theorem C88_batches_refuted : exists w disc b T n sizes,
  (forall u, 0 <= disc (w u) <= b) /\ is_RInt (fun u => disc (w u)) 0 T (1/2) /\ sizes = batch_sizes n 2 /\
  forall p q, chance (coin_with (frozen w) (S (length sizes)) disc [b; T] 0 (mk_ppp n sizes 0) tt) fst p ->
    chance (draw_rows n (map (DUniform 0) [b; T])) (forallb (above (fun u => disc (w u) - 0))) q -> p <> q.
Proof. exact batched_law_wrong. Qed.
Print Assumptions C88_batches_refuted.
(** The two probabilities of the witness. *)
Theorem C88_batches_values : chance (coin_with (frozen (fun u => u)) 3 half_step [1; 1] 0 (mk_ppp 3 [2; 1]%nat 0) tt) fst (3/20) /\
  chance (draw_rows 3 (map (DUniform 0) [1; 1])) (forallb (above (fun u => half_step u - 0))) (1/8).
Proof. exact (conj three_points three_iid). Qed.
Print Assumptions C88_batches_values.

(** C20: Barker's acceptance and the two-coin algorithm for coins that are computations themselves. *)
Theorem C20_barker_law : forall w1 w2, chance (barker o_ulog_lt w1 w2) (fun b => b) (exp w1 / (exp w1 + exp w2)).
Proof. exact barker_law. Qed.
Print Assumptions C20_barker_law.
Theorem C20_sampler_law : forall A (c1 c2 : M (bool * A)) E w1 w2 h1 h2 p1 p2 prop0 n,
  total c1 (fun _ => True) -> total c2 (fun _ => True) ->
  chance c1 (fun r => fst r) p1 -> chance c2 (fun r => fst r) p2 ->
  chance c1 (fun r => fst r && E (snd r)) h1 -> chance c2 (fun r => fst r && E (snd r)) h2 ->
  0 < p1 + p2 -> (0 < n)%nat ->
  exists v1 v2 v, let m := sample_twocoin (memoryless c1 c2) w1 w2 0 prop0 n tt in
    chance m (won true E) v1 /\ chance m (won false E) v2 /\ chance m total_mass v /\ 0 < v /\
    v1 / v = exp w1 * h1 / (exp w1 * p1 + exp w2 * p2) /\ v2 / v = exp w2 * h2 / (exp w1 * p1 + exp w2 * p2) /\
    v = 1 - (1 - (exp w1 * p1 + exp w2 * p2) / (exp w1 + exp w2)) ^ n.
Proof. exact sampler_law. Qed.
Print Assumptions C20_sampler_law.
(** C21: detailed balance for such coins. *)
Theorem C21_sampler_balance : forall A (c1 c2 : M (bool * A)) w1 w2 p1 p2 e a b n,
  total c1 (fun _ => True) -> total c2 (fun _ => True) -> chance c1 (fun r => fst r) p1 -> chance c2 (fun r => fst r) p2 -> 0 <= e <= 1 ->
  exists u v, chance (sample_twocoin (memoryless c1 c2) w1 w2 e a n tt) (won true (fun _ => true)) u /\
    chance (sample_twocoin (memoryless c2 c1) w2 w1 e b n tt) (won true (fun _ => true)) v /\
    exp w2 * p2 * u = exp w1 * p1 * v.
Proof. exact sampler_balance. Qed.
Print Assumptions C21_sampler_balance.
(** a coin: no point of a Poisson process falls below the diagonal *)
Example C20_sampler_example : let c := do r <- sample_ppp 1 [1; 1]; ret (forallb (fun r => negb (Rltb (nth 1 r 0) (nth 0 r 0))) r, tt) in
  total c (fun _ => True) /\ chance c (fun r => fst r) (exp (- (1/2))).
Proof. exact sampler_example. Qed.
