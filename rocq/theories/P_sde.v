(** Property theorems C39 to C41. *)
From Coq Require Import Reals List Bool Arith Lia Lra Psatz Sorted.
From Verif Require Import Base Mat Rng L_rng M_hit M_path SpecPath L_sde L_sde2 L_sde3.
Import ListNotations.
Local Open Scope R_scope.

(** C39.  Coordinate j of the sampled path is the affine image [X j] of the draws
    number j, j + d, j + 2d, ... (so coordinates use disjoint draws), with the moments
    returned by moments_wiener. *)
Theorem C39_wiener : forall t init mu, time_grid t -> exists X : nat -> list R -> list R,
  (forall o k, sample_wiener t init mu o k = (Ok (map (fun j => X j (every (normals o k (length t * length init)) (length t) (length init) j)) (seq 0 (length init))),
     (k + length t * length init)%nat)) /\
  forall j, (j < length init)%nat -> exists m c, moments_wiener t (nth j init 0) (nth j mu 0) = Ok (m, c) /\ gaussian (length t) (X j) m c.
Proof. exact wiener_statement. Qed.
Print Assumptions C39_wiener.
Theorem C39_brownian_bridge : forall t T a b, time_grid t -> Forall (fun s => s < T) t -> exists X,
  (forall o k, sample_brownbr t T a b o k = (Ok (X (normals o k (length t))), (k + length t)%nat)) /\
  exists m c, moments_brownbr t T a b = Ok (m, c) /\ gaussian (length t) X m c.
Proof. exact brownbr_statement. Qed.
Print Assumptions C39_brownian_bridge.
(** what moments_wiener and moments_brownbr return *)
Theorem C39_wiener_moments : forall t init mu m c, moments_wiener t init mu = Ok (m, c) ->
  forall i j, (i < length t)%nat -> (j < length t)%nat -> nth i m 0 = init + mu * nth i t 0 /\ entry c i j = Rmin (nth i t 0) (nth j t 0).
Proof. exact wiener_moment_values. Qed.
Print Assumptions C39_wiener_moments.
Theorem C39_bridge_moments : forall t T a b m c, moments_brownbr t T a b = Ok (m, c) ->
  forall i j, (i < length t)%nat -> (j < length t)%nat -> nth i m 0 = a + (b - a) * nth i t 0 / T /\
    entry c i j = Rmin (nth i t 0) (nth j t 0) * (T - Rmax (nth i t 0) (nth j t 0)) / T.
Proof. exact bridge_moment_values. Qed.
Print Assumptions C39_bridge_moments.
(** conditioning the Wiener process on its end point gives the bridge, whatever the drift *)
Theorem C39_conditioning : forall t T init mu fin m c, t <> [] -> Forall (fun s => 0 < s < T) t ->
  moments_wiener (t ++ [T]) init mu = Ok (m, c) ->
  exists r, moments_brownbr t T init fin = Ok r /\ moments_gaussian_bridge fin m c = Some r.
Proof. exact conditioned_wiener. Qed.
Print Assumptions C39_conditioning.
(** and for every Gaussian vector the result is the conditional law given the last
    coordinate: on that event the others are the returned mean plus a noise that has the
    returned covariance and is uncorrelated with the last coordinate *)
Theorem C39_conditional_law : forall n X mean cov, gaussian (S n) X mean cov -> 0 < entry cov n n ->
  forall x cm cc, moments_gaussian_bridge x mean cov = Some (cm, cc) ->
  exists B C : nat -> nat -> R,
    length cm = n /\ length cc = n /\
    (forall z, length z = S n -> nth n (X z) 0 = nth n mean 0 + rsum (S n) (fun k => C n k * nth k z 0)) /\
    (forall z, length z = S n -> nth n (X z) 0 = x -> forall i, (i < n)%nat -> nth i (X z) 0 = nth i cm 0 + rsum (S n) (fun k => B i k * nth k z 0)) /\
    (forall i, (i < n)%nat -> rsum (S n) (fun k => B i k * C n k) = 0) /\
    (forall i j, (i < n)%nat -> (j < n)%nat -> entry cc i j = rsum (S n) (fun k => B i k * B j k)).
Proof. exact conditional_law. Qed.
Print Assumptions C39_conditional_law.
Example C39_example : time_grid [1/4; 3/4] /\ Forall (fun s => s < 1) [1/4; 3/4].
Proof. repeat split; try easy; repeat constructor; lra. Qed.
Example C39_example_law : exists X m c, gaussian 2 X m c /\ 0 < entry c 1 1 /\ moments_wiener [1; 2] 0 0 = Ok (m, c).
Proof. exact gaussian_example. Qed.

(** C40 *)
Theorem C40_layered_bridge : forall fuel mp n t T a b inf ub lb,
  returns (sample_layerbr fuel mp n t T a b inf ub lb) (layered t a b inf ub lb).
Proof. exact sample_layerbr_returns. Qed.
Print Assumptions C40_layered_bridge.
(** the assertions admit both end points equal to the infimum; then no call with an upper
    bound returns *)
Theorem C40_both_ends_at_infimum_refuted : exists t T a u lb, time_grid t /\ Forall (fun s => s < T) t /\ a < u /\
  forall fuel mp n, returns (sample_layerbr fuel mp n t T a a a (Some u) lb) (fun _ => False).
Proof. exact degenerate_witness. Qed.
Print Assumptions C40_both_ends_at_infimum_refuted.
Example C40_example : valid (oracle_of plain_script) /\
  sample_layerbr 0%nat 1%nat 1%nat [1/2] 1 0 2 0 None (Some 1) (oracle_of plain_script) 0%nat = (Ok ([1], Some [true; true]), 5%nat).
Proof. split; [apply oracle_of_valid, plain_script_ok|exact demo_layerbr]. Qed.

(** C41 *)
Theorem C41_reverse : forall t x T, 0 <= T -> in_range T t ->
  exists t' x', reverse t x T = Ok (t', x') /\ length t' = length t /\ length x' = length x /\ in_range T t' /\
    (StronglySorted Rlt t -> StronglySorted Rlt t') /\ (forall i, (i < length t)%nat -> nth i t' 0 = T - nth (length t - S i) t 0) /\
    (forall i, (i < length x)%nat -> nth i x' 0 = nth (length x - S i) x 0) /\ reverse t' x' T = Ok (t, x).
Proof. exact reverse_statement. Qed.
Print Assumptions C41_reverse.
Theorem C41_reverse_rejects : forall t x T s, In s t -> ~ (0 <= s <= T) -> exists e, reverse t x T = Raise e.
Proof. exact reverse_outside. Qed.
Print Assumptions C41_reverse_rejects.
Theorem C41_reflect : forall t x c, (forall l, t = Some l -> l <> [] /\ Forall (fun s => 0 <= s) l) ->
  exists x', reflect t x c = Ok (t, x') /\ length x' = length x /\ (forall i, (i < length x)%nat -> nth i x' 0 - c = c - nth i x 0) /\ reflect t x' c = Ok (t, x).
Proof. exact reflect_statement. Qed.
Print Assumptions C41_reflect.
(** an empty time array is rejected by reflect although reverse accepts it *)
Theorem C41_reflect_empty_refuted : exists x c T, 0 <= T /\ reverse [] x T = Ok ([], rev x) /\ reflect (Some []) x c = Raise ValueError.
Proof. exact reflect_empty_witness. Qed.
Print Assumptions C41_reflect_empty_refuted.
Theorem C41_pivot : forall s z T a b f g, 0 < T -> s <> [] -> Forall (fun u => 0 <= u <= 1) s -> length z = length s -> g (f T) = T -> g 0 = 0 ->
  exists t x, pivot_brownbr s z T a b f g = Ok (t, x) /\ length t = length s /\ length x = length s /\
    (forall i, (i < length s)%nat -> nth i s 0 = 0 -> nth i z 0 = 0 -> nth i t 0 = 0 /\ nth i x 0 = a) /\
    (forall i, (i < length s)%nat -> nth i s 0 = 1 -> nth i z 0 = 0 -> nth i t 0 = T /\ nth i x 0 = b).
Proof. exact pivot_statement. Qed.
Print Assumptions C41_pivot.
(** a pivoted standard bridge has the moments of the bridge it is pivoted to *)
Theorem C41_pivot_moments : forall s T a b X, 0 < T -> s <> [] -> Forall (fun u => 0 < u < 1) s ->
  (exists m c, moments_brownbr s 1 0 0 = Ok (m, c) /\ gaussian (length s) X m c) ->
  exists Y, (forall z, length z = length s -> exists t, pivot_brownbr s (X z) T a b (fun u => u) (fun u => u) = Ok (t, Y z) /\ t = map (fun u => u * T) s) /\
    exists m c, moments_brownbr (map (fun u => u * T) s) T a b = Ok (m, c) /\ gaussian (length s) Y m c.
Proof. exact pivot_gaussian. Qed.
Print Assumptions C41_pivot_moments.
(** the seeded Bessel bridge is the norm of three pivoted bridges *)
Theorem C41_seeded_bessel : forall s z T x, 0 < T -> s <> [] -> Forall (fun u => 0 < u < 1) s -> length z = length s ->
  exists t y0 y1 y2 r, gen_seeded_bessel3br s z T x = Ok (t, r) /\
    pivot_brownbr s (map (fun v => fst (fst v)) z) T 0 x (fun u => u) (fun u => u) = Ok (t, y0) /\
    pivot_brownbr s (map (fun v => snd (fst v)) z) T 0 0 (fun u => u) (fun u => u) = Ok (t, y1) /\
    pivot_brownbr s (map (fun v => snd v) z) T 0 0 (fun u => u) (fun u => u) = Ok (t, y2) /\
    length r = length s /\ forall i, (i < length s)%nat -> nth i r 0 = sqrt (nth i y0 0 ^ 2 + nth i y1 0 ^ 2 + nth i y2 0 ^ 2).
Proof. exact bessel3_statement. Qed.
Print Assumptions C41_seeded_bessel.
Example C41_example : in_range 1 [0; 1/2] /\ Forall (fun u => 0 <= u <= 1) [0; 1].
Proof. split; repeat constructor; lra. Qed.
