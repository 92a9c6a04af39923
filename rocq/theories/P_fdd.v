(** Property theorems C89 and the law of C69: finite-dimensional laws of the jump processes the
    code simulates, obtained by integrating out its draws. *)
From Coq Require Import Reals List Bool Arith Lra Lia.
From Verif Require Import Base Rng L_rng M_mjp SpecMjp SpecLin SpecLaw SpecFdd L_bridge3 L_fdd3 L_fdd4 L_fdd5 L_fdd6 L_fwd4 L_fwd5 L_fwd6 L_fwd7 L_lindemo L_simdemo Mat.
Import ListNotations.
Local Open Scope R_scope.

(** the event [visits obs] is that the path is in state y at time u for every (u, y) of obs *)
Theorem C89_visits : forall s obs, timed s -> Forall (fun p => 0 <= fst p) obs ->
  (visits obs s = true <-> forall u y, In (u, y) obs -> state_at s u y).
Proof. exact visits_spec. Qed.
Print Assumptions C89_visits.

(** bridges: P(X_u1 = y1, ..., X_um = ym | X_T = f) of the Markov process with generator gen *)
Theorem C89_bridge : forall L dim gen T, generator dim gen -> 0 < rate_bound dim gen -> 0 < T -> expm_exact L ->
  forall i f obs, (i < dim)%nat -> (f < dim)%nat -> 0 < get_trans L dim T gen i f -> in_order 0 obs T ->
  Forall (fun p => (snd p < dim)%nat) obs ->
  exists p, (forall fuel, chance (sample_bridge L fuel T i f dim gen) (visits obs) (p fuel)) /\
    Un_cv p (markov (fun t => get_trans L dim t gen) 0 i (obs ++ [(T, f)]) / get_trans L dim T gen i f).
Proof. exact bridge_fdd. Qed.
Print Assumptions C89_bridge.

(** backward simulation: the process started from the uniform law on the states, given X_T = f *)
Theorem C89_backwards : forall L dim gen T, generator dim gen -> (exists a, (a < dim)%nat /\ gen a a < 0) -> 0 < T -> expm_exact L ->
  forall f obs, (f < dim)%nat -> in_order 0 obs T ->
  Forall (fun p => (snd p < dim)%nat) obs ->
  exists p, (forall fuel, chance (sample_backwards L fuel T f dim gen) (visits obs) (p fuel)) /\
    Un_cv p (rsum dim (fun i => markov (fun t => get_trans L dim t gen) 0 i (obs ++ [(T, f)])) / rsum dim (fun j => get_trans L dim T gen j f)).
Proof. exact (fun L dim gen T Hg Hn HT HL f obs => backwards_fdd L dim gen T Hg (neg_rate dim gen Hn) HT HL f obs Hn). Qed.
Print Assumptions C89_backwards.

(** forward simulation from a given state: P(X_u1 = y1, ..., X_um = ym | X_0 = x) *)
Theorem C89_forwards : forall L dim gen T, generator dim gen -> 0 < T -> expm_exact L ->
  forall x obs, (2 <= dim)%nat -> (x < dim)%nat -> in_order 0 obs T -> Forall (fun p => (snd p < dim)%nat) obs ->
  exists p, (forall fuel, chance (sample_forwards L fuel T (Some x) dim gen) (visits obs) (p fuel)) /\
    Un_cv p (markov (fun t => get_trans L dim t gen) 0 x obs).
Proof. exact forwards_fdd. Qed.
Print Assumptions C89_forwards.

(** forward simulation without a starting state: the process started from its stationary law *)
Theorem C89_forwards_stationary : forall L dim gen, generator dim gen -> expm_exact L -> forall T, 0 < T ->
  forall obs, (2 <= dim)%nat -> pos_off dim gen -> solve_ok L dim (stat_matrix gen) stat_rhs ->
  in_order 0 obs T -> Forall (fun p => (snd p < dim)%nat) obs ->
  exists p, rsum dim p = 1 /\ (forall i, (i < dim)%nat -> 0 < p i) /\ stationary dim gen p /\
  exists c, (forall fuel, chance (sample_forwards L fuel T None dim gen) (visits obs) (c fuel)) /\
    Un_cv c (rsum dim (fun x => p x * markov (fun t => get_trans L dim t gen) 0 x obs)).
Proof. exact forwards_stat_fdd. Qed.
Print Assumptions C89_forwards_stationary.

(** ... which the transition probabilities leave as it is, at every time *)
Theorem C89_stationary : forall L dim gen, expm_exact L ->
  forall p, stationary dim gen p -> forall t y, (y < dim)%nat -> rsum dim (fun x => p x * get_trans L dim t gen x y) = p y.
Proof. exact stationary_trans. Qed.
Print Assumptions C89_stationary.

(** C90: redrawing a partition: the pieces are independent; a piece between two conditioning
    times is the process pinned to the states at its ends, the last piece the process started
    from the state at the last conditioning time, and the first piece the process started from
    the uniform law given its state at the first conditioning time *)
Theorem C90_mutate_law : forall L dim gen, (2 <= dim)%nat -> generator dim gen -> pos_off dim gen -> expm_exact L ->
  forall p mids q o0 os oq, asked dim o0 p -> Forall2 (asked dim) os mids -> asked dim oq q ->
  let P := fun t => get_trans L dim t gen in
  exists c, (forall fuel, chance (mutate_partition L fuel (p :: mids ++ [q]) dim gen) (all_visit (o0 :: os ++ [oq])) (c fuel)) /\
    Un_cv c (rsum dim (fun i => markov P 0 i (o0 ++ [(sk_fin p, final_of p)])) / rsum dim (fun j => P (sk_fin p) j (final_of p)) *
      fold_right Rmult 1 (map (fun c => pinned P (sk_fin (snd c)) (first_of (snd c)) (final_of (snd c)) (fst c)) (combine os mids)) *
      markov P 0 (first_of q) oq).
Proof. exact mutate_law. Qed.
Print Assumptions C90_mutate_law.

(** without conditioning times the whole path is a fresh stationary one *)
Theorem C90_mutate_single : forall L dim gen q obs, (2 <= dim)%nat -> generator dim gen -> pos_off dim gen -> expm_exact L ->
  solve_ok L dim (stat_matrix gen) stat_rhs -> asked dim obs q ->
  exists p, rsum dim p = 1 /\ (forall i, (i < dim)%nat -> 0 < p i) /\ stationary dim gen p /\
  exists c, (forall fuel, chance (mutate_partition L fuel [q] dim gen) (all_visit [obs]) (c fuel)) /\
    Un_cv c (rsum dim (fun x => p x * markov (fun t => get_trans L dim t gen) 0 x obs)).
Proof. exact mutate_single. Qed.
Print Assumptions C90_mutate_single.

(** the first piece has the law of the stationary process given its end exactly when the
    stationary law is uniform *)
Theorem C90_backwards_stationary_iff : forall L dim gen, (2 <= dim)%nat -> generator dim gen -> pos_off dim gen -> expm_exact L ->
  forall p, rsum dim p = 1 -> (forall i, (i < dim)%nat -> 0 < p i) -> stationary dim gen p -> forall T, 0 < T ->
  ((forall f obs, (f < dim)%nat -> in_order 0 obs T -> Forall (fun c => (snd c < dim)%nat) obs ->
    exists c, (forall fuel, chance (sample_backwards L fuel T f dim gen) (visits obs) (c fuel)) /\
      Un_cv c (rsum dim (fun i => p i * markov (fun t => get_trans L dim t gen) 0 i (obs ++ [(T, f)])) / p f))
  <-> forall i, (i < dim)%nat -> p i = / INR dim).
Proof. exact backwards_stationary. Qed.
Print Assumptions C90_backwards_stationary_iff.

(** so that it does not, for a generator as simple as this one *)
Theorem C90_stationary_refuted : exists dim gen p T, generator dim gen /\ pos_off dim gen /\ rsum dim p = 1 /\ stationary dim gen p /\ 0 < T /\
  forall L, expm_exact L ->
  ~ (forall f obs, (f < dim)%nat -> in_order 0 obs T -> Forall (fun c => (snd c < dim)%nat) obs ->
      exists c, (forall fuel, chance (sample_backwards L fuel T f dim gen) (visits obs) (c fuel)) /\
        Un_cv c (rsum dim (fun i => p i * markov (fun t => get_trans L dim t gen) 0 i (obs ++ [(T, f)])) / p f)).
Proof. exact not_stationary_witness. Qed.
Print Assumptions C90_stationary_refuted.

Example C90_example :
  let s := mk_skel [0; 1/2] [0%nat; 1%nat] 1 in
  asked 2 [(1/3, 1%nat)] s /\ Forall2 (asked 2) [[(1/4, 0%nat); (3/4, 1%nat)]] [s] /\ generator 2 gen2 /\ pos_off 2 gen2 /\ expm_exact la0 /\
  solve_ok la0 2 (stat_matrix gen2) stat_rhs.
Proof.
  assert (H : forall obs, in_order 0 obs 1 -> Forall (fun p => (snd p < 2)%nat) obs -> asked 2 obs (mk_skel [0; 1/2] [0%nat; 1%nat] 1)).
  { intros obs H1 H2. split; [cbn; lra|]. split; [discriminate|]. split; [|split; [exact H1|exact H2]].
    constructor; [lia|]. constructor; [lia|constructor]. }
  split; [|split; [|split; [exact gen2_generator|split; [exact gen2_pos|split; [exact la0_expm|exact la0_solve]]]]].
  - apply H; [cbn; lra|]. constructor; [cbn; lia|constructor].
  - constructor; [|constructor]. apply H; [cbn; lra|]. constructor; [cbn; lia|]. constructor; [cbn; lia|constructor].
Qed.

(** C69: the law of the number of transitions of the uniformised bridge *)
Theorem C69_n_trans_law : forall L dim gen T i f n fuel, generator dim gen -> 0 < rate_bound dim gen -> 0 < T -> expm_exact L ->
  (i < dim)%nat -> (f < dim)%nat -> 0 < get_trans L dim T gen i f -> (n < fuel)%nat ->
  let rt := rate_bound dim gen * T in
  chance (sample_n_trans fuel dim (dtrans dim gen) (rate_bound dim gen) T (get_trans L dim T gen) i f)
    (fun r => Nat.eqb (fst r) n) (exp (- rt) * rt ^ n / INR (fact n) * mpow dim (dtrans dim gen) n i f / get_trans L dim T gen i f).
Proof. exact n_trans_law. Qed.
Print Assumptions C69_n_trans_law.

Example C89_example : generator 2 gen2 /\ 0 < rate_bound 2 gen2 /\ expm_exact la0 /\ 0 < get_trans la0 2 1 gen2 0%nat 1%nat /\
  in_order 0 [(1/3, 1%nat); (1/2, 0%nat)] 1 /\ (exists a, (a < 2)%nat /\ gen2 a a < 0).
Proof.
  split; [exact gen2_generator|]. split; [apply (neg_rate 2 gen2); exists 0%nat; split; [lia|unfold gen2; cbn; lra]|].
  split; [exact la0_expm|]. split; [exact exp_gen2_pos|]. split; [cbn; lra|]. exists 0%nat. split; [lia|unfold gen2; cbn; lra].
Qed.
