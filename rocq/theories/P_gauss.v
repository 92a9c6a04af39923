(** Property theorems C95 and additions to C15 and C16: laws of the Gaussian samplers and of
    sampled generators. *)
From Coquelicot Require Import Hierarchy RInt.
From Coq Require Import Reals List Bool Arith Lra Lia.
From Verif Require Import Base Rng M_mjp M_inf M_adapt M_path M_sw SpecMjp SpecInf SpecSw L_inf L_inf2 SpecPath SpecLaw SpecGauss L_gauss2 L_gauss3 L_gibbs2 L_swdemo Mat.
Import ListNotations.
Local Open Scope R_scope.

(** C95: the joint moment generating function of all coordinates at all times is that of
    independent Brownian motions with these starting points and drifts *)
Theorem C95_wiener : forall t init mu (th : nat -> nat -> R), time_grid t -> init <> [] ->
  average (sample_wiener t init mu)
    (fun w => exp (rsum (length init) (fun j => rsum (length t) (fun i => th j i * nth i (nth j w []) 0))))
    (rprod (length init) (fun j => gaussian_mgf (length t) (fun i => nth j init 0 + nth j mu 0 * nth i t 0) (fun i i' => Rmin (nth i t 0) (nth i' t 0)) (th j))).
Proof. exact wiener_law. Qed.
Print Assumptions C95_wiener.
Theorem C95_bridge : forall t T a b (th : nat -> R), time_grid t -> Forall (fun s => s < T) t ->
  average (sample_brownbr t T a b) (fun x => exp (rsum (length t) (fun i => th i * nth i x 0)))
    (gaussian_mgf (length t) (fun i => a + (b - a) * nth i t 0 / T) (fun i j => Rmin (nth i t 0) (nth j t 0) * (T - Rmax (nth i t 0) (nth j t 0)) / T) th).
Proof. exact brownbr_law. Qed.
Print Assumptions C95_bridge.
(** moments_brownbr returns the mean and the covariance of what sample_brownbr returns *)
Theorem C95_bridge_moments : forall t T a b i j, time_grid t -> Forall (fun s => s < T) t -> (i < length t)%nat -> (j < length t)%nat ->
  exists m c, moments_brownbr t T a b = Ok (m, c) /\
  average (sample_brownbr t T a b) (fun x => nth i x 0) (nth i m 0) /\
  average (sample_brownbr t T a b) (fun x => (nth i x 0 - nth i m 0) * (nth j x 0 - nth j m 0)) (entry c i j).
Proof. exact brownbr_moments. Qed.
Print Assumptions C95_bridge_moments.
Example C95_example : time_grid [1/4; 3/4] /\ Forall (fun s => s < 1) [1/4; 3/4] /\ [0; 1] <> [].
Proof. repeat split; try easy; repeat constructor; lra. Qed.

(** C15: the off-diagonal entries of a sampled generator are independent and have the gamma
    distributions given by the shapes and rates *)
Theorem C15_sample_param_law : forall dim alp bet (f : nat -> nat -> R -> R) (v : nat -> nat -> R),
  hyper dim (Rlt 0) alp -> hyper dim (Rlt 0) bet ->
  (forall i j a b, (i < dim)%nat -> (j < dim)%nat -> i <> j -> alp i j = Some a -> bet i j = Some b -> expect_r (DGamma a (1 / b)) (f i j) (v i j)) ->
  average (sample_param dim alp bet)
    (fun g => rprod dim (fun i => rprod dim (fun j => if Nat.eqb i j then 1 else match g i j with Some x => f i j x | None => 0 end)))
    (rprod dim (fun i => rprod dim (fun j => if Nat.eqb i j then 1 else v i j))).
Proof. exact sample_param_law. Qed.
Print Assumptions C15_sample_param_law.
(** C15: what mcmc.update_generator draws has the gamma posterior: the shape gains the jumps from i
    to j of the current path and the rate gains the time spent in i up to the last jump; the entries are
    independent *)
Theorem C15_gibbs_law : forall dim t vt y h n alp bet, hidden_ok dim t vt y h n -> hyper dim (Rlt 0) alp -> hyper dim (Rlt 0) bet ->
  exists (hold : nat -> R) tl_, last_jump y tl_ /\
    (forall i (f : R -> nat), (forall u, 0 <= u < tl_ -> state_at y u (f u)) -> is_RInt (fun u => if Nat.eqb (f u) i then 1 else 0) 0 tl_ (hold i)) /\
    forall (f : nat -> nat -> R -> R) (v : nat -> nat -> R),
    (forall i j a b, (i < dim)%nat -> (j < dim)%nat -> i <> j -> alp i j = Some a -> bet i j = Some b ->
       expect_r (DGamma (INR (n_jumps (M_mjp.sk_x y) i j) + a) (1 / (hold i + b))) (f i j) (v i j)) ->
    average (mcmc_update_generator dim h alp bet)
      (fun g => rprod dim (fun i => rprod dim (fun j => if Nat.eqb i j then 1 else match g i j with Some x => f i j x | None => 0 end)))
      (rprod dim (fun i => rprod dim (fun j => if Nat.eqb i j then 1 else v i j))).
Proof. exact gibbs_law. Qed.
Print Assumptions C15_gibbs_law.
(** C16: the mean of what mcmc.update_generator draws, entry by entry *)
Theorem C16_gibbs_mean : forall dim t vt y h n alp bet, hidden_ok dim t vt y h n -> hyper dim (Rlt 0) alp -> hyper dim (Rlt 0) bet ->
  exists (hold : nat -> R) tl_, last_jump y tl_ /\
    (forall i (f : R -> nat), (forall u, 0 <= u < tl_ -> state_at y u (f u)) -> is_RInt (fun u => if Nat.eqb (f u) i then 1 else 0) 0 tl_ (hold i)) /\
    forall i j a b, (i < dim)%nat -> (j < dim)%nat -> i <> j -> alp i j = Some a -> bet i j = Some b ->
      average (mcmc_update_generator dim h alp bet) (fun g => match g i j with Some x => x | None => 0 end)
        ((INR (n_jumps (M_mjp.sk_x y) i j) + a) / (hold i + b)).
Proof. exact gibbs_mean. Qed.
Print Assumptions C16_gibbs_mean.
Example C16_example_gibbs : hidden_ok 2 sw_t sw_v (M_adapt.rw_state (M_adapt.rw_init sw_y 0 0)) sw_h 4 /\ hyper 2 (Rlt 0) (hyp2 2).
Proof. split; [exact sw_hidden|apply hyp2_ok; lra]. Qed.
(** C16: get_ev is the mean of what sample_param returns *)
Theorem C16_ev_is_mean : forall dim alp bet i j, hyper dim (Rlt 0) alp -> hyper dim (Rlt 0) bet -> (i < dim)%nat -> (j < dim)%nat ->
  exists e, get_ev dim alp bet i j = Some e /\ average (sample_param dim alp bet) (fun g => match g i j with Some x => x | None => 0 end) e.
Proof. exact ev_is_mean. Qed.
Print Assumptions C16_ev_is_mean.
Example C16_example_mean : hyper 2 (Rlt 0) (hyp2 3) /\ hyper 2 (Rlt 0) (hyp2 1).
Proof. split; apply hyp2_ok; lra. Qed.
