(** The law of a computation: the mean of a function of its outcome, obtained by
    integrating its draws out one after the other, in the order in which they are made and
    each against the distribution that was asked for.  This is the only place where the
    densities of numpy's distributions are written down. *)
From Coq Require Import Reals List Bool Arith.
From Coquelicot Require Import Hierarchy RInt RInt_gen Series Rbar.
From Verif Require Import Base Rng.
Import ListNotations.
Local Open Scope R_scope.

(** density of Beta(i+1, j+1) on (0, 1) *)
Definition beta_density (i j : nat) (x : R) : R :=
  INR (fact (i + j + 1)) / (INR (fact i) * INR (fact j)) * (x ^ i * (1 - x) ^ j).

(** [under w Fa Fb g v]: the mean of g under the density proportional to w, over the range
    between the ends that the filters Fa and Fb converge to, is v.  The normalising constant
    is the integral of w. *)
Definition under (w : R -> R) (Fa Fb : (R -> Prop) -> Prop) (g : R -> R) (v : R) : Prop :=
  exists Z, 0 < Z /\ is_RInt_gen w Fa Fb Z /\ is_RInt_gen (fun x => w x * g x) Fa Fb (Z * v).
Definition normal_weight (x : R) : R := exp (- x ^ 2 / 2).
Definition gamma_weight (a s x : R) : R := exp ((a - 1) * ln x - x / s).

(** the inverse Gaussian density sqrt(s / (2 pi x^3)) exp(- s (x - m)^2 / (2 m^2 x)) *)
Definition wald_weight (m s x : R) : R := exp (- (3 / 2) * ln x - s * (x - m) ^ 2 / (2 * m ^ 2 * x)).

(** [expect_r d g v]: the mean of g under the real distribution d is v. *)
Definition expect_r (d : rdist) (g : R -> R) (v : R) : Prop :=
  match d with
  | DUniform lo hi => lo < hi /\ is_RInt g lo hi ((hi - lo) * v)
  | DBeta a b => exists i j, a = INR i + 1 /\ b = INR j + 1 /\ is_RInt (fun x => beta_density i j x * g x) 0 1 v
  | DExp s => 0 < s /\ is_RInt_gen (fun x => exp (- x / s) / s * g x) (at_point 0) (Rbar_locally p_infty) v
  | DNormal => under normal_weight (Rbar_locally m_infty) (Rbar_locally p_infty) g v
  | DGamma a s => 0 < a /\ 0 < s /\ under (gamma_weight a s) (at_right 0) (Rbar_locally p_infty) g v
  | DWald m s =>
      (0 < m /\ 0 < s /\ under (wald_weight m s) (at_right 0) (Rbar_locally p_infty) g v) \/
      (m = 0 /\ s = 0 /\ forall x, g x = v)  (* the model writes DWald 0 0 for wald(nan, inf), which is nan: only constants have a mean *)
  | _ => False  (* no statement about the law of a lognormal draw is made *)
  end.
(** [expect_n d g v]: the same for the integer distributions. *)
Definition expect_n (d : ndist) (g : nat -> R) (v : R) : Prop :=
  match d with
  | DPoisson lam => 0 <= lam /\ is_series (fun n => exp (- lam) * (lam ^ n / INR (fact n)) * g n) v
  | DChoice p => is_prob_vector p = true /\ v = fold_right Rplus 0 (map (fun i => nth i p 0 * g i) (seq 0 (length p)))
  | DPick m => (0 < m)%nat /\ v = fold_right Rplus 0 (map g (seq 0 m)) / INR m
  end.

(** [mean F m v]: the mean of F over the outcomes of m is v. *)
Inductive mean {A : Type} (F : res A -> R) : M A -> R -> Prop :=
| mean_done : forall m r, (forall o k, valid o -> m o k = (r, k)) -> mean F m (F r)
| mean_real : forall m d (f : R -> M A) g v,
    (forall o k, valid o -> m o k = bind (draw_r d) f o k) ->
    (forall x, rsupport d x -> mean F (f x) (g x)) -> expect_r d g v -> mean F m v
| mean_int : forall m d (f : nat -> M A) g v,
    (forall o k, valid o -> m o k = bind (draw_n d) f o k) -> nonempty_n d ->
    (forall n, nsupport d n -> mean F (f n) (g n)) -> expect_n d g v -> mean F m v.

(** the mean of a function of the value returned (zero if none is) *)
Definition value {A} (f : A -> R) (r : res A) : R := match r with Ok a => f a | _ => 0 end.
Definition average {A} (m : M A) (f : A -> R) (v : R) : Prop := mean (value f) m v.
(** the probability that m returns a value in E *)
Definition ind (b : bool) : R := if b then 1 else 0.
Definition chance {A} (m : M A) (E : A -> bool) (p : R) : Prop := average m (fun a => ind (E a)) p.
