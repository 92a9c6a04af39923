(** Randomness: a numpy Generator is an arbitrary sequence of draws.

    An [oracle] answers the k-th request made to the generator; it may answer
    anything allowed by the support of the requested distribution ([valid]).
    Theorems quantify over all valid oracles, i.e. over all outcomes. *)
From Coq Require Import Reals List Bool.
From Verif Require Import Base.
Import ListNotations.
Local Open Scope R_scope.

(** Real-valued requests (numpy.random.Generator methods). *)
Inductive rdist : Type :=
| DUniform (lo hi : R)      (* uniform(lo, hi): lo + (hi-lo)*u, u in [0,1) *)
| DExp (scale : R)          (* exponential(scale) *)
| DBeta (a b : R)           (* beta(a, b) *)
| DNormal                   (* normal(), standard *)
| DWald (mean scale : R)    (* wald(mean, scale) *)
| DGamma (shape scale : R)  (* gamma(shape, scale) *)
| DLognormal.               (* lognormal() *)

(** Integer-valued requests. *)
Inductive ndist : Type :=
| DPoisson (lam : R)        (* poisson(lam) *)
| DChoice (p : list R)      (* choice(len(p), p=p): an index of positive probability *)
| DPick (n : nat).          (* choice / integers(n): an index below n *)

(** Support of each distribution.  Events of probability zero that numpy
    documents as possible (uniform returning its lower end) are included; a
    continuous draw being exactly an end point of an open support is not. *)
Definition rsupport (d : rdist) (x : R) : Prop :=
  match d with
  | DUniform lo hi => exists u, 0 <= u < 1 /\ x = lo + (hi - lo) * u
  | DExp scale => 0 < scale -> 0 < x
  | DBeta a b => 0 < a -> 0 < b -> 0 < x < 1
  | DNormal => True
  | DWald m s => 0 < m -> 0 < s -> 0 < x
  | DGamma a s => 0 < a -> 0 < s -> 0 < x
  | DLognormal => 0 < x
  end.
Definition nsupport (d : ndist) (n : nat) : Prop :=
  match d with
  | DPoisson lam => lam = 0 -> n = 0%nat
  | DChoice p => 0 < nth n p 0
  | DPick m => (0 < m)%nat -> (n < m)%nat
  end.

Record oracle : Type := { ora_r : nat -> rdist -> R; ora_n : nat -> ndist -> nat }.
Definition nonempty_n (d : ndist) : Prop :=
  match d with DChoice p => exists i, 0 < nth i p 0 | _ => True end.
Definition valid (o : oracle) : Prop :=
  (forall k d, rsupport d (ora_r o k d)) /\
  (forall k d, nonempty_n d -> nsupport d (ora_n o k d)).

(** State over the number of draws made so far. *)
Definition M (A : Type) : Type := oracle -> nat -> res A * nat.
Definition ret {A} (a : A) : M A := fun _ k => (Ok a, k).
Definition raise {A} (e : exn) : M A := fun _ k => (Raise e, k).
Definition nofuel {A} : M A := fun _ k => (NoFuel, k).
Definition bind {A B} (m : M A) (f : A -> M B) : M B := fun o k =>
  match m o k with
  | (Ok a, k') => f a o k'
  | (Raise e, k') => (Raise e, k')
  | (NoFuel, k') => (NoFuel, k')
  end.
Notation "'do' x <- m ; k" := (bind m (fun x => k))
  (at level 60, x pattern, m at level 55, k at level 60, right associativity).
Definition lift {A} (r : res A) : M A := fun _ k => (r, k).
Definition lift_opt {A} (e : exn) (r : option A) : M A :=
  fun _ k => (match r with Some a => Ok a | None => Raise e end, k).
(** Python's assert statement *)
Definition assert_ (b : bool) : M unit := if b then ret tt else raise AssertionError.

Definition draw_r (d : rdist) : M R := fun o k => (Ok (ora_r o k d), S k).
Definition draw_n (d : ndist) : M nat := fun o k => (Ok (ora_n o k d), S k).

(** m independent real draws (size=m) *)
Fixpoint draw_rs (ds : list rdist) : M (list R) :=
  match ds with
  | [] => ret []
  | d :: r => do x <- draw_r d; do xs <- draw_rs r; ret (x :: xs)
  end.

(** Generator.choice(n, p=p): numpy raises ValueError unless p is a probability
    vector (NaN entries arise from 0/0 and also raise). *)
Definition is_prob_vector (p : list R) : bool :=
  forallb (fun x => Rleb 0 x) p && Reqb (fold_right Rplus 0 p) 1.
Definition choice (p : list R) : M nat :=
  if is_prob_vector p then draw_n (DChoice p) else raise ValueError.

(** [holds m P]: whatever the draws, the outcome of [m] satisfies [P]. *)
Definition holds {A} (m : M A) (P : res A -> Prop) : Prop :=
  forall o k, valid o -> P (fst (m o k)).
(** [returns m P]: whatever the draws, if [m] returns a value it satisfies [P]. *)
Definition returns {A} (m : M A) (P : A -> Prop) : Prop :=
  holds m (fun r => match r with Ok a => P a | _ => True end).
(** [safe m P]: whatever the draws, [m] never raises and any value satisfies [P]
    (running out of the model's fuel is not excluded). *)
Definition safe {A} (m : M A) (P : A -> Prop) : Prop :=
  holds m (fun r => match r with Ok a => P a | Raise _ => False | NoFuel => True end).
(** [total m P]: whatever the draws, [m] returns a value and it satisfies [P]. *)
Definition total {A} (m : M A) (P : A -> Prop) : Prop :=
  holds m (fun r => match r with Ok a => P a | _ => False end).

(** The same, for oracles with an additional property [G] (for instance one that
    holds with probability one). *)
Definition holds_if {A} (G : oracle -> Prop) (m : M A) (P : res A -> Prop) : Prop :=
  forall o k, valid o -> G o -> P (fst (m o k)).
Definition returns_if {A} (G : oracle -> Prop) (m : M A) (P : A -> Prop) : Prop :=
  holds_if G m (fun r => match r with Ok a => P a | _ => True end).
Definition safe_if {A} (G : oracle -> Prop) (m : M A) (P : A -> Prop) : Prop :=
  holds_if G m (fun r => match r with Ok a => P a | Raise _ => False | NoFuel => True end).
Definition total_if {A} (G : oracle -> Prop) (m : M A) (P : A -> Prop) : Prop :=
  holds_if G m (fun r => match r with Ok a => P a | _ => False end).

(** Probability-one properties of the draws: no uniform draw equals its lower end, and
    no two uniform draws from the same interval coincide. *)
Definition uniform_pos (o : oracle) : Prop :=
  forall k lo hi, lo < hi -> lo < ora_r o k (DUniform lo hi).
Definition uniform_distinct (o : oracle) : Prop :=
  forall k k' lo hi, lo < hi -> k <> k' -> ora_r o k (DUniform lo hi) <> ora_r o k' (DUniform lo hi).
Definition generic (o : oracle) : Prop := uniform_pos o /\ uniform_distinct o.

(** A scripted oracle: what the k-th request returns, per family.  Used for examples
    and for witnesses of refuted properties. *)
Record script : Type := {
  sc_u : nat -> R; sc_e : nat -> R; sc_b : nat -> R; sc_n : nat -> R; sc_w : nat -> R;
  sc_g : nat -> R; sc_l : nat -> R; sc_p : nat -> nat; sc_c : nat -> nat; sc_k : nat -> nat }.
Record script_ok (s : script) : Prop := {
  so_u : forall k, 0 <= sc_u s k < 1; so_e : forall k, 0 < sc_e s k;
  so_b : forall k, 0 < sc_b s k < 1; so_w : forall k, 0 < sc_w s k;
  so_g : forall k, 0 < sc_g s k; so_l : forall k, 0 < sc_l s k }.
(** first index with a positive entry *)
Fixpoint first_pos (p : list R) : nat :=
  match p with [] => 0 | a :: r => if Rltb 0 a then 0%nat else S (first_pos r) end.
Definition oracle_of (s : script) : oracle := {|
  ora_r := fun k d =>
    match d with
    | DUniform lo hi => lo + (hi - lo) * sc_u s k
    | DExp _ => sc_e s k | DBeta _ _ => sc_b s k | DNormal => sc_n s k
    | DWald _ _ => sc_w s k | DGamma _ _ => sc_g s k | DLognormal => sc_l s k
    end;
  ora_n := fun k d =>
    match d with
    | DPoisson lam => if Reqb lam 0 then 0%nat else sc_p s k
    | DChoice p => if Rltb 0 (nth (sc_c s k) p 0) then sc_c s k else first_pos p
    | DPick n => Nat.modulo (sc_k s k) n
    end |}.
