(** Vocabulary for the statements about MCEM. *)
From Coq Require Import Reals List Sorted.
From Verif Require Import Base Np Rng M_mjp SpecMjp M_inf M_adapt M_skel M_sw SpecSkel SpecSeed Mat.
Import ListNotations.
Local Open Scope R_scope.

(** [objs]: the objectives of the iterations so far (at most [k]), [fin]: the loop has ended.  It ends
    after the first iteration whose objective is closer than [ftol] to the one before. *)
Definition stops_first (ftol : R) (objs : list R) (fin : bool) (k : nat) : Prop :=
  (forall j a b, nth_error objs j = Some a -> nth_error objs (S j) = Some b -> (Rabs (b - a) < ftol <-> fin = true /\ S (S j) = length objs)) /\
  (fin = true -> (2 <= length objs <= k)%nat) /\ (fin = false -> length objs = k).
(** [m] returns [a] for some draws *)
Definition may_return {A} (m : M A) (a : A) : Prop := exists o k, fst (m o k) = Ok a.
(** [xs] are successive states of a chain started at [x]: each comes from the one before *)
Definition successive {X} (upd : X -> M X) (x : X) (xs : list X) : Prop :=
  forall j a b, nth_error (x :: xs) j = Some a -> nth_error (x :: xs) (S j) = Some b -> may_return (upd a) b.

(** an anchorage whose jump path is well formed and visits states below [dim] *)
Definition particle (dim : nat) (h : anchorage) (y : jump_path) : Prop :=
  prune_anchorage h = Ok y /\ wf_skel y /\ Forall (fun i => (i < dim)%nat) (sk_x y).
(** [v] is the expected log posterior of the generator [gen] over the paths [yy] *)
Definition em_objective (dim : nat) (yy : list jump_path) (alp bet : omat) (gen : mat) (v : R) : Prop :=
  exists ll, Forall2 (fun y l => eval_loglik dim y gen = Ok (Some l)) yy ll /\ v = np_mean ll + eval_logprior dim gen alp bet.

(** bounds as numpy arrays; None stands for no bound in any of [n] coordinates *)
Definition lower_of (lb : option (list ext)) (n : nat) : list ext := match lb with None => repeat NegInf n | Some l => l end.
Definition upper_of (ub : option (list ext)) (n : nat) : list ext := match ub with None => repeat PosInf n | Some u => u end.
(** a non-empty interval of real numbers *)
Definition interval (l u : ext) : Prop := ele l u /\ l <> PosInf /\ u <> NegInf.
(** [l'], [u'] are [l], [u] moved inwards by the buffer or half the width; infinite ends stay *)
Definition inset (b : R) (l u l' u' : ext) : Prop :=
  match l, u with
  | Fin x, Fin y => l' = Fin (x + Rmin ((y - x) / 2) b) /\ u' = Fin (y - Rmin ((y - x) / 2) b)
  | Fin x, _ => l' = Fin (x + b) /\ u' = u
  | _, Fin y => l' = l /\ u' = Fin (y - b)
  | _, _ => l' = l /\ u' = u
  end.

(** a standard seed in which the support times [u] of an interval of length [dt] are stored *)
Definition prepared (dt : R) (u : list R) (s : M_skel.skel) : Prop := standard s /\ 0 < dt /\ StronglySorted Rlt u /\ u <> [] /\ forall v, In v u -> In (v / dt) (k_t s).
(** ... for every interval of a partition *)
Definition all_prepared (dts : list R) (supp : list (list R)) (z : partition) : Prop := length z = length dts /\ length supp = length dts /\ forall i dt u s, nth_error dts i = Some dt -> nth_error supp i = Some u -> nth_error z i = Some s -> prepared dt u s.
(** an anchorage with increasing times, one state and one value each *)
Definition anch_ok (h : anchorage) : Prop := StronglySorted Rlt (a_t h) /\ (2 <= length (a_t h))%nat /\ length (a_y h) = length (a_t h) /\ length (a_v h) = length (a_t h).
(** [m] makes no draws and returns [a] *)
Definition det {A} (m : Rng.M A) (a : A) : Prop := forall o k, m o k = (Ok a, k).

(** what switching maximize_posterior yields: objective, parameters, generator, particles; and the state of the regime sampler then *)
Section Yield.
Context {Th P S' : Type}.
Notation yield := (R * Th * mat * list P * S')%type.
Definition y_obj (y : yield) : R := fst (fst (fst (fst y))).
Definition y_thi (y : yield) : Th := snd (fst (fst (fst y))).
Definition y_lam (y : yield) : mat := snd (fst (fst y)).
Definition y_pp (y : yield) : list P := snd (fst y).
Definition y_sp (y : yield) : S' := snd y.
End Yield.
