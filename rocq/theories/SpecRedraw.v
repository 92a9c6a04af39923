(** Averaging a redrawn partition over the law of the states at its cuts. *)
From Coq Require Import Reals List Bool Arith.
From Verif Require Import Base Rng M_mjp SpecLaw SpecFdd Mat.
Import ListNotations.
Local Open Scope R_scope.

(** the sum over all lists of k states *)
Fixpoint sum_states (dim k : nat) (f : list nat -> R) : R :=
  match k with O => f [] | S k' => rsum dim (fun y => sum_states dim k' (fun ys => f (y :: ys))) end.
(** the states ys at the cuts that follow intervals of the given lengths *)
Fixpoint cut_obs (t0 : R) (Ts : list R) (ys : list nat) : list (R * nat) :=
  match Ts, ys with T :: Ts', y :: ys' => (t0 + T, y) :: cut_obs (t0 + T) Ts' ys' | _, _ => [] end.
(** what is asked of the pieces, each a length and a list of times within it and states, asked of the whole path *)
Fixpoint spread (t0 : R) (pieces : list (R * list (R * nat))) : list (R * nat) :=
  match pieces with [] => [] | (T, o) :: r => map (fun c => (t0 + fst c, snd c)) o ++ spread (t0 + T) r end.
(** a partition into pieces of the given lengths, with the states ys at the cuts *)
Definition cut_at (dim : nat) (Ts : list R) (ys : list nat) (ps : list (skel R)) : Prop :=
  map sk_fin ps = Ts /\ Forall (fun s => sk_x s <> [] /\ Forall (fun i => (i < dim)%nat) (sk_x s)) ps /\
  map final_of (removelast ps) = ys /\ map first_of (tl ps) = ys.
(** pieces of positive length, and what is asked of them is in order, within them and about states below dim *)
Definition askable (dim : nat) (pieces : list (R * list (R * nat))) : Prop :=
  Forall (fun c => 0 < fst c /\ in_order 0 (snd c) (fst c) /\ Forall (fun p => (snd p < dim)%nat) (snd c)) pieces.
(** The regime process starts in the law p, and its path is cut into the pieces and redrawn.  The states
    at the cuts have the law of the process; l ys is the probability, in the limit of the loop bound of
    the model, that the redrawn pieces show what is asked of them.  On average over the states at the cuts
    that is the probability that the process itself shows it. *)
Definition redraw_keeps (L : linalg) (dim : nat) (gen : mat) (p : vec) (pieces : list (R * list (R * nat))) : Prop :=
  let P := fun t => get_trans L dim t gen in
  let n := (length pieces - 1)%nat in
  forall ps, (forall ys, length ys = n -> Forall (fun y => (y < dim)%nat) ys -> cut_at dim (map fst pieces) ys (ps ys)) ->
  exists l, (forall ys, length ys = n -> Forall (fun y => (y < dim)%nat) ys ->
      exists c, (forall fuel, chance (mutate_partition L fuel (ps ys) dim gen) (all_visit (map snd pieces)) (c fuel)) /\ Un_cv c (l ys)) /\
    sum_states dim n (fun ys => rsum dim (fun x => p x * markov P 0 x (cut_obs 0 (map fst pieces) ys)) * l ys) = rsum dim (fun x => p x * markov P 0 x (spread 0 pieces)).
(** the same together with the states ys at the cuts *)
Fixpoint spread_cut (t0 : R) (pieces : list (R * list (R * nat))) (ys : list nat) : list (R * nat) :=
  match pieces with
  | [] => []
  | (T, o) :: r => map (fun c => (t0 + fst c, snd c)) o ++ match ys with [] => spread (t0 + T) r | y :: ys' => (t0 + T, y) :: spread_cut (t0 + T) r ys' end
  end.
(** The same process, cut into pieces of lengths Ts: to see first A and after redrawing B is as likely
    as to see first B and then A. *)
Definition redraw_reversible (L : linalg) (dim : nat) (gen : mat) (p : vec) (Ts : list R) (A B : list (list (R * nat))) : Prop :=
  let P := fun t => get_trans L dim t gen in
  let n := (length Ts - 1)%nat in
  forall ps, (forall ys, length ys = n -> Forall (fun y => (y < dim)%nat) ys -> cut_at dim Ts ys (ps ys)) ->
  let seen O l := forall ys, length ys = n -> Forall (fun y => (y < dim)%nat) ys -> exists c, (forall fuel, chance (mutate_partition L fuel (ps ys) dim gen) (all_visit O) (c fuel)) /\ Un_cv c (l ys) in
  let then_ O l := sum_states dim n (fun ys => rsum dim (fun x => p x * markov P 0 x (spread_cut 0 (combine Ts O) ys)) * l ys) in
  exists a b, seen A a /\ seen B b /\ then_ A b = then_ B a.
