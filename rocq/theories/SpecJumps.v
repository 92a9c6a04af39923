(** The law of whole paths of a Markov jump process: the states they go through and the
    times of their jumps. *)
From Coquelicot Require Import Hierarchy RInt.
From Coq Require Import Reals List Bool Arith.
From Verif Require Import Base Mat M_mjp.
Import ListNotations.
Local Open Scope R_scope.

(** the path goes through exactly the states xs, and its k-th jump is no later than the k-th
    entry of bs *)
Definition goes (xs : list nat) (bs : list R) (s : skel R) : bool :=
  if list_eq_dec Nat.eq_dec (sk_x s) xs
  then forallb (fun c => Rleb (fst c) (snd c)) (combine (tl (sk_t s)) bs)
  else false.
(** the integral of f over all times t1 < t2 < ... after t0 and before T, the k-th of them no
    later than the k-th entry of bs *)
Fixpoint over_times (T : R) (bs : list R) (t0 : R) (f : list R -> R) : R :=
  match bs with
  | [] => f []
  | b :: bs' => RInt (fun t => over_times T bs' t (fun ts => f (t :: ts))) t0 (Rmax t0 (Rmin b T))
  end.
(** the density of the path that is in x at time t, jumps at the times ts to the states xs and
    then stays until T: exp (gen x x * s) for staying s in x, gen x y for a jump from x to y *)
Fixpoint path_density (gen : mat) (T t : R) (x : nat) (ts : list R) (xs : list nat) : R :=
  match ts, xs with
  | t' :: ts', y :: xs' => exp (gen x x * (t' - t)) * gen x y * path_density gen T t' y ts' xs'
  | _, _ => exp (gen x x * (T - t))
  end.
(** every state of xs differs from the one before it, starting from x *)
Fixpoint moves_on (x : nat) (xs : list nat) : Prop :=
  match xs with
  | [] => True
  | y :: r => y <> x /\ moves_on y r
  end.
(** the density of a path given its first state *)
Definition density (gen : mat) (s : skel R) : R :=
  match sk_t s, sk_x s with
  | t0 :: ts, x :: xs => path_density gen (sk_fin s) t0 x ts xs
  | _, _ => 0
  end.
