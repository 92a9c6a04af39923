(** Model of ctbayes/mjplib/inference.py.  Definitions only. *)
From Coq Require Import Reals List ZArith Bool Arith.
From Verif Require Import Base Np Rng Mat M_mjp.
Import ListNotations.
Local Open Scope R_scope.

(** Arrays with NaN entries: [None] is NaN.  Shapes are (dim, dim). *)
Definition omat := nat -> nat -> option R.
Definition nan2 (f : R -> R -> R) (a b : option R) : option R :=
  match a, b with Some x, Some y => Some (f x y) | _, _ => None end.
(** x / y with y = 0 (inf or NaN in numpy, with a warning) is modelled as NaN; the theorems
    assume non-zero denominators. *)
Definition nandiv (a b : option R) : option R :=
  match a, b with Some x, Some y => if Reqb y 0 then None else Some (x / y) | _, _ => None end.
Definition nan0 (a : option R) : R := match a with Some x => x | None => 0 end.
(** np.nansum(gen, 1)[i] *)
Definition nansum_row (dim : nat) (A : omat) (i : nat) : R := rsum dim (fun j => nan0 (A i j)).
(** np.fill_diagonal(gen, -np.nansum(gen, 1)): lines 49, 83, 95 (the sums are taken before
    the diagonal is overwritten) *)
Definition fill_neg_rows (dim : nat) (A : omat) : omat :=
  fun i j => if Nat.eqb i j then Some (- nansum_row dim A i) else A i j.

(** np.bincount(l, minlength=dim)[j] for entries below dim *)
Definition bincount (l : list nat) (j : nat) : R := INR (length (filter (Nat.eqb j) l)).

(** update: lines 33-37.  A mask of the wrong length is an IndexError (line 34: empty xt;
    line 36: xt and t of different lengths).  A follower >= dim makes the rows of line 34
    ragged or not broadcastable with alp0: ValueError. *)
Definition followers (x : list nat) (i : nat) : option (list nat) :=
  mask x (false :: but_last (map (fun a => Nat.eqb a i) x)).
Definition hold_times (s : skel R) (i : nat) : option R :=
  match mask (ediff1d_end (sk_t s) 0) (map (fun a => Nat.eqb a i) (sk_x s)) with
  | Some l => Some (fold_right Rplus 0 l)
  | None => None
  end.
Definition is_some {A} (o : option A) : bool := match o with Some _ => true | None => false end.
Definition update (dim : nat) (s : skel R) (alp0 bet0 : omat) : res (omat * omat) :=
  if negb (forallb (fun i => is_some (followers (sk_x s) i)) (seq 0 dim)) then Raise IndexError
  else if negb (forallb (fun a => Nat.ltb a dim) (tl (sk_x s))) then Raise ValueError
  else if negb (forallb (fun i => is_some (hold_times s i)) (seq 0 dim)) then Raise IndexError
  else
    let trans : omat := fun i j =>
      if Nat.eqb i j then None
      else match followers (sk_x s) i with Some l => Some (bincount l j) | None => None end in
    Ok (fun i j => nan2 Rplus (trans i j) (alp0 i j),
        fun i j => nan2 Rplus (hold_times s i) (bet0 i j)).

(** sample_param: lines 48-50.  numpy rejects negative shapes or scales (ValueError) and
    passes NaN through.  A zero rate (infinite scale) is not modelled. *)
Definition gamma_entry (a b : option R) : M (option R) :=
  match a, b with
  | Some x, Some y => do g <- draw_r (DGamma x (1 / y)); ret (Some g)
  | _, _ => ret None
  end.
Definition neg_entry (a : option R) : bool := match a with Some x => Rltb x 0 | None => false end.
Definition sample_param (dim : nat) (alp bet : omat) : M omat :=
  let idx := list_prod (seq 0 dim) (seq 0 dim) in
  if existsb (fun p => neg_entry (alp (fst p) (snd p)) || neg_entry (bet (fst p) (snd p))) idx
  then raise ValueError
  else
    do l <- mapM (fun p => gamma_entry (alp (fst p) (snd p)) (bet (fst p) (snd p))) idx;
    ret (fill_neg_rows dim (fun i j => nth (i * dim + j) l None)).

(** eval_loglik: line 60.  States outside the matrix are an IndexError, t and xt of
    different lengths a ValueError; [None] is a non-finite value (log of a number <= 0). *)
Definition eval_loglik (dim : nat) (s : skel R) (gen : mat) : res (option R) :=
  if negb (forallb (fun a => Nat.ltb a dim) (sk_x s)) then Raise IndexError
  else if negb (Nat.eqb (length (sk_t s)) (length (sk_x s))) then Raise ValueError
  else
    let moves := combine (but_last (sk_x s)) (tl (sk_x s)) in
    if forallb (fun p => Rltb 0 (gen (fst p) (snd p))) moves
    then Ok (Some (fold_right Rplus 0
           (map (fun q => let '(p, dt) := q in ln (gen (fst p) (snd p)) + dt * gen (fst p) (fst p))
              (combine moves (np_diff (sk_t s))))))
    else Ok None.

(** eval_logprior: lines 71-72. *)
Definition eval_logprior (dim : nat) (gen : mat) (alp bet : omat) : R :=
  rsum dim (fun i => rsum dim (fun j =>
    let g := if Rltb 0 (gen i j) then Some (gen i j) else None in
    nan0 (nan2 Rminus (nan2 Rmult (nan2 Rminus (alp i j) (Some 1)) (option_map ln g))
                      (nan2 Rmult (bet i j) g)))).

(** get_ev: lines 82-84; get_mode: lines 94-96. *)
Definition get_ev (dim : nat) (alp bet : omat) : omat :=
  fill_neg_rows dim (fun i j => nandiv (alp i j) (bet i j)).
Definition get_mode (dim : nat) (alp bet : omat) : omat :=
  fill_neg_rows dim (fun i j => nandiv (nan2 Rminus (alp i j) (Some 1)) (bet i j)).
