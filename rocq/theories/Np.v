(** numpy / Python list primitives used by the modelled code.  Definitions only. *)
From Coq Require Import List ZArith Bool.
From Verif Require Import Base.
Import ListNotations.

Section Generic.
Context {T : Type} `{Num T}.

(** np.diff *)
Fixpoint np_diff (l : list T) : list T :=
  match l with
  | a :: ((b :: _) as r) => nsub b a :: np_diff r
  | _ => []
  end.

(** np.cumsum, starting from an accumulator *)
Fixpoint np_cumsum_from (acc : T) (l : list T) : list T :=
  match l with
  | [] => []
  | a :: r => nadd acc a :: np_cumsum_from (nadd acc a) r
  end.

(** np.cumsum: the first entry is the first element itself (no addition). *)
Definition np_cumsum (l : list T) : list T :=
  match l with [] => [] | a :: r => a :: np_cumsum_from a r end.

(** np.searchsorted(l, v, side='left' / 'right') for sorted [l]: the number of
    elements < v, resp. <= v.  (numpy's binary search; on unsorted [l] the result
    of numpy is unspecified and no theorem uses it there.) *)
Definition searchsorted_left (l : list T) (v : T) : nat :=
  length (filter (fun a => nltb a v) l).
Definition searchsorted_right (l : list T) (v : T) : nat :=
  length (filter (fun a => nleb a v) l).

(** np.sort (stable insertion sort; equal reals are indistinguishable). *)
Fixpoint sort_ins (a : T) (l : list T) : list T :=
  match l with
  | [] => [a]
  | b :: r => if nleb a b then a :: l else b :: sort_ins a r
  end.
Fixpoint np_sort (l : list T) : list T :=
  match l with [] => [] | a :: r => sort_ins a (np_sort r) end.

(** np.min / np.max of a list, [d] being its first element. *)
Fixpoint np_min_from (d : T) (l : list T) : T :=
  match l with [] => d | a :: r => np_min_from (if nltb a d then a else d) r end.
Fixpoint np_max_from (d : T) (l : list T) : T :=
  match l with [] => d | a :: r => np_max_from (if nltb d a then a else d) r end.

(** np.argmin of a non-empty array (first minimum): index into [a :: l]. *)
Fixpoint argmin_from (best : T) (bi i : nat) (l : list T) : nat :=
  match l with
  | [] => bi
  | a :: r => if nltb a best then argmin_from a i (S i) r else argmin_from best bi (S i) r
  end.
Definition np_argmin (l : list T) : option nat :=
  match l with [] => None | a :: r => Some (argmin_from a 0 1 r) end.

(** np.isin(v, l) *)
Definition np_isin (v : T) (l : list T) : bool := existsb (fun a => neqb v a) l.
End Generic.

(** Python index normalisation: a slice bound of a list of length [n]. *)
Definition norm_bound (n : nat) (i : Z) : nat :=
  if (i <? 0)%Z then Z.to_nat (Z.max 0 (i + Z.of_nat n)) else Nat.min (Z.to_nat i) n.
(** l[i:j] with Python semantics (negative bounds count from the end). *)
Definition pyslice {A} (l : list A) (i j : Z) : list A :=
  let a := norm_bound (length l) i in
  let b := norm_bound (length l) j in
  firstn (b - a) (skipn a l).
(** l[i] with Python semantics; [None] is an IndexError. *)
Definition pyget {A} (l : list A) (i : Z) : option A :=
  if (i <? 0)%Z
  then (if (i + Z.of_nat (length l) <? 0)%Z then None
        else nth_error l (Z.to_nat (i + Z.of_nat (length l))))
  else nth_error l (Z.to_nat i).
(** l[:-1] and l[-1] *)
Definition but_last {A} (l : list A) : list A := removelast l.
Definition last_opt {A} (l : list A) : option A := pyget l (-1).

(** Boolean-mask indexing; a mask of the wrong length is an IndexError. *)
Fixpoint mask {A} (l : list A) (m : list bool) : option (list A) :=
  match l, m with
  | [], [] => Some []
  | a :: l', b :: m' =>
      match mask l' m' with
      | Some r => Some (if b then a :: r else r)
      | None => None
      end
  | _, _ => None
  end.

Definition zip3 {A B C} (l : list A) (m : list B) (n : list C) : list (A * B * C) :=
  combine (combine l m) n.

(** Element-wise == of two integer arrays of equal length. *)
Definition eq_pairs (l m : list nat) : list bool :=
  map (fun p => Nat.eqb (fst p) (snd p)) (combine l m).

(** np.delete(l, i) *)
Definition np_delete {A} (l : list A) (i : nat) : list A := firstn i l ++ skipn (S i) l.

(** np.insert(arr, idx, vals): values are inserted before the elements at the
    given positions of the original array; values with the same position keep
    their order. *)
Fixpoint np_insert_from {A} (p : nat) (arr : list A) (iv : list (nat * A)) : list A :=
  map snd (filter (fun q => Nat.eqb (fst q) p) iv) ++
  match arr with
  | [] => []
  | a :: r => a :: np_insert_from (S p) r iv
  end.
Definition np_insert {A} (arr : list A) (idx : list nat) (vals : list A) : list A :=
  np_insert_from 0 arr (combine idx vals).
