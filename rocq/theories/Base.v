(** Base vocabulary: exceptions as values, a small class of numeric
    operations, and its instances.  No proofs about the code here. *)
From Coq Require Import Reals List ZArith Bool Lia Lra.
From Coq Require Import Floats.SpecFloat.
Import ListNotations.

(** Python exceptions raised (explicitly or by numpy) in the modelled code. *)
Inductive exn : Type :=
| AssertionError | ValueError | TypeError | IndexError | ZeroDivisionError
| BudgetConstraintError (* ctbayes/misc/exceptions.py *)
| StopIteration.

(** Result of a call.  [NoFuel] is not a Python value: it marks a loop that was
    still running when the model's fuel ran out. *)
Inductive res (A : Type) : Type :=
| Ok (a : A)
| Raise (e : exn)
| NoFuel.
Arguments Ok {A} _.
Arguments Raise {A} _.
Arguments NoFuel {A}.

Definition rbind {A B} (r : res A) (f : A -> res B) : res B :=
  match r with Ok a => f a | Raise e => Raise e | NoFuel => NoFuel end.
Notation "'rdo' x <- m ; k" := (rbind m (fun x => k))
  (at level 60, x name, m at level 55, k at level 60, right associativity).

(** Operations used by the discrete code (operations only, no laws). *)
Class Num (T : Type) := {
  n0 : T;
  nadd : T -> T -> T;
  nsub : T -> T -> T;
  nleb : T -> T -> bool;
  nltb : T -> T -> bool;
  neqb : T -> T -> bool }.

Definition Rleb (x y : R) : bool := if Rle_dec x y then true else false.
Definition Rltb (x y : R) : bool := if Rlt_dec x y then true else false.
Definition Reqb (x y : R) : bool := if Req_EM_T x y then true else false.

(** Exact real arithmetic: the instance all theorems are about. *)
Global Instance RNum : Num R :=
  {| n0 := 0%R; nadd := Rplus; nsub := Rminus; nleb := Rleb; nltb := Rltb; neqb := Reqb |}.

(** Integers: used only to run the model by computation in examples. *)
Global Instance ZNum : Num Z :=
  {| n0 := 0%Z; nadd := Z.add; nsub := Z.sub; nleb := Z.leb; nltb := Z.ltb; neqb := Z.eqb |}.

(** IEEE binary64 with round-to-nearest-even (the standard library's
    [SpecFloat]): used only to exhibit rounding counterexamples. *)
Definition F64 := spec_float.
Global Instance FNum : Num F64 :=
  {| n0 := S754_zero false; nadd := SFadd 53 1024; nsub := SFsub 53 1024;
     nleb := SFleb; nltb := SFltb; neqb := SFeqb |}.

Lemma Rleb_true x y : Rleb x y = true <-> (x <= y)%R.
Proof. unfold Rleb; destruct (Rle_dec x y); split; auto; discriminate. Qed.
Lemma Rleb_false x y : Rleb x y = false <-> (y < x)%R.
Proof. unfold Rleb; destruct (Rle_dec x y); split; try discriminate; auto; lra. Qed.
Lemma Rltb_true x y : Rltb x y = true <-> (x < y)%R.
Proof. unfold Rltb; destruct (Rlt_dec x y); split; auto; discriminate. Qed.
Lemma Rltb_false x y : Rltb x y = false <-> (y <= x)%R.
Proof. unfold Rltb; destruct (Rlt_dec x y); split; try discriminate; auto; lra. Qed.
Lemma Reqb_true x y : Reqb x y = true <-> x = y.
Proof. unfold Reqb; destruct (Req_EM_T x y); split; auto; discriminate. Qed.
Lemma Reqb_false x y : Reqb x y = false <-> x <> y.
Proof. unfold Reqb; destruct (Req_EM_T x y); split; auto; try discriminate; contradiction. Qed.
Lemma Rleb_dec x y : (x <= y)%R /\ Rleb x y = true \/ (y < x)%R /\ Rleb x y = false.
Proof. unfold Rleb; destruct (Rle_dec x y); [left|right]; split; auto; lra. Qed.
Lemma Rltb_dec x y : (x < y)%R /\ Rltb x y = true \/ (y <= x)%R /\ Rltb x y = false.
Proof. unfold Rltb; destruct (Rlt_dec x y); [left|right]; split; auto; lra. Qed.
Lemma Reqb_dec x y : x = y /\ Reqb x y = true \/ x <> y /\ Reqb x y = false.
Proof. unfold Reqb; destruct (Req_EM_T x y); [left|right]; split; auto. Qed.

(** Reals extended with infinities, for quantities the code lets be infinite. *)
Inductive ext : Type := NegInf | Fin (r : R) | PosInf.

Definition ele (a b : ext) : Prop :=
  match a, b with
  | NegInf, _ => True | _, PosInf => True
  | Fin x, Fin y => (x <= y)%R | _, _ => False end.
Definition elt (a b : ext) : Prop :=
  match a, b with
  | NegInf, NegInf => False | PosInf, PosInf => False
  | NegInf, _ => True | _, PosInf => True
  | Fin x, Fin y => (x < y)%R | _, _ => False end.
Definition eltb (a b : ext) : bool :=
  match a, b with
  | NegInf, NegInf => false | PosInf, PosInf => false
  | NegInf, _ => true | _, PosInf => true
  | Fin x, Fin y => Rltb x y | _, _ => false end.
Definition eleb (a b : ext) : bool :=
  match a, b with
  | NegInf, _ => true | _, PosInf => true
  | Fin x, Fin y => Rleb x y | _, _ => false end.
Definition is_fin (a : ext) : bool := match a with Fin _ => true | _ => false end.

Lemma eltb_true a b : eltb a b = true <-> elt a b.
Proof. destruct a, b; simpl; try rewrite Rltb_true; intuition congruence. Qed.
Lemma eleb_true a b : eleb a b = true <-> ele a b.
Proof. destruct a, b; simpl; try rewrite Rleb_true; intuition congruence. Qed.
