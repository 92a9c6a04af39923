(** Vocabulary for the adaptation properties. *)
From Coq Require Import Reals List Bool Arith.
From Verif Require Import Base Mat M_adapt.
Import ListNotations.
Local Open Scope R_scope.

(** strictly inside the bounds; an infinite bound of either sign is no bound *)
Definition inside (lb ub : ext) (x : R) : Prop :=
  match lb with Fin l => l < x | _ => True end /\ match ub with Fin u => x < u | _ => True end.
Definition both_finite (lb ub : ext) : Prop := exists l u, lb = Fin l /\ ub = Fin u.

(** number of adapt calls after which the k-th update takes place: 1^air + ... + k^air *)
Fixpoint tau (air k : nat) : nat :=
  match k with O => 0 | S k' => tau air k' + k ^ air end.
(** entries a..b (inclusive) of a list *)
Definition entries (a b : nat) (l : list R) : list R := firstn (b + 1 - a) (skipn a l).
Definition mean (l : list R) : R := fold_right Rplus 0 l / INR (length l).
Definition in01 (x : R) : Prop := 0 <= x <= 1.

(** sampler after a history of adapt calls (sample, probability) *)
Definition run {S P} (step : P -> S -> R -> P) (init : P) (h : list (S * R)) : P :=
  fold_left (fun sp p => step sp (fst p) (snd p)) h init.
Definition run_opt {S P} (step : P -> S -> R -> option P) (init : P) (h : list (S * R)) : option P :=
  fold_left (fun sp p => match sp with Some s => step s (fst p) (snd p) | None => None end) h (Some init).

(** quadratic form and symmetry *)
Definition quad (dim : nat) (C : mat) (x : vec) : R := rsum dim (fun i => rsum dim (fun j => x i * C i j * x j)).
Definition symmetric (dim : nat) (C : mat) : Prop := forall i j, (i < dim)%nat -> (j < dim)%nat -> C i j = C j i.
Definition sample_mean (obs : list vec) : vec := fun i => fold_right Rplus 0 (map (fun o => o i) obs) / INR (length obs).

(** folding seq_update_normal over observations, with n counting from n0 *)
Fixpoint fold_normal (n : nat) (obs : list vec) (s : vec * mat) : vec * mat :=
  match obs with
  | [] => s
  | o :: r => fold_normal (S n) r (seq_update_normal o (INR n) (fst s) (snd s))
  end.
(** sum of the products of the one-step prediction errors; m is the mean of k observations *)
Fixpoint errors (k : nat) (m : vec) (obs : list vec) (i j : nat) : R :=
  match obs with
  | [] => 0
  | o :: r => (o i - m i) * (o j - m j) + errors (S k) (fun a => m a + (o a - m a) / INR (S k)) r i j
  end.
(** unbiased sample variance *)
Definition sample_var (l : list R) : R :=
  let m := mean l in fold_right Rplus 0 (map (fun x => (x - m) * (x - m)) l) / (INR (length l) - 1).
