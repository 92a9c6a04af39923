(** What the path samplers and transforms must satisfy; nothing here refers to the model's
    own helpers. *)
From Coq Require Import Reals List Sorted.
From Verif Require Import Base Mat Rng.
Import ListNotations.
Local Open Scope R_scope.

(** the standard normals at draw positions k, k+1, ..., k+n-1 *)
Definition normals (o : oracle) (k n : nat) : list R := map (fun i => ora_r o (k + i) DNormal) (seq 0 n).
(** entry i, j of a matrix given by rows *)
Definition entry (c : list (list R)) (i j : nat) : R := nth j (nth i c []) 0.
(** [X] is an affine image of n independent standard normals with the given mean vector and
    covariance matrix: X z = mean + A z and A A' = cov *)
Definition gaussian (n : nat) (X : list R -> list R) (mean : list R) (cov : list (list R)) : Prop :=
  length mean = n /\ length cov = n /\ Forall (fun r => length r = n) cov /\
  exists A : nat -> nat -> R,
    (forall z, length z = n -> length (X z) = n /\
       forall i, (i < n)%nat -> nth i (X z) 0 = nth i mean 0 + rsum n (fun k => A i k * nth k z 0)) /\
    (forall i j, (i < n)%nat -> (j < n)%nat -> entry cov i j = rsum n (fun k => A i k * A j k)).
(** a grid of times inside (0, inf) *)
Definition time_grid (t : list R) : Prop := t <> [] /\ StronglySorted Rlt t /\ Forall (fun s => 0 < s) t.
(** every d-th draw starting with the j-th *)
Definition every (z : list R) (n d j : nat) : list R := map (fun i => nth (i * d + j) z 0) (seq 0 n).

(** a layered bridge: values between the bounds, one flag per segment, at least one set,
    and no unset flag next to a value that has reached the level *)
Definition layered (t : list R) (init_x fin_x inf_x : R) (ub_sup_x lb_sup_x : option R) (r : list R * option (list bool)) : Prop :=
  let full := init_x :: fst r ++ [fin_x] in
  length (fst r) = length t /\
  Forall (fun x => inf_x <= x /\ match ub_sup_x with Some u => x < u | None => True end) (fst r) /\
  match lb_sup_x with
  | None => snd r = None
  | Some l => exists h, snd r = Some h /\ length h = S (length t) /\ In true h /\
      forall i, nth_error h i = Some false -> nth i full 0 < l /\ nth (S i) full 0 < l
  end.
