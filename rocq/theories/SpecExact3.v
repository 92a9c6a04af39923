(** What is asked of the paths under the Ornstein-Uhlenbeck models of the package. *)
From Coquelicot Require Import Hierarchy Continuity RInt.
From Coq Require Import Reals List Bool Arith.
From Verif Require Import Base Np Rng M_hit M_path M_skel M_seed SpecSkel SpecSeed M_models SpecModels M_sw SpecLaw SpecEst SpecExact SpecExact2.
Import ListNotations.
Local Open Scope R_scope.

(** the discrepancy along the path of a segment *)
Definition along (path : skel -> R -> R) (disc : R -> R) (s : skel) (T c x0 x1 u : R) : R := disc (segment_path path s T c x0 x1 u).
(** the path of the seed is continuous and stays between the bounds of its layer *)
Definition lies (path : skel -> R -> R) (s : skel) : Prop :=
  low_z s < high_z s /\ forall u, 0 <= u <= 1 -> low_z s <= path s u <= high_z s /\ continuous (path s) u.
(** the share of the time that f spends at or below a level h >= 0 is continuous in h *)
Definition levels (f : R -> R) (T : R) : Prop :=
  exists G : R -> R, (forall h, continuous G h) /\ forall h, 0 <= h -> is_RInt (fun u => ind (negb (Rltb h (f u)))) 0 T (T * G h).
Definition pos_part (f g : R -> R) (u : R) : R := Rmax 0 (f u - g u).
(** a number that belongs to piece j *)
Definition piece (z : partition) (j : nat) (f : skel -> R) : R := match nth_error z j with Some s => f s | None => 0 end.
(** the upper bound that [bounds] gives on the band of the seed *)
Definition high_level (bounds : bounds_fun) (scale x0 x1 : R) (s : skel) : R :=
  match snd (bounds (low_z s * scale + Rmin x0 x1) (high_z s * scale + Rmax x0 x1)) with Fin u => u | _ => 0 end.
(** the three switching models *)
Definition ou_switching (vol : list (list R) -> nat -> R) (disc : list (list R) -> nat -> R -> R) (bounds : list (list R) -> nat -> bounds_fun) (grad : list R -> list R -> R -> R -> R -> R -> R -> list R) : Prop :=
  (vol = ou1_vol /\ disc = ou1_disc /\ bounds = (fun thi y => as_bounds (ou1_bounds_disc thi y)) /\ grad = ou1_bounds_grad) \/
  (vol = ou2_vol /\ disc = ou2_disc /\ bounds = (fun thi y => as_bounds (ou2_bounds_disc thi y)) /\ grad = ou2_bounds_grad) \/
  (vol = ou3_vol /\ disc = ou3_disc /\ bounds = (fun thi y => as_bounds (ou3_bounds_disc thi y)) /\ grad = ou3_bounds_grad).
(** the discrepancy along piece j of a switching path, and of an Ito path *)
Definition sw_along (path : skel -> R -> R) (vol : nat -> R) (disc : nat -> R -> R) (h : anchorage) (j : nat) (s : skel) : R -> R :=
  along path (disc (nth j (a_y h) 0%nat)) s (span (a_t h) j) (sqrt (span (a_t h) j) * vol (nth j (a_y h) 0%nat)) (nth j (a_v h) 0) (nth (S j) (a_v h) 0).
Definition ito_along (path : skel -> R -> R) (reduce disc : R -> R) (t vt : list R) (j : nat) (s : skel) : R -> R :=
  along path disc s (span t j) (sqrt (span t j)) (reduce (nth j vt 0)) (reduce (nth (S j) vt 0)).
(** the bounds of the discrepancy over piece j of a switching path *)
Definition sw_low (vol : nat -> R) (bounds : nat -> bounds_fun) (h : anchorage) (j : nat) (s : skel) : R :=
  low_level (bounds (nth j (a_y h) 0%nat)) (sqrt (span (a_t h) j) * vol (nth j (a_y h) 0%nat)) (nth j (a_v h) 0) (nth (S j) (a_v h) 0) s.
Definition sw_high (vol : nat -> R) (bounds : nat -> bounds_fun) (h : anchorage) (j : nat) (s : skel) : R :=
  high_level (bounds (nth j (a_y h) 0%nat)) (sqrt (span (a_t h) j) * vol (nth j (a_y h) 0%nat)) (nth j (a_v h) 0) (nth (S j) (a_v h) 0) s.
Definition integral (f : R -> R) (T : R) : R := RInt f 0 T.
