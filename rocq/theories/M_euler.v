(** Model of ctbayes/misc/testing.py and of the unused gradients eval_grad of the Ito models.
    Definitions only. *)
From Coq Require Import Reals List Bool Arith ZArith.
From Verif Require Import Base Np Rng M_mjp M_models.
Import ListNotations.
Local Open Scope R_scope.

(** int(x) of a number x >= 0 *)
Definition floor_nat (x : R) : nat := Z.to_nat (Int_part x).
(** ceil(x) of a number x >= 0 *)
Definition ceil_nat (x : R) : nat := Z.to_nat (- Int_part (- x)).
(** np.arange(0, fin_t, res): k * res for k below ceil(fin_t / res) *)
Definition arange (fin_t res : R) : list R := map (fun k => INR k * res) (seq 0 (ceil_nat (fin_t / res))).
(** one step of line 39 for one trajectory; dfunc and vfunc act entry by entry *)
Definition euler_step (d v : R -> R) (res x e : R) : R := x + d x * res + v x * e.
(** the rows of [trajectory], lines 36-39 *)
Fixpoint euler_rows (d v : R -> R) (res : R) (row : list R) (noise : list (list R)) : list (list R) :=
  row :: match noise with
         | [] => []
         | e :: r => euler_rows d v res (map (fun p => euler_step d v res (fst p) (snd p)) (combine row e)) r
         end.
(** euler_simulate: lines 35-41.  Only fin_t >= 0 and res > 0 are modelled.  The result is the
    times and one list of values per draw. *)
Definition euler_simulate (ndraws : nat) (fin_t init_x : R) (d v : R -> R) (res : R) : M (list R * list (list R)) :=
  if Rltb fin_t 0 || Rleb res 0 then raise ValueError
  else
    do z <- draw_rows (floor_nat (fin_t / res)) (repeat DNormal ndraws);
    let noise := map (map (Rmult (sqrt res))) z in
    let rows := euler_rows d v res (repeat init_x ndraws) noise in
    ret (arange fin_t res, map (fun i => map (fun row => nth i row 0) rows) (seq 0 ndraws)).

(** ito/models/ou.py eval_grad: lines 44-49, at one point (t, z) *)
Definition ou_eval_grad (thi : list R) (fin_t init_v fin_v t z : R) : R * R :=
  let vt := (1 - t / fin_t) * init_v + t / fin_t * fin_v in
  let bet := par thi 0 in let sig := par thi 1 in
  (bet * (fin_t * z ^ 2 + (vt / sig) ^ 2 + 2 * sqrt fin_t * z * vt / sig) - 1,
   - bet ^ 2 * (sqrt fin_t * z * vt / sig ^ 2 + vt ^ 2 / sig ^ 3)).
(** ito/models/cir.py eval_grad: lines 55-56 *)
Definition cir_eval_grad (thi : list R) (fin_t init_v fin_v t z : R) : R * R * R := (0, 0, 0).
