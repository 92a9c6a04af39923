(** Model of eval_log_prior of the five diffusion models.  Definitions only.
    Parameters are real numbers; a value is [None] for NaN and otherwise an extended real. *)
From Coq Require Import Reals List Bool.
From Verif Require Import Base.
Import ListNotations.
Local Open Scope R_scope.

(** IEEE arithmetic on finite numbers and infinities as far as it is needed here *)
Definition xr : Type := option ext.
Definition xfin (x : R) : xr := Some (Fin x).
(** np.log *)
Definition xlog (x : R) : xr := if Rltb 0 x then Some (Fin (ln x)) else if Rltb x 0 then None else Some NegInf.
(** addition: opposite infinities give NaN *)
Definition xadd (a b : xr) : xr :=
  match a, b with
  | Some (Fin x), Some (Fin y) => Some (Fin (x + y))
  | Some PosInf, Some NegInf | Some NegInf, Some PosInf => None
  | Some (Fin _), Some e | Some e, Some _ => Some e
  | _, _ => None
  end.
Definition xneg (a : xr) : xr :=
  match a with Some (Fin x) => Some (Fin (- x)) | Some PosInf => Some NegInf | Some NegInf => Some PosInf | None => None end.
(** np.square *)
Definition xsquare (a : xr) : xr :=
  match a with Some (Fin x) => Some (Fin (x ^ 2)) | Some _ => Some PosInf | None => None end.
(** division by, and multiplication with, a positive number *)
Definition xdiv (a : xr) (c : R) : xr := match a with Some (Fin x) => Some (Fin (x / c)) | e => e end.
Definition xmul (c : R) (a : xr) : xr := match a with Some (Fin x) => Some (Fin (c * x)) | e => e end.
(** 1 / x for x >= 0, which is inf at 0 *)
Definition xinv (x : R) : xr := if Reqb x 0 then Some PosInf else Some (Fin (/ x)).
(** np.sum *)
Definition xsum (l : list xr) : xr := fold_left xadd l (xfin 0).

(** the summand of line 65 of ito/models/ou.py, line 61 of switching/models/ou.py and the
    same lines of ou2.py and ou3.py, for one row (bet, rho) *)
Definition ou_row (scale_bet scale_rho bet rho : R) : xr :=
  xadd (xadd (xadd (xlog bet) (xlog rho)) (xdiv (xsquare (xlog bet)) (2 * scale_bet ^ 2))) (xdiv (xsquare (xlog (rho ^ 2))) (2 * scale_rho ^ 2)).
(** ito/models/ou.py: lines 61-65 (np.sum of a number is the number) *)
Definition ou_log_prior (scale_bet scale_rho : R) (thi : R * R) : xr :=
  if Rltb (fst thi) 0 || Rltb (snd thi) 0 then Some NegInf
  else xneg (ou_row scale_bet scale_rho (fst thi) (snd thi)).
(** switching/models/ou.py: lines 57-61; ou2.py and ou3.py likewise *)
Definition sw_log_prior (scale_bet scale_rho : R) (thi : list (R * R)) : xr :=
  if existsb (fun r => Rltb (fst r) 0 || Rltb (snd r) 0) thi then Some NegInf
  else xneg (xsum (map (fun r => ou_row scale_bet scale_rho (fst r) (snd r)) thi)).
(** ito/models/cir.py: lines 62-66 *)
Definition cir_log_prior (bet mu sig : R) : xr :=
  if Rltb bet 0 || Rltb mu 0 || Rltb sig 0 then Some NegInf
  else xneg (xadd (xadd (xadd (xfin bet) (xfin mu)) (xinv (sig ^ 2))) (xmul 3 (xlog sig))).
