(** compute_edges of ctbayes/sdelib/layers.py with its argument pow (M_hit has the default).
    Definitions only. *)
From Coq Require Import Reals List Bool Arith ZArith.
From Verif Require Import Base Rng M_hit.
Import ListNotations.
Local Open Scope R_scope.

(** compute_edges: layers.py lines 161-202; pow is an integer and i ** pow is a real number also
    for a negative pow *)
Definition compute_edges_pow (pow : Z) (i : nat) (fin_t init_x fin_x : R) (lb_x ub_x : ext) : res (ext * ext) :=
  if negb (Rltb 0 fin_t) then Raise AssertionError
  else if negb (eltb lb_x (Fin (Rmin init_x fin_x))) then Raise AssertionError
  else if negb (eltb (Fin (Rmax init_x fin_x)) ub_x) then Raise AssertionError
  else
    match i with
    | O => Ok (Fin (Rmin init_x fin_x), Fin (Rmax init_x fin_x))
    | S _ =>
        let mirror := (init_x + fin_x) / 2 in
        let p := 1 / (powerRZ (INR i) pow + 1) in
        rdo le_x <- ppf_brownbr_min p fin_t init_x fin_x (Some lb_x) None;
        rdo ue <- ppf_brownbr_min p fin_t (mirror - init_x) (mirror - fin_x) (Some (esub_from mirror ub_x)) None;
        Ok (le_x, esub_from mirror ue)
    end.
