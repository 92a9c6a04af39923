(** The Poisson coins of ea3lib/skeleton.py with the interpolation of the path left open:
    [poisson_loop] and [est_poisson_coin] of M_skel are the instances with
    [interpolate_skeleton] (C88_coin_instance, C88_estimate_instance), and [frozen w] is a path that is already known. *)
From Coq Require Import Reals List Bool Arith.
From Verif Require Import Base Np Rng M_mjp M_path M_skel.
Import ListNotations.
Local Open Scope R_scope.

Section With.
  Context {S : Type} (interp : S -> list R -> M (S * list R)).
  Fixpoint coin_with (n : nat) (disc : R -> R) (bounds : list R) (cent_phi : R) (p : ppp_state) (s : S) : M (bool * S) :=
    match n with
    | O => nofuel
    | Datatypes.S n' =>
        do r <- ppp_next bounds p;
        match r with
        | None => ret (true, s)
        | Some (batch, p') =>
            let rows := col1_sort batch in
            do q <- interp s (map (fun r => nth 1 r 0) rows);
            if existsb (fun c => Rltb (snd c) (disc (fst c) - cent_phi)) (combine (snd q) (map (fun r => nth 0 r 0) rows))
            then ret (false, fst q)
            else coin_with n' disc bounds cent_phi p' (fst q)
        end
    end.
  Definition estimate_with (disc : R -> R) (cent_phi le_phi ue_phi fin_t : R) (s : S) : M (R * S) :=
    let intensity := ue_phi - le_phi in
    do pts <- sample_ppp intensity [fin_t];
    let new_t := map (fun r => nth 0 r 0) pts in
    match new_t with
    | [] => ret ((intensity - ue_phi + cent_phi) * fin_t, s)
    | _ =>
        do q <- interp s new_t;
        ret (fold_right Rplus 0 (map (fun v => ln (ue_phi - disc v)) (snd q)) - INR (length new_t) * ln intensity + (intensity - ue_phi + cent_phi) * fin_t, fst q)
    end.
End With.

(** a path that is already known: reading it off changes nothing *)
Definition frozen (w : R -> R) (s : unit) (ts : list R) : M (unit * list R) := ret (s, map w ts).
(** a known path on which nothing is recorded; its points, as in (height, time) *)
Definition above (phi : R -> R) (row : list R) : bool := negb (Rltb (nth 0 row 0) (phi (nth 1 row 0))).
Definition product (g : list R -> R) (rows : list (list R)) : R := fold_right Rmult 1 (map g rows).
