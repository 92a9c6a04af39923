(** Property theorems C97, continued: the second moments of est_aug_lik. *)
From Coquelicot Require Import Hierarchy Derive Continuity AutoDerive RInt RInt_analysis.
From Coq Require Import Reals List Bool Arith Lra Lia.
From Verif Require Import Base Np Rng M_mjp M_hit M_path M_skel M_seed SpecSeed M_inf M_sw M_mcem M_est SpecLaw SpecEst SpecObj L_est5 Mat.
Import ListNotations.
Local Open Scope R_scope.

(** C97: on a known path the estimate of one segment has a finite variance: its second moment is the
    square of its mean times exp of the integral of (discrepancy - le)^2 / (ue - le) *)
Theorem C97_segment_square : forall path norm denorm disc bounds s T scale x0 x1 v r, operators norm denorm T scale x0 x1 -> estimable path disc bounds s T scale x0 x1 v -> spread path disc bounds s T scale x0 x1 r ->
  average (seed_est_with (pinned path) norm denorm s disc bounds) (fun a => (exp_of (fst (fst a)) * exp (snd (fst a))) ^ 2) (exp (- v) ^ 2 * exp r).
Proof. exact segment_square. Qed.
Print Assumptions C97_segment_square.
Theorem C97_ito_square : forall path reduce disc bounds log_lik t vt thi z s0 n (v r : nat -> R),
  (0 < n)%nat -> length z = n -> length t = S n -> length vt = S n ->
  (forall i, (i < n)%nat -> let dt := nth (S i) t 0 - nth i t 0 in
     estimable path (disc thi) (bounds thi) (nth i z s0) dt (sqrt dt) (reduce thi (nth i vt 0)) (reduce thi (nth (S i) vt 0)) (v i) /\
     spread path (disc thi) (bounds thi) (nth i z s0) dt (sqrt dt) (reduce thi (nth i vt 0)) (reduce thi (nth (S i) vt 0)) (r i)) ->
  average (ito_aug_with (seed_est_with (pinned path)) reduce disc bounds log_lik t vt thi z) (fun a => exp_of (fst a) ^ 2) (exp (log_lik thi - Mat.rsum n v) ^ 2 * exp (Mat.rsum n r)).
Proof. exact ito_aug_square. Qed.
Print Assumptions C97_ito_square.
Theorem C97_switching_square : forall path vol disc bounds loglik thi z h restrict s0 n (v r : nat -> R),
  (0 < n)%nat -> length z = n -> length (a_t h) = S n -> length (a_y h) = S n -> length (a_v h) = S n ->
  (forall i, (i < n)%nat -> selected restrict (nth i (a_y h) 0%nat) = true -> let dt := nth (S i) (a_t h) 0 - nth i (a_t h) 0 in let y := nth i (a_y h) 0%nat in
     estimable path (disc thi y) (bounds thi y) (nth i z s0) dt (sqrt dt * vol thi y) (nth i (a_v h) 0) (nth (S i) (a_v h) 0) (v i) /\
     spread path (disc thi y) (bounds thi y) (nth i z s0) dt (sqrt dt * vol thi y) (nth i (a_v h) 0) (nth (S i) (a_v h) 0) (r i)) ->
  average (sw_aug_with (seed_est_with (pinned path)) vol disc bounds loglik thi z h restrict) (fun a => exp_of (fst a) ^ 2)
    (exp (fst (loglik thi h restrict) + snd (loglik thi h restrict) - Mat.rsum n (fun i => if selected restrict (nth i (a_y h) 0%nat) then v i else 0)) ^ 2 *
     exp (Mat.rsum n (fun i => if selected restrict (nth i (a_y h) 0%nat) then r i else 0))).
Proof. exact sw_aug_square. Qed.
Print Assumptions C97_switching_square.
(** the path and the bounds of C97_example *)
Example C97_example_square : forall s, spread (fun _ _ => 0) (fun x => x) (fun _ _ => (0, 0, Fin 2)) s 1 1 0 1 (1 / 6).
Proof.
  intros s. exists 0, 0, 2, (1 / 3). split; [reflexivity|]. split; [|field]. apply (is_RInt_ext (fun u : R => u ^ 2)).
  - intros u _. assert (E : u ^ 2 = (segment_path (fun _ _ => 0) s 1 1 0 1 u - 0) ^ 2) by (unfold segment_path, path_at; field). exact E.
  - replace (1 / 3) with (minus (1 ^ 3 / 3) (0 ^ 3 / 3)) by (unfold minus, plus, opp; cbn; lra). apply (is_RInt_derive (fun u : R => u ^ 3 / 3) (fun u : R => u ^ 2)).
    + intros u _. auto_derive; [exact Logic.I|field].
    + intros u _. apply (ex_derive_continuous (fun u : R => u ^ 2)). auto_derive. exact Logic.I.
Qed.
