(** Specification of the law of the escape decisions. *)
From Coq Require Import Reals List Bool Arith.
From Verif Require Import Base Rng M_path M_hit SpecHit SpecLaw.
Import ListNotations.
Local Open Scope R_scope.

(** [m] says true with probability p and false with probability 1 - p, as the bound on the
    number of terms of the series that the model may use goes to infinity *)
Definition settled (m : nat -> M bool) (p : R) : Prop :=
  exists c d, (forall fuel, chance (m fuel) (fun r => r) (c fuel) /\ chance (m fuel) negb (d fuel)) /\ Un_cv c p /\ Un_cv d (1 - p).

(** the probability that a Bessel(3) bridge over a segment (duration, start, end) reaches K *)
Definition reaches (s : R * R * R) (K p : R) : Prop :=
  (K <= Rmax (snd (fst s)) (snd s) /\ p = 1) \/ (Rmax (snd (fst s)) (snd s) < K /\ bessel_escape (fst (fst s)) (snd (fst s)) (snd s) K p).
Definition reaches_opt (s : R * R * R) (ub : option R) (p : R) : Prop := match ub with Some u => reaches s u p | None => p = 0 end.
(** the segments for which the outer-bounded series is exact, see C36_bessel and C36_refuted *)
Definition segment_ok (s : R * R * R) : Prop := 0 < fst (fst s) /\ 0 <= snd (fst s) /\ 0 < snd s.
Definition series_ok (lb : R) (ub : option R) (s : R * R * R) : Prop :=
  match ub with Some u => Rmax (snd (fst s)) (snd s) < lb -> fst (fst s) < 3 * lb ^ 2 /\ bessel_three (fst (fst s)) (snd (fst s)) (snd s) u < 1 | None => True end.

(** one attempt of propose_layerbr_edge, after the values have been drawn: the flags, or [None]
    if the attempt is rejected *)
Definition edge_attempt (fuel : nat) (segs : list (R * R * R)) (ub_sup_x lb_sup_x : option R) : M (option (list bool)) :=
  do ok <- (match ub_sup_x with
            | None => ret true
            | Some ub =>
                do e <- map_m (fun s => let '(dt, x0, x1) := s in sample_bessel3br_esc fuel dt x0 x1 ub None None) segs;
                ret (negb (existsb (fun b => b) e))
            end);
  if ok then
    match lb_sup_x with
    | None => ret (Some [])
    | Some lb =>
        do h <- map_m (fun s => let '(dt, x0, x1) := s in sample_bessel3br_esc fuel dt x0 x1 lb ub_sup_x None) segs;
        ret (Some h)
    end
  else ret None.
(** the attempt was accepted with the flags h *)
Fixpoint bools_eqb (a b : list bool) : bool :=
  match a, b with
  | [], [] => true
  | x :: a', y :: b' => Bool.eqb x y && bools_eqb a' b'
  | _, _ => false
  end.
Definition accepted (h : list bool) (r : option (list bool)) : bool := match r with Some h' => bools_eqb h' h | None => false end.
Definition is_accepted (r : option (list bool)) : bool := match r with Some _ => true | None => false end.
(** product over the segments *)
Fixpoint prod3 (f : bool -> R -> R -> R) (h : list bool) (p q : list R) : R :=
  match h, p, q with b :: h', x :: p', y :: q' => f b x y * prod3 f h' p' q' | _, _, _ => 1 end.
