(** Specification of the anchor sector of a layer and of the attempts of the edge samplers. *)
From Coq Require Import Reals List Bool Arith.
From Verif Require Import Base Rng M_hit SpecHit SpecLaw SpecEsc.
Local Open Scope R_scope.

(** the probability s that a bridge from a to b over [0, t] stays inside (l, u) *)
Definition stays (t a b l u s : R) : Prop :=
  (l < Rmin a b /\ Rmax a b < u /\ exists p, brown_escape t (a - (l + u) / 2) (b - (l + u) / 2) ((u - l) / 2) p /\ s = 1 - p) \/
  ((Rmin a b <= l \/ u <= Rmax a b) /\ s = 0).

(** A path of the layer visits the lower sector, the upper sector or both. With probability w the
    lower sector is anchored and a path that visits it is kept, with probability one half if it
    visits the upper sector too; otherwise the same is done with the sectors exchanged. The path
    kept has the law of a path of the layer if this equation holds. [s_lo] is the probability of
    staying between the lower edge of the layer inside and the upper edge of the layer, [s_hi]
    exchanges the sides, [s] and [s'] belong to the layer and to the layer inside. *)
Definition anchor_exact (w s s' s_lo s_hi : R) : Prop :=
  let both := s - s_lo - s_hi + s' in let only_lo := s_hi - s' in let only_hi := s_lo - s' in
  w * (only_hi + both / 2) = (1 - w) * (only_lo + both / 2).

(** the bounds are mirror images about the mid-point of the bridge's ends *)
Definition mirrored (a b : R) (lb ub : ext) : Prop :=
  match lb, ub with Fin l, Fin u => l + u = a + b | NegInf, PosInf => True | _, _ => False end.

(** whether a minimum drawn by sample_layerbr_min is kept *)
Definition min_attempt (fuel : nat) (t a b ub min_t min_x : R) : M bool :=
  do e1 <- sample_bessel3br_esc fuel min_t 0 (a - min_x) (ub - min_x) None None;
  do e2 <- sample_bessel3br_esc fuel (t - min_t) 0 (b - min_x) (ub - min_x) None None;
  ret (negb e1 && negb e2).
(** the flags with which a minimum drawn by sample_edges is kept, [None] if it is not *)
Definition edges_attempt (fuel : nat) (t a b lb ub min_t min_x : R) : M (option (bool * bool)) :=
  do e1 <- sample_bessel3br_esc fuel min_t 0 (a - min_x) (lb - min_x) (Some (ub - min_x)) None;
  do e2 <- sample_bessel3br_esc fuel (t - min_t) 0 (b - min_x) (lb - min_x) (Some (ub - min_x)) None;
  if negb e1 && negb e2 then ret (Some (e1, e2))
  else do v <- draw_r (DUniform 0 1); if Rltb (1 / 2) v then ret (Some (e1, e2)) else ret None.
Definition kept (f : bool * bool) (r : option (bool * bool)) : bool :=
  match r with Some g => Bool.eqb (fst g) (fst f) && Bool.eqb (snd g) (snd f) | None => false end.
(** a path that reaches the upper sector is kept with probability one half *)
Definition keep_rate (f : bool * bool) : R := if fst f || snd f then 1 / 2 else 1.
(** the probability of the flag f, given that the segment does not reach its outer bound *)
Definition flag_chance (f : bool) (p q : R) : R := if f then (p - q) / (1 - q) else (1 - p) / (1 - q).
