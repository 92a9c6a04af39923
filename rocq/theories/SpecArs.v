(** Vocabulary for adaptive rejection sampling. *)
From Coq Require Import Reals List Bool Arith Sorted.
From Coquelicot Require Import Rbar Hierarchy RInt RInt_gen.
From Verif Require Import Base Rng Mat SpecLaw M_ars.
Import ListNotations.
Local Open Scope R_scope.

(** the open interval between two possibly infinite bounds *)
Definition dom (lb ub : ext) (x : R) : Prop := elt lb (Fin x) /\ elt (Fin x) ub.
(** f is differentiable with derivative df and concave (strictly concave) between the bounds *)
Definition concave_on (lb ub : ext) (f df : R -> R) : Prop :=
  (forall x, dom lb ub x -> derivable_pt_lim f x (df x)) /\
  (forall x y, dom lb ub x -> dom lb ub y -> x < y -> df y <= df x).
Definition strictly_concave_on (lb ub : ext) (f df : R -> R) : Prop :=
  (forall x, dom lb ub x -> derivable_pt_lim f x (df x)) /\
  (forall x y, dom lb ub x -> dom lb ub y -> x < y -> df y < df x).
Definition tangent (f df : R -> R) (a v : R) : R := f a + (v - a) * df a.
(** support points between the bounds, in increasing order *)
Definition supports (lb ub : ext) (x : list R) : Prop := StronglySorted Rlt x /\ Forall (dom lb ub) x /\ x <> [].
(** limits of integration *)
Definition lim (e : ext) : (R -> Prop) -> Prop :=
  match e with
  | NegInf => Rbar_locally m_infty
  | Fin a => at_point a
  | PosInf => Rbar_locally p_infty
  end.
(** m is the mass of exp(tangent at a) between the limits *)
Definition mass (f df : R -> R) (a : R) (lo hi : ext) (m : R) : Prop :=
  is_RInt_gen (V := R_NormedModule) (fun v => exp (tangent f df a v)) (lim lo) (lim hi) m.

(** invariant of the loop *)
Definition good_hull (lb ub : ext) (f df : R -> R) (h : hull) : Prop :=
  h_fx h = map f (h_x h) /\ h_dfx h = map df (h_x h) /\
  StronglySorted Rle (h_x h) /\ Forall (dom lb ub) (h_x h) /\ h_x h <> [] /\
  (lb = NegInf -> 0 < df (hd 0 (h_x h))) /\ (ub = PosInf -> df (last (h_x h) 0) < 0 /\ (2 <= length (h_x h))%nat).
(** v was accepted against the hull with supports x: the value of the hull is the least
    tangent, it dominates f, and the logarithm of a uniform was below f - hull *)
Definition accepted_by (lb ub : ext) (f df : R -> R) (x : list R) (v : R) : Prop :=
  dom lb ub v /\ exists up u, (exists a, In a x /\ up = tangent f df a v) /\ (forall a, In a x -> up <= tangent f df a v) /\
    f v <= up /\ 0 < u < 1 /\ ln u < f v - up.
Definition rejected_by (lb ub : ext) (f df : R -> R) (x : list R) (v : R) : Prop :=
  dom lb ub v /\ exists up u, (exists a, In a x /\ up = tangent f df a v) /\ (forall a, In a x -> up <= tangent f df a v) /\
    f v <= up /\ 0 < u < 1 /\ f v - up <= ln u.
(** the drawn point p of segment i splits the total mass of the envelope (supports x, break
    points y) in the ratio z : 1 - z *)
Definition envelope_quantile (f df : R -> R) (x : list R) (y : list ext) (z p : R) : Prop :=
  exists i M m, (i < length x)%nat /\
    elt (nth i y PosInf) (Fin p) /\ ele (Fin p) (nth (S i) y PosInf) /\
    (forall j, (j < length x)%nat -> mass f df (nth j x 0) (nth j y PosInf) (nth (S j) y PosInf) (M j)) /\
    mass f df (nth i x 0) (nth i y PosInf) (Fin p) m /\
    rsum i M + m = z * rsum (length x) M.

(** the upper hull: the least of the tangents at the support points *)
Definition least_tangent (f df : R -> R) (x : list R) (v : R) : R := fold_right Rmin (tangent f df (hd 0 x) v) (map (fun a => tangent f df a v) x).
(** the mass of the envelope *)
Definition envelope_mass (lb ub : ext) (f df : R -> R) (x : list R) (Z : R) : Prop :=
  is_RInt_gen (V := R_NormedModule) (fun v => exp (least_tangent f df x v)) (lim lb) (lim ub) Z.
(** the mass of the target: the least upper bound of its integrals between the bounds *)
Definition target_mass (lb ub : ext) (f : R -> R) (A : R) : Prop :=
  is_lub (fun m => exists s r, dom lb ub s /\ dom lb ub r /\ s <= r /\ is_RInt (V := R_NormedModule) (fun v => exp (f v)) s r m) A.
(** [off_zero m]: m, run with the value 0 of a uniform (it has probability zero, and
    C30_zero_draw_refuted shows what the code does with it) replaced by the middle of the range *)
Definition no_zero (o : oracle) : oracle :=
  {| ora_r := fun k d => match d with DUniform lo hi => if Reqb (ora_r o k d) lo then (lo + hi) / 2 else ora_r o k d | _ => ora_r o k d end;
     ora_n := ora_n o |}.
Definition off_zero {A} (m : M A) : M A := fun o k => m (no_zero o) k.
(** a value was yielded; a value in (s, r] was yielded *)
Definition gives (r : option (hull * option R)) : bool := match r with Some (_, Some _) => true | _ => false end.
Definition in_win (s r v : R) : bool := Rltb s v && Rleb v r.
Definition gives_in (s r : R) (res : option (hull * option R)) : bool := match res with Some (_, Some v) => in_win s r v | _ => false end.
(** the values ys are as many as the windows and lie in them, one by one *)
Fixpoint in_windows (ws : list (R * R)) (ys : list R) : bool :=
  match ws, ys with
  | [], [] => true
  | w :: ws', v :: ys' => in_win (fst w) (snd w) v && in_windows ws' ys'
  | _, _ => false
  end.
(** the probability of at least d successes in n independent trials, each with probability a *)
Fixpoint at_least (a : R) (n d : nat) : R :=
  match d, n with
  | O, _ => 1
  | S _, O => 0
  | S d', S n' => a * at_least a n' d' + (1 - a) * at_least a n' d
  end.
(** hulls from which the sampler draws *)
Definition ready (lb ub : ext) (f df : R -> R) (h : hull) : Prop :=
  h_fx h = map f (h_x h) /\ h_dfx h = map df (h_x h) /\ supports lb ub (h_x h) /\ (forall a, In a (h_x h) -> df a <> 0) /\
  (lb = NegInf -> 0 < df (hd 0 (h_x h))) /\ (ub = PosInf -> df (last (h_x h) 0) < 0 /\ (2 <= length (h_x h))%nat).
(** m is the integral of exp(f) over (s, r], which lies between the bounds *)
Definition window_mass (lb ub : ext) (f : R -> R) (s r m : R) : Prop :=
  dom lb ub s /\ dom lb ub r /\ s <= r /\ is_RInt (V := R_NormedModule) (fun v => exp (f v)) s r m.
(** the run gave as many values as there are windows, each in its window *)
Definition all_in (ws : list (R * R)) (r : option (list R * hull)) : bool := match r with Some (ys, _) => in_windows ws ys | None => false end.
(** for runs that gave d + 1 values: any function g of the first d of them times the excess of
    "the last one is in (s, r]" over c *)
Definition score (g : list R -> R) (s r c : R) (d : nat) (res : option (list R * hull)) : R :=
  match res with Some (ys, _) => if Nat.eqb (length ys) (S d) then g (firstn d ys) * (ind (in_win s r (last ys 0)) - c) else 0 | None => 0 end.
