(** Property theorems C29, C30, C31. *)
From Coq Require Import Reals List ZArith Bool Arith Lia Lra Sorted Permutation.
From Verif Require Import Base Np Rng Mat M_ars SpecArs L_ars L_ars2 L_ars3 L_simdemo.
Import ListNotations.
Local Open Scope R_scope.

(** C29: the hulls enclose the target. *)
Theorem C29_lower_hull : forall lb ub f df x v, concave_on lb ub f df -> supports lb ub x -> dom lb ub v ->
  exists lo, eval_lower x (map f x) v = Ok lo /\ ele lo (Fin (f v)) /\
    ((exists i, (S i < length x)%nat /\ nth i x 0 < v <= nth (S i) x 0) -> is_fin lo = true).
Proof. exact eval_lower_ok. Qed.
Print Assumptions C29_lower_hull.
(** the upper hull is the least tangent *)
Theorem C29_upper_hull : forall lb ub f df x y v, strictly_concave_on lb ub f df -> supports lb ub x -> dom lb ub v ->
  hull_breaks lb ub x (map f x) (map df x) = Some y ->
  exists up, eval_upper x (map f x) (map df x) y v = Ok up /\ f v <= up /\
    (exists a, In a x /\ up = tangent f df a v) /\ (forall a, In a x -> up <= tangent f df a v).
Proof. exact upper_statement. Qed.
Print Assumptions C29_upper_hull.
(** for a concave target any value returned, whatever the break points, dominates it *)
Theorem C29_upper_hull_any_breaks : forall lb ub f df x y v, concave_on lb ub f df -> Forall (dom lb ub) x -> dom lb ub v ->
  forall up, eval_upper x (map f x) (map df x) y v = Ok up -> f v <= up /\ exists a, In a x /\ up = tangent f df a v.
Proof. exact eval_upper_any. Qed.
Print Assumptions C29_upper_hull_any_breaks.
(** break points interlace with the supports and are where neighbouring tangents meet *)
Theorem C29_break_points : forall lb ub f df x, strictly_concave_on lb ub f df -> supports lb ub x ->
  exists y, hull_breaks lb ub x (map f x) (map df x) = Some y /\ length y = S (length x) /\
   nth 0 y PosInf = lb /\ nth (length x) y PosInf = ub /\
   (forall j, (j < length x)%nat -> elt (nth j y PosInf) (Fin (nth j x 0)) /\ elt (Fin (nth j x 0)) (nth (S j) y PosInf)) /\
   (forall j v, (S j < length x)%nat -> nth (S j) y PosInf = Fin v -> tangent f df (nth j x 0) v = tangent f df (nth (S j) x 0) v).
Proof. exact breaks_statement. Qed.
Print Assumptions C29_break_points.
Example C29_example : strictly_concave_on NegInf PosInf nf ndf /\ supports NegInf PosInf [-(1); 1] /\ dom NegInf PosInf (1/2).
Proof.
  split; [apply nf_concave|]. split; [|split; exact I].
  split; [repeat constructor; lra|]. split; [repeat constructor; simpl; auto|discriminate].
Qed.

(** C30: the drawn point is the z-quantile of the envelope. *)
Theorem C30_envelope_quantile : forall lb ub f df x y, strictly_concave_on lb ub f df -> supports lb ub x ->
  (forall a, In a x -> df a <> 0) -> (lb = NegInf -> 0 < df (hd 0 x)) ->
  (ub = PosInf -> df (last x 0) < 0 /\ (2 <= length x)%nat) ->
  hull_breaks lb ub x (map f x) (map df x) = Some y ->
  forall o k z, ora_r o k (DUniform 0 1) = z -> 0 < z < 1 ->
  exists p, fst (sample_envelope x (map f x) (map df x) y o k) = Ok (Some p) /\ dom lb ub p /\ envelope_quantile f df x y z p.
Proof. exact envelope_statement. Qed.
Print Assumptions C30_envelope_quantile.
(** for the admissible draw z = 0 the index -1 wraps around and the point is wrong *)
Theorem C30_zero_draw_refuted : exists f df x o p m, strictly_concave_on NegInf PosInf f df /\ supports NegInf PosInf x /\
  (forall a, In a x -> df a <> 0) /\ 0 < df (hd 0 x) /\ df (last x 0) < 0 /\ valid o /\ ora_r o 0%nat (DUniform 0 1) = 0 /\
  exists y y1, hull_breaks NegInf PosInf x (map f x) (map df x) = Some y /\ nth 1 y PosInf = Fin y1 /\
  fst (sample_envelope x (map f x) (map df x) y o 0%nat) = Ok (Some p) /\ p < y1 /\ mass f df (hd 0 x) NegInf (Fin p) m /\ 0 < m.
Proof. exact envelope_zero_wrong. Qed.
Print Assumptions C30_zero_draw_refuted.
Example C30_example : (forall a, In a [-(1); 1] -> ndf a <> 0) /\ 0 < ndf (hd 0 [-(1); 1]) /\
  ndf (last [-(1); 1] 0) < 0 /\ le 2 (length [-(1); 1]) /\ exists o, valid o /\ 0 < ora_r o 0%nat (DUniform 0 1) < 1.
Proof.
  split; [intros a [<-|[<-|[]]]; unfold ndf; lra|]. split; [unfold ndf; simpl; lra|]. split; [unfold ndf; simpl; lra|]. split; [simpl; lia|].
  destruct generic_exists as (o & V & G & _). exists o. split; auto. split; [apply G; lra|].
  destruct (proj1 V 0%nat (DUniform 0 1)) as (w & W & ->). lra.
Qed.

(** C31: one iteration, then any number of them. *)
Theorem C31_step : forall lb ub f df maxp, strictly_concave_on lb ub f df -> forall h, good_hull lb ub f df h ->
  total_if uniform_pos (ars_step f df lb ub maxp h)
  (fun r => match r with
    | None => True
    | Some (h', Some v) => h' = h /\ accepted_by lb ub f df (h_x h) v
    | Some (h', None) => good_hull lb ub f df h' /\ exists v, rejected_by lb ub f df (h_x h) v /\
        ((length (h_x h) < maxp)%nat /\ Permutation (h_x h') (v :: h_x h) \/ (maxp <= length (h_x h))%nat /\ h' = h)
    end).
Proof. exact step_ok. Qed.
Print Assumptions C31_step.
Theorem C31_run : forall lb ub f df maxp, strictly_concave_on lb ub f df -> forall n draws h, good_hull lb ub f df h ->
  total_if uniform_pos (ars_run n f df lb ub maxp draws h)
  (fun r => match r with
    | None => True
    | Some (ys, h') => good_hull lb ub f df h' /\ incl (h_x h) (h_x h') /\
        (length (h_x h) <= length (h_x h') <= Nat.max (length (h_x h)) maxp)%nat /\
        match draws with Some d => (length ys <= d)%nat | None => True end /\
        (length (h_x h') + length ys <= length (h_x h) + n)%nat /\
        Forall (fun v => exists x, incl x (h_x h') /\ incl (h_x h) x /\ accepted_by lb ub f df x v) ys
    end).
Proof. exact run_ok. Qed.
Print Assumptions C31_run.
(** the starting points found by brace satisfy the invariant when the mode is exact *)
Theorem C31_brace : forall lb ub f df mode, strictly_concave_on lb ub f df -> dom lb ub mode -> df mode = 0 ->
  let '(l, u) := brace mode lb ub in
  dom lb ub l /\ dom lb ub u /\ l < mode < u /\ 0 < df l /\ df u < 0 /\ good_hull lb ub f df (hull_init f df [l; u]).
Proof. exact brace_good. Qed.
Print Assumptions C31_brace.
Example C31_example : good_hull NegInf PosInf nf ndf (hull_init nf ndf [-(1); 1]) /\ exists o, valid o /\ uniform_pos o.
Proof.
  pose proof (brace_good NegInf PosInf nf ndf 0 nf_concave (conj I I) ltac:(unfold ndf; lra)) as H. simpl in H.
  replace (0 - 1) with (-(1)) in H by ring. replace (0 + 1) with 1 in H by ring. split; [apply H|].
  destruct generic_exists as (o & V & G & _). eauto.
Qed.
