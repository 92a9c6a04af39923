(** A fair anchor is exact for mirrored bounds and in the first layer. *)
From Coq Require Import Reals List Bool Arith Lia Lra Psatz.
From Verif Require Import Base Rng L_rng M_hit SpecHit L_hit L_hit2 L_hit3 L_hit4 L_hit5 L_hit6 L_hit7 L_hit8 SpecLaw SpecEsc SpecAnch L_lay L_anc.
Local Open Scope R_scope.

Lemma escape_unique : forall t a b K p q, brown_escape t a b K p -> brown_escape t a b K q -> p = q.
Proof. intros t a b K p q H1 H2. exact (uniqueness_sum _ p q H1 H2). Qed.
Lemma stays_mirror : forall t a b l u s s', stays t a b l u s -> stays t a b (a + b - u) (a + b - l) s' -> s = s'.
Proof.
  intros t a b l u s s' H1 H2. assert (MM : Rmin a b + Rmax a b = a + b) by (unfold Rmin, Rmax; destruct (Rle_dec a b); lra).
  destruct H1 as [(A1 & A2 & p & E & ->)|[A ->]], H2 as [(B1 & B2 & q & E' & ->)|[B ->]]; try lra.
  apply brown_reflect in E'. apply brown_swap in E'.
  replace (- (b - (a + b - u + (a + b - l)) / 2)) with (a - (l + u) / 2) in E' by field.
  replace (- (a - (a + b - u + (a + b - l)) / 2)) with (b - (l + u) / 2) in E' by field.
  replace ((a + b - l - (a + b - u)) / 2) with ((u - l) / 2) in E' by field.
  rewrite (escape_unique _ _ _ _ _ _ E E'). reflexivity.
Qed.
Lemma half_exact : forall s s' lo hi, anchor_exact (1 / 2) s s' lo hi <-> lo = hi.
Proof. intros. unfold anchor_exact. split; intros; lra. Qed.
Lemma mirrored_exact : forall t a b lb ub i le ue le' ue' s s' lo hi, 0 < t -> elt lb (Fin (Rmin a b)) -> elt (Fin (Rmax a b)) ub -> mirrored a b lb ub ->
  compute_edges i t a b lb ub = Ok (Fin le, Fin ue) -> compute_edges (i - 1) t a b lb ub = Ok (Fin le', Fin ue') ->
  stays t a b le ue s -> stays t a b le' ue' s' -> stays t a b le' ue lo -> stays t a b le ue' hi -> anchor_exact (1 / 2) s s' lo hi.
Proof.
  intros t a b lb ub i le ue le' ue' s s' lo hi Ht L U HM E E' _ _ Hlo Hhi. apply half_exact.
  pose proof (edges_mirror t a b lb ub Ht L U HM i le ue E). pose proof (edges_mirror t a b lb ub Ht L U HM (i - 1) le' ue' E').
  apply (stays_mirror t a b le' ue lo hi Hlo). replace (a + b - ue) with le by lra. replace (a + b - le') with ue' by lra. exact Hhi.
Qed.
Lemma first_exact : forall t a b lb ub le ue le' ue' s s' lo hi, 0 < t -> elt lb (Fin (Rmin a b)) -> elt (Fin (Rmax a b)) ub ->
  compute_edges 1 t a b lb ub = Ok (Fin le, Fin ue) -> compute_edges 0 t a b lb ub = Ok (Fin le', Fin ue') ->
  stays t a b le ue s -> stays t a b le' ue' s' -> stays t a b le' ue lo -> stays t a b le ue' hi -> anchor_exact (1 / 2) s s' lo hi.
Proof.
  intros t a b lb ub le ue le' ue' s s' lo hi Ht L U E E' _ _ Hlo Hhi. apply half_exact.
  rewrite (edge_zero t a b lb ub Ht L U) in E'. injection E' as <- <-.
  destruct Hlo as [(A & _)|[_ ->]]; [lra|]. destruct Hhi as [(_ & A & _)|[_ ->]]; lra.
Qed.
