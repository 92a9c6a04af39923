(** The bounds of the optimiser in MCEM. *)
From Coq Require Import Reals List Bool Arith Lia Lra.
From Verif Require Import Base Np L_list Rng M_mjp M_inf M_adapt M_path M_skel M_seed M_models M_sw M_chain L_hit M_mcem SpecEm.
Import ListNotations.
Local Open Scope R_scope.

Lemma margin_inset b l u : 0 <= b -> interval l u -> inset b l u (eplus l (margin b (l, u))) (eplus u (- margin b (l, u))).
Proof.
  intros Hb (H1 & H2 & H3). destruct l as [|x|], u as [|y|]; cbn [ele] in H1; try congruence; try contradiction; cbn [inset eplus margin]; try (split; try reflexivity; f_equal; lra).
  replace (if Rltb b (Rabs (x - y) / 2) then b else Rabs (x - y) / 2) with (Rmin ((y - x) / 2) b); [split; f_equal; lra|].
  replace (Rabs (x - y)) with (y - x) by (rewrite Rabs_minus_sym, Rabs_right; lra). destruct (Rltb b ((y - x) / 2)) eqn:E.
  - apply Rltb_true in E. apply Rmin_right. lra.
  - apply Rltb_false in E. apply Rmin_left. lra.
Qed.
Lemma inset_inside b l u l' u' : 0 <= b -> interval l u -> inset b l u l' u' -> ele l l' /\ ele l' u' /\ ele u' u /\ interval l' u'.
Proof.
  intros Hb (H1 & H2 & H3) H. destruct l as [|x|], u as [|y|]; cbn [ele] in H1; try congruence; try contradiction; destruct H as [-> ->]; unfold interval; cbn [ele]; repeat split; auto; try congruence; try lra.
  all: pose proof (Rmin_l ((y - x) / 2) b); pose proof (Rmin_glb ((y - x) / 2) b 0); lra.
Qed.
Lemma badd_map e : forall d, length e = length d -> badd e d = Ok (map (fun p => eplus (fst p) (snd p)) (combine e d)).
Proof. intros d H. unfold badd. now rewrite H, Nat.eqb_refl. Qed.
Lemma buffer_ok lb ub n b : 0 <= b -> Forall2 interval (lower_of lb n) (upper_of ub n) -> exists l' u', buffer_bounds lb ub n b = Ok (l', u') /\
  length l' = length (lower_of lb n) /\ length u' = length (lower_of lb n) /\
  forall i l u lo hi, nth_error (lower_of lb n) i = Some l -> nth_error (upper_of ub n) i = Some u -> nth_error l' i = Some lo -> nth_error u' i = Some hi -> inset b l u lo hi /\ ele l lo /\ ele lo hi /\ ele hi u.
Proof.
  intros Hb F. unfold buffer_bounds. fold (lower_of lb n) (upper_of ub n). set (L := lower_of lb n) in *. set (U := upper_of ub n) in *. assert (EL : length L = length U) by (clear - F; induction F; cbn; auto).
  assert (LC : length (combine L U) = length L) by (rewrite combine_length; lia).
  rewrite badd_map by (rewrite map_length, LC; reflexivity). cbn [rbind]. rewrite badd_map by (rewrite !map_length, LC; auto). cbn [rbind]. do 2 eexists. split; [reflexivity|].
  split; [rewrite map_length, combine_length, map_length, LC; lia|]. split; [rewrite map_length, combine_length, !map_length, LC; lia|].
  clear LC. clearbody L U. induction F as [|l0 u0 L U H F IH]; intros i l u lo hi H1 H2 H3 H4; [destruct i; discriminate|].
  destruct i as [|i]; cbn in H1, H2, H3, H4.
  - injection H1 as <-. injection H2 as <-. injection H3 as <-. injection H4 as <-. pose proof (margin_inset b l0 u0 Hb H) as I. split; [exact I|]. apply (inset_inside b) in I; auto. tauto.
  - apply (IH (eq_add_S _ _ EL) i); auto.
Qed.
Lemma badd_bad e d : (2 <= length e)%nat -> (2 <= length d)%nat -> length e <> length d -> badd e d = Raise ValueError.
Proof.
  intros H1 H2 N. unfold badd. apply Nat.eqb_neq in N. rewrite N. destruct e as [|x [|y e]]; cbn in H1; try lia. destruct d as [|x' [|y' d]]; cbn in H2; try lia. reflexivity.
Qed.
Lemma wrong_dimension n u b : (2 <= n)%nat -> (2 <= length u)%nat -> length u <> n -> buffer_bounds None (Some u) n b = Raise ValueError.
Proof.
  intros H1 H2 N. unfold buffer_bounds. set (d := map (margin b) (combine (repeat NegInf n) u)).
  assert (Ld : length d = Nat.min n (length u)) by (unfold d; rewrite map_length, combine_length, repeat_length; reflexivity).
  destruct (Nat.eq_dec (length d) n) as [E|E].
  - rewrite badd_map by (rewrite repeat_length; lia). cbn [rbind]. rewrite badd_bad; [reflexivity|lia|rewrite map_length; lia|rewrite map_length; lia].
  - rewrite badd_bad; [reflexivity|rewrite repeat_length; lia|lia|rewrite repeat_length; lia].
Qed.
(** clipping *)
Lemma clip_one x l u : interval l u -> exists y, emax (emin x u) l = Fin y /\ ele l (Fin y) /\ ele (Fin y) u /\ (ele l (Fin x) -> ele (Fin x) u -> y = x).
Proof.
  intros (H1 & H2 & H3). unfold emin. destruct (eleb (Fin x) u) eqn:E.
  - apply eleb_true in E. unfold emax. destruct (eleb l (Fin x)) eqn:E2; [apply eleb_true in E2; eauto 6|]. destruct l as [|l|]; cbn in E2; try congruence. apply Rleb_false in E2.
    exists l. repeat split; cbn [ele]; auto; [lra|]. intros H. cbn in H. lra.
  - destruct u as [|u|]; cbn in E; try congruence; try discriminate. apply Rleb_false in E. unfold emax. replace (eleb l (Fin u)) with true by (symmetry; now apply eleb_true).
    exists u. repeat split; auto; cbn [ele]; [lra|]. intros _ H. cbn in H. lra.
Qed.
Lemma clip_ok lb ub thi : Forall2 interval lb ub -> length thi = length lb -> exists v, clip lb ub thi = map Fin v /\ Forall2 (fun y p => ele (fst p) (Fin y) /\ ele (Fin y) (snd p)) v (combine lb ub) /\
  clip lb ub v = map Fin v /\ (Forall2 (fun x p => ele (fst p) (Fin x) /\ ele (Fin x) (snd p)) thi (combine lb ub) -> v = thi).
Proof.
  intros F. revert thi. induction F as [|l u lb ub H F IH]; intros [|x thi] E; try discriminate; [exists []; repeat split; constructor|].
  destruct (IH thi) as (v & E1 & E2 & E3 & E4); [now injection E|]. destruct (clip_one x l u H) as (y & Y1 & Y2 & Y3 & Y4). destruct (clip_one y l u H) as (z & Z1 & _ & _ & Z2). specialize (Z2 Y2 Y3). subst z.
  exists (y :: v). unfold clip in *. cbn [combine map fst snd]. rewrite E1, E3, Y1, Z1. split; [reflexivity|]. split; [|split; [reflexivity|]].
  - constructor; auto.
  - intros G. inversion G; subst. cbn [fst snd] in *. f_equal; [now apply Y4|now apply E4].
Qed.
