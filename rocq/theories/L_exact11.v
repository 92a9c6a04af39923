(** Concrete hidden states and parameters for the updates on known paths. *)
From Coquelicot Require Import Rcomplements Hierarchy Continuity RInt.
From Coq Require Import Reals List Bool Arith ZArith Lra Lia Psatz.
From Verif Require Import Base Np Rng M_hit M_path M_skel M_seed SpecSkel SpecSeed M_models M_sw M_ito SpecLaw SpecEst SpecExact SpecExact2 L_exact5.
Import ListNotations.
Local Open Scope R_scope.

(** two pieces: regime 0 from 0 to 1, then regime 1 from 1 to 2; the discrepancy of regime y is a ramp that starts at y *)
Definition ex_h : anchorage := mk_anch [0; 1; 2] [0; 1; 0]%nat [0; 1; 2].
Definition ex_disc (y : nat) (x : R) : R := ramp (x - INR y).
Definition ex_bounds (y : nat) : bounds_fun := fun lo hi => (ramp (lo - INR y), ramp (lo - INR y), Fin (ramp (hi - INR y))).
Lemma shifted : forall s y v le ue, exact_on two_paths ramp ramp_bounds s 1 (sqrt 1) 0 1 v le ue -> exact_on two_paths (ex_disc y) (ex_bounds y) s 1 (sqrt 1 * 1) (INR y) (INR y + 1) v le ue.
Proof.
  intros s y v le ue [[inf EB] RG]. rewrite Rmult_1_r. split.
  - exists inf. unfold ex_bounds, ramp_bounds in *. rewrite <- EB. rewrite (Rmin_left (INR y) (INR y + 1)), (Rmax_right (INR y) (INR y + 1)), (Rmin_left 0 1), (Rmax_right 0 1) by lra.
    replace (low_z s * sqrt 1 + INR y - INR y) with (low_z s * sqrt 1 + 0) by ring. replace (high_z s * sqrt 1 + (INR y + 1) - INR y) with (high_z s * sqrt 1 + 1) by ring. reflexivity.
  - refine (regular_ext _ _ _ _ _ _ RG). intros u Hu. unfold ex_disc, segment_path, path_at. do 2 f_equal. ring.
Qed.
Lemma ex_hidden : forall s1 v1 le1 ue1 s2 v2 le2 ue2, exact_on two_paths ramp ramp_bounds s1 1 (sqrt 1) 0 1 v1 le1 ue1 -> exact_on two_paths ramp ramp_bounds s2 1 (sqrt 1) 0 1 v2 le2 ue2 ->
  known_hidden two_paths (fun _ => 1) ex_disc ex_bounds [s1; s2] ex_h 2 (fun j => if Nat.eqb j 0 then v1 else v2) (fun j => if Nat.eqb j 0 then le1 else le2) (fun j => if Nat.eqb j 0 then ue1 else ue2).
Proof.
  intros s1 v1 le1 ue1 s2 v2 le2 ue2 X1 X2. split; [repeat split; cbn; lia|]. intros j s E. destruct j as [|[|j]]; cbn in E; [| |destruct j; discriminate]; injection E as <-; cbv zeta; unfold span; cbn [ex_h a_t a_y a_v nth Nat.eqb].
  - pose proof (shifted s1 0 v1 le1 ue1 X1) as S1. cbn [INR] in S1. replace (0 + 1) with 1 in S1 by ring. replace (1 - 0) with 1 by ring. exact S1.
  - pose proof (shifted s2 1 v2 le2 ue2 X2) as S2. cbn [INR] in S2. replace (1 + 1) with 2 in S2 by ring. replace (2 - 1) with 1 by ring. exact S2.
Qed.
Lemma ex_known_hidden :
  known_hidden two_paths (fun _ => 1) ex_disc ex_bounds [seed_line; seed_sag] ex_h 2 (fun j => if Nat.eqb j 0 then 1/2 else 1/3) (fun j => if Nat.eqb j 0 then 0 else 0) (fun j => if Nat.eqb j 0 then 2 else 2) /\
  known_hidden two_paths (fun _ => 1) ex_disc ex_bounds [seed_sag; seed_sag] ex_h 2 (fun j => if Nat.eqb j 0 then 1/3 else 1/3) (fun j => if Nat.eqb j 0 then 0 else 0) (fun j => if Nat.eqb j 0 then 2 else 2).
Proof. split; apply ex_hidden; try apply line_exact; apply sag_exact. Qed.
(** a slope as parameter, and a bound of the derivative with respect to it *)
Definition slope_disc (thi : list R) (x : R) : R := par thi 0 * ramp x.
Definition slope_grad (x y : list R) (T v0 v1 lo hi : R) : list R := [2].
Lemma zero_regular : forall f, (forall u, 0 <= u <= 1 -> f u = 0) -> regular f 1 2 0.
Proof.
  intros f Hf. split; [lra|]. split; [lra|]. split; [intros u Hu; rewrite Hf by lra; lra|]. split.
  - refine (is_RInt_ext (V := R_NormedModule) (fun _ => 0) _ _ _ _ _ _); [rewrite Rmin_left, Rmax_right by lra; intros u Hu; symmetry; apply Hf; lra|]. assert (Z : is_RInt (V := R_NormedModule) (fun _ => 0) 0 1 ((1 - 0) * 0)) by apply (is_RInt_const 0 1 0). rewrite Rmult_0_r in Z. exact Z.
  - exists (fun _ => 1). split; [intros h; apply continuous_const|]. intros h Hh. refine (is_RInt_ext (V := R_NormedModule) (fun _ => 1) _ _ _ _ _ _).
    + rewrite Rmin_left, Rmax_right by lra. intros u Hu. rewrite Hf by lra. rewrite (proj2 (Rltb_false h 0)) by lra. reflexivity.
    + replace (1 * 1) with ((1 - 0) * 1) by ring. apply (is_RInt_const 0 1 1).
Qed.
Lemma slope_compared : forall c c', c = 1 -> c' = 1 -> compared two_paths (slope_disc [1]) (slope_disc [2]) seed_line 1 c 0 1 c' 0 1 2 (1/2) 1 0 (1/2).
Proof.
  intros c c' -> ->. assert (EP : forall u, 0 <= u <= 1 -> ramp (segment_path two_paths seed_line 1 1 0 1 u) = u).
  { intros u Hu. unfold segment_path, path_at, two_paths, seed_line; cbn [k_tight]. rewrite (proj2 (Rltb_true (-1) (-3/4))) by lra. unfold ramp. rewrite Rmax_right; [field|]. unfold Rdiv. rewrite Rinv_1. lra. }
  assert (RL : regular (fun u => u) 1 2 (1/2)).
  { pose proof line_regular as L. replace (2 - 0) with 2 in L by ring. replace (1/2 - 1 * 0) with (1/2) in L by ring. refine (regular_ext _ _ _ _ _ _ L). intros u Hu. cbv beta. apply Rminus_0_r. }
  pose proof RL as (_ & _ & _ & DI & _).
  unfold compared, slope_disc, par. cbn [nth]. cbv zeta. split; [|split; [|split]].
  - refine (is_RInt_ext _ _ _ _ _ _ DI). rewrite Rmin_left, Rmax_right by lra. intros u Hu. rewrite EP by lra. symmetry. apply Rmult_1_l.
  - pose proof (is_RInt_scal (V := R_NormedModule) _ _ _ 2 _ DI) as D2. unfold scal in D2; cbn in D2. unfold mult in D2; cbn in D2. replace (2 * (1/2)) with 1 in D2 by field.
    refine (is_RInt_ext _ _ _ _ _ _ D2). rewrite Rmin_left, Rmax_right by lra. intros u Hu. rewrite EP by lra. reflexivity.
  - apply zero_regular. intros u Hu. rewrite EP by lra. apply Rmax_left. lra.
  - refine (regular_ext _ _ _ _ _ _ RL). intros u Hu. rewrite EP by lra. rewrite Rmax_right by lra. ring.
Qed.
Lemma slope_rate : sw_intensity [1] [2] [2] = 2 /\ ito_intensity [1] [2] [2] = 2.
Proof.
  unfold sw_intensity, ito_intensity, updating. cbn [combine map filter fst snd]. replace (Reqb 1 2) with false by (symmetry; apply not_true_iff_false; rewrite Reqb_true; lra).
  cbn [negb map fst snd rsum M_models.rsum fold_right]. unfold M_models.rsum; cbn [fold_right]. rewrite (Rabs_left (1 - 2)), (Rabs_pos_eq 2) by lra. split; ring.
Qed.
Lemma ex_known_params : known_params two_paths (fun _ _ => 1) (fun thi y => slope_disc (row thi y)) slope_grad [[1]; [5]] (list_set [[1]; [5]] 0 [2]) [seed_line; seed_sag] ex_h 0 2
  (fun _ => 2) (fun _ => 1/2) (fun _ => 1) (fun _ => 0) (fun _ => 1/2).
Proof.
  split; [repeat split; cbn; lia|]. intros j s E Y. destruct j as [|[|j]]; cbn in E; [|cbn in Y; discriminate|destruct j; discriminate]. injection E as <-. cbv zeta; unfold span; cbn [ex_h a_t a_y a_v nth row list_set].
  split; [symmetry; apply slope_rate|]. replace (1 - 0) with 1 by ring. apply slope_compared; rewrite sqrt_1; ring.
Qed.
Lemma ex_known_ito : known_ito two_paths (fun _ x => x) slope_disc slope_grad [1] (list_set [1] 0 2) [seed_line] [0; 1] [0; 1] 1 (fun _ => 2) (fun _ => 1/2) (fun _ => 1) (fun _ => 0) (fun _ => 1/2).
Proof.
  split; [lia|]. do 3 (split; [reflexivity|]). intros j s E. destruct j as [|j]; [|destruct j; discriminate]. injection E as <-. cbv zeta; unfold span; cbn [nth list_set].
  split; [symmetry; apply slope_rate|]. replace (1 - 0) with 1 by ring. apply slope_compared; rewrite sqrt_1; ring.
Qed.
