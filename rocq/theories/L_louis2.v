(** Differences that are exact for quadratic objectives. *)
From Coquelicot Require Import Rcomplements Hierarchy Derive AutoDerive.
From Coq Require Import Reals List Bool Arith Lra Lia.
From Verif Require Import Base Np Rng L_list L_rng M_mjp M_hit M_path SpecPath M_skel M_seed SpecSeed M_models M_inf M_sw M_adapt M_mcem SpecEm M_est SpecEst SpecLouis L_est3 L_louis L_mat Mat.
Import ListNotations.
Local Open Scope R_scope.

Definition q_obj (m : nat) (y : list R) : R := match m with O => - (3 / 2) * (nth 0 y 0 - 1 / 4) ^ 2 | _ => - (3 / 2) * (nth 0 y 0 + 1 / 4) ^ 2 end.
Definition q_score (m i : nat) (y : list R) : R := match m with O => - 3 * (nth 0 y 0 - 1 / 4) | _ => - 3 * (nth 0 y 0 + 1 / 4) end.
Definition q_f (y : list R) : M (list R) := ret (map (fun m => q_obj m y) (seq 0 2)).
(** central differences with step 1 *)
Definition q_grad (F : list R -> M (list R)) (x : list R) : M (list (list R)) :=
  do a <- F [nth 0 x 0 + 1]; do b <- F [nth 0 x 0 - 1]; ret (map (fun p => [(fst p - snd p) / 2]) (combine a b)).
Definition q_hess (F : list R -> M R) (x : list R) : M (list (list R)) :=
  do a <- F [nth 0 x 0 + 1]; do b <- F [nth 0 x 0]; do c <- F [nth 0 x 0 - 1]; ret [[a - 2 * b + c]].
Definition q_inv (A : list (list R)) : res (list (list R)) := match A with [[a]] => Ok [[/ a]] | _ => Raise ValueError end.

Lemma with_one : forall y s, with_at [y] 0 s = [s].
Proof. reflexivity. Qed.
Lemma q_partial : forall m i y, (i < 1)%nat -> partial (q_obj m) i [y] (q_score m i [y]).
Proof.
  intros m i y Hi. assert (i = 0)%nat as -> by lia. unfold partial. cbn [nth].
  destruct m; unfold q_obj, q_score; cbn [with_at length seq map nth Nat.eqb]; auto_derive; try exact Logic.I; simpl; field.
Qed.
Lemma q_second : forall m i j y, (j < 1)%nat -> partial (q_score m i) j [y] (-3).
Proof.
  intros m i j y Hj. assert (j = 0)%nat as -> by lia. unfold partial. cbn [nth].
  destruct m; unfold q_score; cbn [with_at length seq map nth Nat.eqb]; auto_derive; try exact Logic.I; ring.
Qed.
Lemma q_box : forall y, -2 <= y <= 2 -> in_box [Fin (-2)] [Fin 2] [y].
Proof. intros y Hy. unfold in_box. cbn [combine]. constructor; [cbn; lra|constructor]. Qed.
Lemma q_interval : Forall2 interval [Fin (-2)] [Fin 2].
Proof. constructor; [|constructor]. split; [cbn; lra|]. split; discriminate. Qed.
Lemma q_wrap : forall y o k, -2 <= y <= 2 -> wrap [Fin (-2)] [Fin 2] q_f [y] o k = (Ok [q_obj 0 [y]; q_obj 1 [y]], k).
Proof.
  intros y o k Hy. destruct (wrap_run _ [Fin (-2)] [Fin 2] q_f [y] q_interval eq_refl) as (z & _ & Z2 & Z3).
  rewrite Z3, (Z2 (q_box y Hy)). reflexivity.
Qed.
Lemma q_near : forall e y, Rabs y < e -> near [0] e [y].
Proof. intros e y H. constructor; [rewrite Rminus_0_r; exact H|constructor]. Qed.
Lemma q_exact_grad : exact_grad q_grad (wrap [Fin (-2)] [Fin 2] q_f) [0].
Proof.
  intros n f g (e & E & C) P o k.
  assert (V : forall y, Rabs y < Rmin e 2 -> map (fun m => f m [y]) (seq 0 n) = [q_obj 0 [y]; q_obj 1 [y]]).
  { intros y Hy. pose proof (Rmin_l e 2). pose proof (Rmin_r e 2). pose proof (C [y] (q_near e y ltac:(lra)) o k) as Q.
    rewrite q_wrap in Q by (apply Rabs_def2 in Hy; lra). injection Q as Q. symmetry. exact Q. }
  assert (M0 : 0 < Rmin e 2) by (apply Rmin_glb_lt; lra).
  assert (N : n = 2%nat).
  { pose proof (V 0 ltac:(rewrite Rabs_R0; exact M0)) as Q. apply (f_equal (@length R)) in Q. rewrite map_length, seq_length in Q. exact Q. }
  subst n.
  assert (D : forall m, (m < 2)%nat -> g m 0%nat = q_score m 0 [0]).
  { intros m Hm. pose proof (P m 0%nat Hm ltac:(cbn; lia)) as P1. unfold partial in P1. cbn [nth] in P1.
    apply is_derive_unique in P1. rewrite <- P1. symmetry.
    transitivity (Derive (fun s => q_obj m (with_at [0] 0 s)) 0).
    - symmetry. apply is_derive_unique. exact (q_partial m 0 0 ltac:(lia)).
    - apply Derive_ext_loc. exists (mkposreal _ M0). intros y Hy. change (Rabs (y - 0) < Rmin e 2) in Hy. rewrite Rminus_0_r in Hy.
      specialize (V y Hy). rewrite !with_one. cbn in V. injection V as V0 V1. destruct m as [|[|m]]; [symmetry; exact V0|symmetry; exact V1|lia]. }
  unfold q_grad. cbn [nth]. unfold bind. rewrite (q_wrap (0 + 1)) by lra. rewrite (q_wrap (0 - 1)) by lra.
  cbn [seq map length combine fst snd]. rewrite !D by lia. unfold ret, q_obj, q_score. cbn [nth].
  match goal with |- (Ok [[?a]; [?b]], _) = (Ok [[?c]; [?d]], _) => replace a with c by field; replace b with d by field end. reflexivity.
Qed.
Lemma tri_room : forall y r z : R, Rabs (z - y) < r - Rabs y -> Rabs z < r.
Proof. intros y r z Hz. pose proof (Rabs_triang (z - y) y) as TR. replace (z - y + y) with z in TR by ring. lra. Qed.
Lemma q_exact_hess : exact_hess q_hess (fun x => do v <- wrap [Fin (-2)] [Fin 2] q_f x; ret (- np_mean v)) [0].
Proof.
  intros f H (e & E & C) (G & (e' & E' & D1) & D2) o k.
  assert (M0 : 0 < Rmin (Rmin e e') 2) by (repeat apply Rmin_glb_lt; lra).
  set (r := Rmin (Rmin e e') 2) in *. assert (R3 : r <= e /\ r <= e' /\ r <= 2).
  { unfold r. pose proof (Rmin_l (Rmin e e') 2). pose proof (Rmin_r (Rmin e e') 2). pose proof (Rmin_l e e'). pose proof (Rmin_r e e'). lra. }
  assert (V : forall y, Rabs y < r -> f [y] = 3 / 2 * y ^ 2 + 3 / 32).
  { intros y Hy. pose proof (C [y] (q_near e y ltac:(lra)) o k) as Q. unfold bind in Q. rewrite q_wrap in Q by (apply Rabs_def2 in Hy; lra).
    unfold ret in Q. injection Q as Q. rewrite <- Q. unfold np_mean, q_obj. cbn. field. }
  assert (GV : forall y, Rabs y < r -> G 0%nat [y] = 3 * y).
  { intros y Hy. pose proof (D1 0%nat [y] ltac:(cbn; lia) (q_near e' y ltac:(lra))) as P1. unfold partial in P1. cbn [nth] in P1.
    apply is_derive_unique in P1. rewrite <- P1.
    transitivity (Derive (fun s => 3 / 2 * s ^ 2 + 3 / 32) y).
    - apply Derive_ext_loc. assert (RP : 0 < r - Rabs y) by lra. exists (mkposreal _ RP). intros z Hz. change (Rabs (z - y) < r - Rabs y) in Hz.
      rewrite with_one. apply V. apply (tri_room y r z Hz).
    - apply is_derive_unique. auto_derive; [exact Logic.I|]. simpl. field. }
  assert (HV : H 0%nat 0%nat = 3).
  { pose proof (D2 0%nat 0%nat ltac:(cbn; lia) ltac:(cbn; lia)) as P1. unfold partial in P1. cbn [nth] in P1. apply is_derive_unique in P1. rewrite <- P1.
    transitivity (Derive (fun s => 3 * s) 0).
    - apply Derive_ext_loc. exists (mkposreal _ M0). intros z Hz. change (Rabs (z - 0) < r) in Hz. rewrite Rminus_0_r in Hz. rewrite with_one. apply GV. exact Hz.
    - apply is_derive_unique. auto_derive; [exact Logic.I|ring]. }
  unfold q_hess. cbn [nth]. unfold bind, ret. rewrite (q_wrap (0 + 1)) by lra. cbv beta iota. rewrite (q_wrap 0) by lra. cbv beta iota. rewrite (q_wrap (0 - 1)) by lra.
  unfold table. cbn [seq map length]. rewrite HV. unfold ret, np_mean, q_obj. cbn.
  match goal with |- (Ok [[?a]], _) = (Ok [[?c]], _) => replace a with c by field end. reflexivity.
Qed.
Lemma q_touch : ~ touches [Fin (-2)] [Fin 2] [0].
Proof. intros (i & v & H1 & H2). destruct i as [|[|i]]; cbn in *; try discriminate. injection H1 as <-. destruct H2 as [H2|H2]; injection H2; lra. Qed.
Lemma louis_example : forall o k, se_of q_hess q_grad q_inv [Fin (-2)] [Fin 2] q_f [0] o k = (Ok (Some [[8 / 15]]), k).
Proof.
  intros o k.
  assert (EV : q_inv (table (length [0]) (louis 2 (fun m i => q_score m i [0]) (fun _ _ _ => -3))) = Ok [[8 / 15]]).
  { unfold table, louis, cov, avg. cbn. match goal with |- Ok [[?a]] = Ok [[?c]] => replace a with c by field end. reflexivity. }
  apply (louis_se q_hess q_grad q_inv [Fin (-2)] [Fin 2] q_f [0] 2 q_obj q_score (fun _ _ _ => -3) q_interval eq_refl ltac:(discriminate) (q_box 0 ltac:(lra)) q_touch) with (V := [[8 / 15]]).
  - intros y Hy o' k'. reflexivity.
  - exists 1. split; [lra|]. intros m i y Hm Hi Hy. inversion Hy as [|? b ? y' A1 A2]; subst. inversion A2; subst. apply q_partial. exact Hi.
  - intros m i j _ _ Hj. apply q_second. exact Hj.
  - exact q_exact_grad.
  - exact q_exact_hess.
  - exact EV.
  - intros [|[|i]] row Hr; cbn in Hr; try discriminate. injection Hr as <-. cbn. lra.
Qed.
