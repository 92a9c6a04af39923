(** The joint law of a Bessel path is that of the length of a vector of Brownian paths. *)
From Coq Require Import Reals List Bool Arith Lra Lia Psatz Sorted.
From Verif Require Import Base Rng M_mjp M_path SpecPath L_sde L_sde2 L_sde3 SpecLaw L_rng L_law L_law2 L_law5 L_gauss L_gauss2 L_gauss3 L_est2 L_skel7 L_bess L_bess2 SpecBess SpecGauss Mat L_mat.
Import ListNotations.
Local Open Scope R_scope.

Lemma bessel_joint : forall t init dim mu F v, time_grid t -> 0 <= init -> (0 < dim)%nat ->
  average (sample_wiener t (repeat 0 (dim - 1) ++ [init]) (repeat 0 (dim - 1) ++ [match mu with Some m => m | None => 0 end])) (fun w => F (lengths (length t) w)) v ->
  average (sample_bessel t init dim mu) F v.
Proof.
  intros t init dim mu F v Ht H0 Hd A.
  apply (average_comp _ (do w <- sample_wiener t (repeat 0 (dim - 1) ++ [init]) (repeat 0 (dim - 1) ++ [match mu with Some m => m | None => 0 end]); ret (map (norm_at w) (seq 0 (length t))))).
  { intros o k _. unfold sample_bessel. destruct Ht as (Hne & Hs & Hp). destruct (arr_min_ok t Hne) as (mn & Em & Hm & _).
    rewrite Em, b_lift. rewrite (proj2 (Rltb_true 0 mn)), b_assert by (rewrite Forall_forall in Hp; apply Hp; exact Hm).
    rewrite (proj2 (Rleb_true 0 init) H0), b_assert, (proj2 (Nat.ltb_lt 0 dim) Hd), b_assert. reflexivity. }
  apply average_map. exact A.
Qed.
Lemma besselbr_joint : forall t T x dim F v, time_grid t -> Forall (fun s => s < T) t -> (0 < dim)%nat ->
  average (map_m (fun f => sample_brownbr t T 0 f) (repeat 0 (dim - 1) ++ [x])) (fun w => F (lengths (length t) w)) v ->
  average (sample_besselbr t T x dim) F v.
Proof.
  intros t T x dim F v Ht HT Hd A.
  apply (average_comp _ (do w <- map_m (fun f => sample_brownbr t T 0 f) (repeat 0 (dim - 1) ++ [x]); ret (map (norm_at w) (seq 0 (length t))))).
  { intros o k _. unfold sample_besselbr. destruct Ht as (Hne & Hs & Hp). destruct (arr_min_ok t Hne) as (mn & Em & Hm & _). destruct (arr_max_ok t Hne) as (mx & Ex & Hx & _).
    rewrite Forall_forall in Hp, HT. rewrite Em, b_lift, Ex, b_lift. rewrite (proj2 (Rltb_true 0 mn) (Hp _ Hm)), (proj2 (Rltb_true mx T) (HT _ Hx)). cbn [andb]. rewrite b_assert, (proj2 (Nat.ltb_lt 0 dim) Hd), b_assert. reflexivity. }
  apply average_map. exact A.
Qed.
Lemma rprod_S0 : forall n f, rprod (S n) f = f 0%nat * rprod n (fun j => f (S j)).
Proof. induction n as [|n IH]; intros f; [cbn; ring|]. cbn [rprod] in *. rewrite IH. cbn [rprod]. ring. Qed.
Lemma rsum_S0 : forall n f, rsum (S n) f = f 0%nat + rsum n (fun j => f (S j)).
Proof. induction n as [|n IH]; intros f; [cbn; ring|]. cbn [rsum] in *. rewrite IH. cbn [rsum]. ring. Qed.
(** bridges drawn one after the other are independent *)
Lemma bridges_mgf : forall t T, time_grid t -> Forall (fun s => s < T) t -> forall ends (th : nat -> nat -> R),
  average (map_m (fun b => sample_brownbr t T 0 b) ends) (fun w => exp (rsum (length ends) (fun j => rsum (length t) (fun i => th j i * nth i (nth j w []) 0))))
    (rprod (length ends) (fun j => gaussian_mgf (length t) (fun i => 0 + (nth j ends 0 - 0) * nth i t 0 / T) (fun i i' => Rmin (nth i t 0) (nth i' t 0) * (T - Rmax (nth i t 0) (nth i' t 0)) / T) (th j))).
Proof.
  intros t T Ht HT. induction ends as [|b ends IH]; intros th; cbn [map_m length].
  - cbn [rsum rprod]. rewrite <- exp_0 at 1. apply (average_ret _ [] (fun _ => exp 0)).
  - rewrite rprod_S0. set (P := rprod (length ends) _).
    apply (average_bind0 _ _ _ _ _ (fun x => P * exp (rsum (length t) (fun i => th 0%nat i * nth i x 0)))).
    + rewrite Rmult_comm. apply average_scal. apply (brownbr_law t T 0 b (th 0%nat) Ht HT).
    + intros x. apply average_map. apply (average_ext _ _ (fun w => exp (rsum (length t) (fun i => th 0%nat i * nth i x 0)) * exp (rsum (length ends) (fun j => rsum (length t) (fun i => th (S j) i * nth i (nth j w []) 0))))).
      * intros w. rewrite <- exp_plus. rewrite rsum_S0. reflexivity.
      * rewrite (Rmult_comm P). apply average_scal. apply (IH (fun j => th (S j))).
Qed.
