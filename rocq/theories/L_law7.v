(** The coins of M_skel are instances of the coins with an open interpolation; examples. *)
From Coquelicot Require Import Hierarchy RInt RInt_analysis Continuity AutoDerive.
From Coq Require Import Reals List Bool Arith Lia Lra.
From Verif Require Import Base Np Rng L_rng M_mjp M_path M_skel SpecLaw SpecCoin SpecFactory L_law L_law2 L_law3 L_law4 L_law5 L_ppp.
Import ListNotations.
Local Open Scope R_scope.

Lemma bind_ext : forall A B (m : M A) (f g : A -> M B) o k, (forall a o k, f a o k = g a o k) -> bind m f o k = bind m g o k.
Proof. intros A B m f g o k H. unfold bind. destruct (m o k) as [[a|e|] k']; auto. Qed.
Lemma coin_instance : forall fuel mp mx disc bounds cent n p s o k,
  poisson_loop fuel mp mx n disc bounds cent p s o k = coin_with (interpolate_skeleton fuel mp mx) n disc bounds cent p s o k.
Proof.
  intros fuel mp mx disc bounds cent. induction n as [|n IH]; intros p s o k; cbn [poisson_loop coin_with]; [reflexivity|].
  apply bind_ext. intros [[batch p']|] o1 k1; [|reflexivity]. apply bind_ext. intros q o2 k2.
  destruct (existsb _ _); [reflexivity|]. apply IH.
Qed.
Lemma estimate_instance : forall fuel mp mx s disc bd cent le ue fin_t o k,
  bd (Rmin (k_loose s) (k_tight s)) (Rmax (k_loose s) (k_tight s)) = (cent, le, ue) -> last_opt (k_t s) = Some fin_t ->
  est_poisson_coin fuel mp mx s disc bd o k = estimate_with (interpolate_skeleton fuel mp mx) disc cent le ue fin_t s o k.
Proof.
  intros fuel mp mx s disc bd cent le ue fin_t o k Hb Hf. unfold est_poisson_coin. rewrite Hb, Hf. reflexivity.
Qed.

(** a path on the diagonal *)
Definition clamp (h : R) : R := Rmax 0 (Rmin h 1).
Lemma clamp_continuous : forall h, continuous clamp h.
Proof.
  intros h. apply (continuous_ext (fun h => (1 + Rabs h - Rabs (h - 1)) / 2)).
  - intros x. req. unfold clamp. unfold Rmin. destruct (Rle_dec x 1); unfold Rmax; destruct (Rle_dec 0 _); unfold Rabs;
      destruct (Rcase_abs x); destruct (Rcase_abs (x - 1)); lra.
  - apply continuity_pt_filterlim. reg.
Qed.

Lemma clamp_in : forall h, 0 <= h <= 1 -> clamp h = h.
Proof. intros h H. unfold clamp. rewrite Rmin_left, Rmax_right by lra. reflexivity. Qed.
(** among the times the path w(u) = u is at or below h on a share h *)
Lemma diagonal_above : forall h, 0 <= h <= 1 -> is_RInt (fun u => ind (negb (Rltb h (u - 0)))) 0 1 (1 * clamp h).
Proof.
  intros h H. rewrite clamp_in by exact H.
  apply (rint_split _ 0 h 1 h 0); [lra| |].
  - apply (is_RInt_ext (fun _ => 1)).
    + intros x Hx. rewrite Rmin_left, Rmax_right in Hx by lra. req. assert (E : Rltb h (x - 0) = false) by (apply Rltb_false; lra). rewrite E. reflexivity.
    + replace h with (scal (h - 0) 1 : R) at 2 by (unfold scal; cbn; unfold mult; cbn; ring). apply (is_RInt_const 0 h (1 : R)).
  - apply (is_RInt_ext (fun _ => 0)).
    + intros x Hx. rewrite Rmin_left, Rmax_right in Hx by lra. req. assert (E : Rltb h (x - 0) = true) by (apply Rltb_true; lra). rewrite E. reflexivity.
    + apply (is_RInt_ext (fun _ => scal 0 (0 : R))); [intros; unfold scal; cbn; unfold mult; cbn; ring|].
      pose proof (is_RInt_scal (V := R_NormedModule) (fun _ => 0) h 1 0 _ (is_RInt_const (V := R_NormedModule) h 1 (0 : R))) as C.
      match type of C with is_RInt _ _ _ ?v => replace v with (0 : R) in C; [exact C|unfold scal; cbn; unfold mult; cbn; ring] end.
Qed.
(** the mean of phi(u) = u over (0, 1) *)
Lemma diagonal_integral : is_RInt (fun u : R => u) 0 1 (1/2).
Proof.
  assert (D : is_RInt (fun u : R => u) 0 1 (minus (1 * 1 / 2) (0 * 0 / 2 : R))).
  { apply (is_RInt_derive (V := R_CompleteNormedModule) (fun u => u * u / 2)).
    - intros x _. auto_derive; [exact Logic.I|field].
    - intros x _. apply continuous_id. }
  match type of D with is_RInt _ _ _ ?v => replace v with (1/2) in D; [exact D|unfold minus, plus, opp; cbn; lra] end.
Qed.

Lemma sampler_example : let c := do r <- sample_ppp 1 [1; 1]; ret (forallb (fun r => negb (Rltb (nth 1 r 0) (nth 0 r 0))) r, tt) in
  total c (fun _ => True) /\ chance c (fun r => fst r) (exp (- (1/2))).
Proof.
  pose proof (thinning 1 1 (fun u => u) (1/2) Rlt_0_1 Rlt_0_1 (fun u H => H) diagonal_integral) as T.
  split.
  - apply total_any. apply (total_bind _ _ _ (fun _ => True)); [|intros a _; apply total_ret; exact Logic.I].
    intros o k V. destruct (sample_ppp_ok 1 [1; 1] o k) as (pts & rows & E & _); [lra|discriminate|repeat (apply Forall_cons; [lra|]); apply Forall_nil|exact V|].
    intros _. unfold anyo in *. destruct (sample_ppp 1 [1; 1] o k) as [r k']. cbn in E. subst r. exact Logic.I.
  - apply (average_bind0 _ _ _ _ _ _ _ T). intros a. apply (average_ret _ (forallb (fun r => negb (Rltb (nth 1 r 0) (nth 0 r 0))) a, tt) (fun r : bool * unit => ind (fst r))).
Qed.
