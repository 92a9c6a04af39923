(** The anchor sector is drawn with probability one half. *)
From Coq Require Import Reals List Bool Arith Lia Lra Psatz.
From Verif Require Import Base Rng L_rng M_hit SpecHit L_hit L_hit2 L_hit3 L_hit4 L_hit5 L_hit6 L_hit7 L_hit8 SpecLaw SpecEsc SpecAnch.
Local Open Scope R_scope.

Lemma reach_lt1 : forall t a b x, 0 < t -> elt x (Fin (Rmin a b)) -> 0 <= reach t a b x < 1.
Proof.
  intros t a b [|x|] Ht H; cbn in *; try contradiction; [lra|]. assert (A := Rmin_l a b). assert (B := Rmin_r a b). split; [left; apply exp_pos|].
  rewrite <- exp_0. apply exp_increasing. assert (0 < 2 * (a - x) * (b - x) / t); [|lra]. apply Rdiv_lt_0_compat; [|exact Ht]. assert (0 < (a - x) * (b - x)) by (apply Rmult_lt_0_compat; lra). lra.
Qed.
Lemma reach_gt1 : forall t a b x, 0 < t -> elt (Fin (Rmax a b)) x -> 0 <= reach t a b x < 1.
Proof.
  intros t a b [|x|] Ht H; cbn in *; try contradiction; [|lra]. assert (A := Rmax_l a b). assert (B := Rmax_r a b). split; [left; apply exp_pos|].
  rewrite <- exp_0. apply exp_increasing. assert (0 < 2 * (a - x) * (b - x) / t); [|lra]. apply Rdiv_lt_0_compat; [|exact Ht]. assert (0 < (x - a) * (x - b)) by (apply Rmult_lt_0_compat; lra). lra.
Qed.
Lemma reach_edge_lo : forall t a b, 0 < t -> reach t a b (Fin (Rmin a b)) = 1.
Proof. intros t a b Ht. cbn. rewrite <- exp_0. f_equal. unfold Rmin. destruct (Rle_dec a b); field; lra. Qed.
Lemma reach_edge_hi : forall t a b, 0 < t -> reach t a b (Fin (Rmax a b)) = 1.
Proof. intros t a b Ht. cbn. rewrite <- exp_0. f_equal. unfold Rmax. destruct (Rle_dec a b); field; lra. Qed.

Lemma bind_congr : forall A B (m : M A) (f g : A -> M B) o k, (forall x k', m o k = (Ok x, k') -> f x o k' = g x o k') -> bind m f o k = bind m g o k.
Proof. intros A B m f g o k H. unfold bind. destruct (m o k) as [[x|e|] k'] eqn:E; [apply H; reflexivity|reflexivity|reflexivity]. Qed.

Section Fair.
  Variables (t a b : R) (lb ub : ext).
  Hypothesis (Ht : 0 < t) (Hlb : elt lb (Fin (Rmin a b))) (Hub : elt (Fin (Rmax a b)) ub).
  (** the level of layer i, on both sides *)
  Lemma edges_level : forall i le ue, compute_edges i t a b lb ub = Ok (Fin le, Fin ue) ->
    reach_given t a b (Fin le) lb = inv_sq i /\ reach_given t a b (Fin ue) ub = inv_sq i.
  Proof.
    intros [|i] le ue E.
    - rewrite (edge_zero t a b lb ub Ht Hlb Hub) in E. injection E as <- <-. unfold reach_given, inv_sq. rewrite reach_edge_lo, reach_edge_hi by exact Ht.
      pose proof (reach_lt1 t a b lb Ht Hlb). pose proof (reach_gt1 t a b ub Ht Hub). cbn [INR]. split; field; lra.
    - apply (edges_quantile t a b lb ub Ht Hlb Hub (S i)); [lia|exact E].
  Qed.
  Lemma given_given : forall x y z, x < 1 -> y < 1 -> (z - y) / (1 - y) = ((z - x) / (1 - x) - (y - x) / (1 - x)) / (1 - (y - x) / (1 - x)).
  Proof. intros x y z X Y. field. repeat split; lra. Qed.
  Lemma sector_fair : forall i le ue le' ue', (1 <= i)%nat -> compute_edges i t a b lb ub = Ok (Fin le, Fin ue) -> compute_edges (i - 1) t a b lb ub = Ok (Fin le', Fin ue') ->
    reach_given t a b (Fin le') (Fin le) = reach_given t a b (Fin ue') (Fin ue).
  Proof.
    intros i le ue le' ue' Hi E E'. destruct (edges_level i le ue E) as [A1 A2]. destruct (edges_level (i - 1) le' ue' E') as [B1 B2].
    destruct (edges_inside t a b lb ub Ht Hlb Hub i) as (x & y & E2 & _ & _ & _ & _ & I). rewrite E in E2. injection E2 as <- <-. destruct (I Hi) as [I1 I2].
    unfold reach_given. rewrite (given_given (reach t a b lb)) by (apply reach_lt1; assumption).
    rewrite (given_given (reach t a b ub) (reach t a b (Fin ue))) by (apply reach_gt1; assumption).
    unfold reach_given in A1, A2, B1, B2. rewrite A1, A2, B1, B2. reflexivity.
  Qed.
  Lemma anchor_run : forall fuel n o k, valid o -> sample_anchor fuel n t a b lb ub o k =
    (do l <- sample_layer fuel n t a b lb ub; do i <- lift (compute_edges l t a b lb ub); do e <- lift (compute_edges (l - 1) t a b lb ub);
     do u <- draw_r (DUniform 0 1); ret (Rltb u (1 / 2), (fst i, fst e), (snd e, snd i))) o k.
  Proof.
    intros fuel n o k V. unfold sample_anchor. rewrite (proj2 (Rltb_true 0 t) Ht). cbn [assert_]. unfold bind at 1. unfold ret at 1. cbv beta iota.
    pose proof (sample_layer_ok fuel n t a b lb ub Ht Hlb Hub o k V I) as H.
    apply bind_congr. intros l k' EL. rewrite EL in H. cbn [fst outcome] in H. destruct H as [L1 _].
    destruct (edges_inside t a b lb ub Ht Hlb Hub l) as (le & ue & E & B1 & B2 & _ & _ & S1). specialize (S1 L1).
    destruct (edges_inside t a b lb ub Ht Hlb Hub (l - 1)) as (le' & ue' & E' & _ & _ & B5 & B6 & _).
    destruct (edges_nested t a b lb ub Ht Hlb Hub (l - 1) l le' ue' le ue ltac:(lia) E' E) as [N1 N2].
    rewrite E, E'. unfold bind, lift. cbv beta iota zeta. cbn [fst snd eopp].
    assert (RM : Rmin (- b) (- a) = - Rmax a b). { unfold Rmin, Rmax. destruct (Rle_dec _ _), (Rle_dec _ _); lra. }
    destruct (cdf_inner t a b le le' Ht N1 B5) as (p1 & E1 & P1 & F1).
    destruct (cdf_inner t (- b) (- a) (- ue) (- ue') Ht ltac:(lra) ltac:(lra)) as (p2 & E2 & P2 & F2). rewrite E1, E2. cbv beta iota zeta.
    assert (F3 : p2 = p1).
    { rewrite F1, (sector_fair l le ue le' ue' L1 E E'), F2. unfold reach_given. rewrite <- (reach_flip t a b (Fin ue')), <- (reach_flip t a b (Fin ue)) by exact Ht. reflexivity. }
    rewrite F3. replace (p1 / (p1 + p1)) with (1 / 2) by (field; lra). reflexivity.
  Qed.

  (** ** Mirrored bounds *)
  Lemma level_reach : forall x v w, x < 1 -> (v - x) / (1 - x) = (w - x) / (1 - x) -> v = w.
  Proof. intros x v w X E. apply (Rmult_eq_compat_r (1 - x)) in E. unfold Rdiv in E. rewrite !Rmult_assoc, Rinv_l in E; lra. Qed.
  Lemma edges_mirror : mirrored a b lb ub -> forall i le ue, compute_edges i t a b lb ub = Ok (Fin le, Fin ue) -> le + ue = a + b.
  Proof.
    intros HM i le ue E. destruct (edges_level i le ue E) as [A1 A2].
    destruct (edges_inside t a b lb ub Ht Hlb Hub i) as (x & y & E2 & _ & _ & I1 & I2 & _). rewrite E in E2. injection E2 as <- <-.
    assert (X : reach t a b lb = reach t a b ub).
    { destruct lb as [|l|], ub as [|u|]; cbn in HM; try contradiction; [reflexivity|]. cbn. f_equal. f_equal. f_equal. replace (b - u) with (l - a) by lra. replace (a - u) with (l - b) by lra. ring. }
    assert (Y : reach t a b (Fin le) = reach t a b (Fin ue)).
    { rewrite <- A2 in A1. unfold reach_given in A1. rewrite X in A1. apply (level_reach (reach t a b ub)); [apply reach_gt1; assumption|exact A1]. }
    cbn in Y. apply exp_inv in Y. assert (Z : (a - le) * (b - le) = (a - ue) * (b - ue)).
    { apply (Rmult_eq_reg_r (2 / t)); [|apply Rgt_not_eq; apply Rdiv_lt_0_compat; lra]. unfold Rdiv in *. nra. }
    assert (A := Rmin_l a b). assert (B := Rmin_r a b). assert (C := Rmax_l a b). assert (D := Rmax_r a b).
    assert (W : (ue - le) * (a + b - le - ue) = 0) by nra.
    apply Rmult_integral in W. destruct W as [W|W]; [|lra].
    assert (a = b /\ ue = a /\ le = a) as (-> & -> & ->); [|ring]. split; [lra|]. split; lra.
  Qed.
End Fair.

Lemma brown_swap : forall t a b K p, brown_escape t a b K p -> brown_escape t b a K p.
Proof.
  intros t a b K p H. unfold brown_escape in *. intros eps He. destruct (H eps He) as (N & HN). exists N. intros n Hn.
  rewrite (sum_eq _ (fun n => two_sided_term t a b K (S n))); [exact (HN n Hn)|]. intros i _. unfold two_sided_term. set (k := INR (S i)).
  replace (b - a) with (- (a - b)) by ring. replace (2 * k * K + - (a - b)) with (2 * k * K - (a - b)) by ring. replace (2 * k * K - - (a - b)) with (2 * k * K + (a - b)) by ring.
  replace (2 * ((2 * k - 1) * K - b) * ((2 * k - 1) * K - a)) with (2 * ((2 * k - 1) * K - a) * ((2 * k - 1) * K - b)) by ring.
  replace (2 * ((2 * k - 1) * K + b) * ((2 * k - 1) * K + a)) with (2 * ((2 * k - 1) * K + a) * ((2 * k - 1) * K + b)) by ring. ring.
Qed.
