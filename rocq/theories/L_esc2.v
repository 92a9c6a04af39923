(** The law of the escape decisions: instances, and the attempts of propose_layerbr_edge. *)
From Coquelicot Require Import Hierarchy RInt RInt_analysis.
From Coq Require Import Reals List Bool Arith Lia Lra.
From Verif Require Import Base Np Rng L_rng M_mjp M_hit M_path SpecHit SpecLaw SpecEsc L_hit2 L_hit3 L_hit4 L_hit5 L_hit6 L_hit7 L_hit8 L_hit9 L_heat3 L_heat4 L_heat5 L_heat6 L_can2 L_law L_law2 L_law3 L_law4 L_law5 L_law6 L_law7 L_esc.
Import ListNotations.
Local Open Scope R_scope.

Lemma nodraw_value : forall A (m : M A) r, nodraw m -> (forall o k, fst (m o k) = r) -> forall o k, m o k = (r, k).
Proof. intros A m r (r' & H) E o k. specialize (E o k). rewrite H in *. cbn in E. congruence. Qed.

Lemma settled_ext : forall m m' p, (forall fuel o k, m' fuel o k = m fuel o k) -> settled m p -> settled m' p.
Proof.
  intros m m' p E (c & d & H & C & D). exists c, d. split; [|split; [exact C|exact D]]. intros fuel. destruct (H fuel) as [H1 H2].
  split; [apply (average_comp _ (m fuel)); [intros; apply E|exact H1]|apply (average_comp _ (m fuel)); [intros; apply E|exact H2]].
Qed.
Lemma cv_const' : forall x : R, Un_cv (fun _ => x) x.
Proof. intros x e He. exists 0%nat. intros n _. unfold R_dist. rewrite Rminus_diag_eq, Rabs_R0 by reflexivity. exact He. Qed.

Lemma brown_settled : forall t a b K p, 0 < t -> Rabs a < K -> Rabs b < K -> brown_escape t a b K p -> settled (fun fuel => sample_brownbr_esc fuel t a b K None None) p.
Proof.
  intros t a b K p Ht Ha Hb E. destruct (brown_full_range t a b K Ht Ha Hb) as (p' & E' & Hp & CV & B).
  assert (p = p') as <- by (eapply cv_unique; [apply (proj1 (brown_limit t a b K Ht Ha Hb p) E)|exact CV]).
  apply (settled_ext (fun fuel => do s <- draw_r (DUniform 0 1); sample_brownbr_esc fuel t a b K None (Some s))); [reflexivity|].
  apply (decide_law _ (fun fuel s => esc_loop (series_brownbr_esc t a b K None) fuel 1 s)); [lra| | |].
  - intros fuel s Hs. apply nodraw_value; [apply nodraw_brown|]. apply brown_esc_value; auto.
  - intros fuel. apply (esc_shape _ 1 p); [|lra|lia]. apply (fbrackets_of (brown_sum t a b K) 1 p). eapply brackets_shift; [|exact B]. lia.
  - intros s Hs N. apply (esc_loop_terminates (brown_sum t a b K) _ p); [exact CV|exists 0%nat; reflexivity|exact N].
Qed.
Lemma brown_outer_settled : forall t a b K u p q, 0 < t -> Rabs a < K -> Rabs b < K -> K <= u -> brown_escape t a b K p -> brown_escape t a b u q -> two_sided_three t a b u < 1 ->
  settled (fun fuel => sample_brownbr_esc fuel t a b K (Some u) None) (1 - (1 - p) / (1 - q)).
Proof.
  intros t a b K u p q Ht Ha Hb HU Ep Eq L3. destruct (brown_ratio_range t a b K u p q Ht Ha Hb HU Ep Eq) as (Q & P1 & RR).
  apply (settled_ext (fun fuel => do s <- draw_r (DUniform 0 1); sample_brownbr_esc fuel t a b K (Some u) (Some s))); [reflexivity|].
  apply (decide_law _ (fun fuel s => esc_loop (series_brownbr_esc t a b K (Some u)) fuel 1 s)); [lra| | |].
  - intros fuel s Hs. apply nodraw_value; [apply nodraw_brown|]. apply brown_esc_value; auto.
  - intros fuel. apply (esc_shape _ 1 _); [|lra|lia]. apply (brown_ratio_brackets t a b K u p q); auto; lra.
  - intros s Hs N. destruct (brown_ratio_terminates2 t a b K u p q Ht Ha Hb HU Ep Eq s Hs N) as (n0 & H). exists n0. intros fuel Hf. destruct (H fuel Hf) as (r & Hr). exists r.
    rewrite <- (Hr {| ora_r := fun _ _ => 0; ora_n := fun _ _ => 0%nat |} 0%nat). symmetry. apply brown_esc_value; auto.
Qed.
Lemma bessel_settled : forall t a b K p, 0 < t -> 0 <= a -> 0 < b -> a < K -> b < K -> bessel_escape t a b K p -> settled (fun fuel => sample_bessel3br_esc fuel t a b K None None) p.
Proof.
  intros t a b K p Ht Ha Hb HaK HbK E. pose proof (bessel_lt1 t a b K p Ht Ha Hb HaK HbK E) as P1. pose proof (bessel_nonneg t a b K p Ht Ha Hb HaK HbK E) as P0.
  apply (settled_ext (fun fuel => do s <- draw_r (DUniform 0 1); sample_bessel3br_esc fuel t a b K None (Some s))); [reflexivity|].
  apply (decide_law _ (fun fuel s => match (if Rltb t (3 * K ^ 2) then Ok 1%nat else ff_loop (series_bessel3br_esc t a b K None) fuel 1) with
      | Ok i0 => esc_loop (series_bessel3br_esc t a b K None) fuel i0 s | Raise e => Raise e | NoFuel => NoFuel end)); [lra| | |].
  - intros fuel s Hs. apply nodraw_value; [apply nodraw_bessel|]. apply bessel_esc_value; auto.
  - intros fuel. destruct (Rltb t (3 * K ^ 2)) eqn:T.
    + apply Rltb_true in T. apply (esc_shape _ 1 p); [|lra|lia]. apply (fbrackets_of (bessel_sum t a b K) 1 p). eapply brackets_shift; [|apply bessel_brackets_short; auto]. lia.
    + destruct (ff_loop (series_bessel3br_esc t a b K None) fuel 1) as [i0|e|] eqn:F.
      * apply (esc_shape _ i0 p); [|lra|lia]. apply (fbrackets_of (bessel_sum t a b K) i0 p). eapply ff_good; eauto.
      * exfalso. eapply ff_noraise; eauto.
      * apply shape_none; [lra|reflexivity].
  - intros s Hs N. destruct (bessel_terminates' t a b K Ht Ha Hb HaK HbK s p Hs E N) as (n0 & H). exists n0. intros fuel Hf.
    destruct (nodraw_total _ _ (nodraw_bessel fuel t a b K None s) (H fuel Hf)) as (r & _ & Hr). exists r.
    pose proof (bessel_esc_value t a b K Ht Ha Hb HaK HbK fuel None s Hs Logic.I {| ora_r := fun _ _ => 0; ora_n := fun _ _ => 0%nat |} 0%nat) as V. rewrite Hr in V. cbn [fst] in V. symmetry. exact V.
Qed.
Lemma bessel_ratio_range : forall t a b K u p q, 0 < t -> 0 <= a -> 0 < b -> a < K -> b < K -> K <= u -> bessel_escape t a b K p -> bessel_escape t a b u q ->
  0 <= q <= p /\ p < 1 /\ 0 <= 1 - (1 - p) / (1 - q) < 1.
Proof.
  intros t a b K u p q Ht Ha Hb HaK HbK HU Ep Eq. pose proof (bessel_lt1 t a b K p Ht Ha Hb HaK HbK Ep) as P1. pose proof (bessel_nonneg t a b u q Ht Ha Hb ltac:(lra) ltac:(lra) Eq) as Q0.
  pose proof (bessel_mono t a b K u p q Ht Ha Hb HaK HbK HU Ep Eq) as L. split; [lra|]. split; [exact P1|].
  assert (0 < (1 - p) / (1 - q)) by (apply Rdiv_lt_0_compat; lra). assert ((1 - p) / (1 - q) <= 1); [|lra].
  apply (Rmult_le_reg_r (1 - q)); [lra|]. unfold Rdiv. rewrite Rmult_assoc, Rinv_l by lra. lra.
Qed.
Lemma bessel_outer_settled : forall t a b K u p q, 0 < t -> 0 <= a -> 0 < b -> a < K -> b < K -> K <= u -> t < 3 * K ^ 2 -> bessel_escape t a b K p -> bessel_escape t a b u q -> bessel_three t a b u < 1 ->
  settled (fun fuel => sample_bessel3br_esc fuel t a b K (Some u) None) (1 - (1 - p) / (1 - q)).
Proof.
  intros t a b K u p q Ht Ha Hb HaK HbK HU T Ep Eq L3. destruct (bessel_ratio_range t a b K u p q Ht Ha Hb HaK HbK HU Ep Eq) as (Q & P1 & RR).
  assert (Tu : t < 3 * u ^ 2) by nra. pose proof (bessel_lt1 t a b u q Ht Ha Hb ltac:(lra) ltac:(lra) Eq) as Q1.
  assert (TB : Rltb t (3 * K ^ 2) = true) by (apply Rltb_true; exact T).
  assert (V : forall fuel s, 0 <= s <= 1 -> forall o k, fst (sample_bessel3br_esc fuel t a b K (Some u) (Some s) o k) = esc_loop (series_bessel3br_esc t a b K (Some u)) fuel 1 s).
  { intros fuel s Hs o k. rewrite bessel_esc_value by auto. rewrite TB. reflexivity. }
  apply (settled_ext (fun fuel => do s <- draw_r (DUniform 0 1); sample_bessel3br_esc fuel t a b K (Some u) (Some s))); [reflexivity|].
  apply (decide_law _ (fun fuel s => esc_loop (series_bessel3br_esc t a b K (Some u)) fuel 1 s)); [lra| | |].
  - intros fuel s Hs. apply nodraw_value; [apply nodraw_bessel|]. apply V. exact Hs.
  - intros fuel. apply (esc_shape _ 1 _); [|lra|lia].
    apply (ratio_brackets (bessel_sum t a b K) (bessel_sum t a b u) p q 1); auto; try lra.
    + eapply brackets_shift; [|apply bessel_brackets_short; auto]; lia.
    + eapply brackets_shift; [|apply bessel_brackets_short; auto; lra]; lia.
    + apply bessel_odd_lt1; auto; lra.
  - intros s Hs N. destruct (bessel_ratio_terminates t a b K u p q Ht Ha Hb HaK HbK HU T Ep Eq s Hs N) as (n0 & H). exists n0. intros fuel Hf. destruct (H fuel Hf) as (r & Hr). exists r.
    rewrite <- (Hr {| ora_r := fun _ _ => 0; ora_n := fun _ _ => 0%nat |} 0%nat). symmetry. apply V. exact Hs.
Qed.
Lemma rint_flat : forall c : R, is_RInt (fun _ => c) 0 1 c.
Proof. intros c. assert (G : forall v : R, v = (1 - 0) * c -> is_RInt (fun _ => c) 0 1 v) by (intros v ->; exact (is_RInt_const (V := R_NormedModule) 0 1 c)). apply G. ring. Qed.
(** a segment that ends above the level *)
Lemma bessel_outside_settled : forall t a b K ub, 0 < t -> 0 <= a -> 0 < b -> K <= Rmax a b -> settled (fun fuel => sample_bessel3br_esc fuel t a b K ub None) 1.
Proof.
  intros t a b K ub Ht Ha Hb HK. apply (settled_ext (fun fuel => do s <- draw_r (DUniform 0 1); sample_bessel3br_esc fuel t a b K ub (Some s))); [reflexivity|].
  assert (V : forall fuel s, 0 <= s <= 1 -> forall o k, sample_bessel3br_esc fuel t a b K ub (Some s) o k = (Ok true, k)).
  { intros fuel s Hs o k. cbv beta iota delta [sample_bessel3br_esc get_seed bind ret].
    rewrite (proj2 (Rltb_true _ _) Ht), (proj2 (Rleb_true _ _) Ha), (proj2 (Rltb_true _ _) Hb), (seed_ok s Hs). rewrite (proj2 (Rleb_true K (Rmax a b)) HK). reflexivity. }
  exists (fun _ => 1), (fun _ => 0). split; [|split; [apply cv_const'|replace (1 - 1) with 0 by ring; apply cv_const']]. intros fuel. split.
  - apply (average_r _ (DUniform 0 1) _ _ (fun _ => 1)); [split; [lra|]; rewrite Rminus_0_r, Rmult_1_l; exact (rint_flat 1)|].
    intros s (w & Hw & ->). apply (mean_done (value (fun r : bool => ind r)) _ (Ok true)). intros o k _. apply V. lra.
  - apply (average_r _ (DUniform 0 1) _ _ (fun _ => 0)); [split; [lra|]; rewrite Rminus_0_r, Rmult_1_l; exact (rint_flat 0)|].
    intros s (w & Hw & ->). apply (mean_done (value (fun r : bool => ind (negb r))) _ (Ok true)). intros o k _. apply V. lra.
Qed.
