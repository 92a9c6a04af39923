(** The layers of one seed as a step function of the seed. *)
From Coquelicot Require Import Hierarchy RInt RInt_analysis.
From Coq Require Import Reals List Bool Arith Lia Lra.
From Verif Require Import Base Np Rng L_rng M_mjp M_hit M_path SpecHit SpecLaw SpecEsc SpecLay L_hit2 L_hit3 L_hit4 L_hit5 L_hit6 L_hit7 L_hit8 L_hit9 L_heat3 L_heat4 L_heat5 L_heat6 L_can2 L_law L_law2 L_law3 L_law4 L_law5 L_law6 L_law7 L_esc L_esc2 L_lay.
Import ListNotations.
Local Open Scope R_scope.

(** the answer of the two thresholds of a fuel, eps apart *)
Definition tight (f : R -> res bool) (p eps : R) (tf : R * R) : Prop :=
  0 <= fst tf <= p /\ p <= snd tf <= 1 /\ snd tf - fst tf <= eps /\ forall s, 0 <= s <= 1 -> f s = answer (fst tf) (snd tf) s.
Definition esc_of (t a b K : R) (fuel : nat) (s : R) : res bool := esc_loop (series_brownbr_esc t a b K None) fuel 1 s.
Lemma esc_run t a b K fuel s : 0 < t -> Rabs a < K -> Rabs b < K -> 0 <= s <= 1 -> forall o k, sample_brownbr_esc fuel t a b K None (Some s) o k = (esc_of t a b K fuel s, k).
Proof. intros Ht Ha Hb Hs. apply nodraw_value; [apply nodraw_brown|]. apply brown_esc_value; auto. Qed.
Section Esc.
  Variables (t a b K p : R).
  Hypotheses (Ht : 0 < t) (Ha : Rabs a < K) (Hb : Rabs b < K) (E : brown_escape t a b K p).
  Lemma esc_full : 0 <= p < 1 /\ Un_cv (brown_sum t a b K) p /\ brackets (brown_sum t a b K) 0 p.
  Proof.
    destruct (brown_full_range t a b K Ht Ha Hb) as (p' & E' & Hp & CV & B).
    assert (p = p') as <- by (eapply cv_unique; [apply (proj1 (brown_limit t a b K Ht Ha Hb p) E)|exact CV]). auto.
  Qed.
  Lemma esc_thr fuel : shape (esc_of t a b K fuel) p.
  Proof.
    destruct esc_full as (Hp & CV & B). apply (esc_shape _ 1 p); [|lra|lia]. apply (fbrackets_of (brown_sum t a b K) 1 p). eapply brackets_shift; [|exact B]. lia.
  Qed.
  Lemma esc_tight1 fuel : exists tf, tight (esc_of t a b K fuel) p 1 tf.
  Proof. destruct (esc_thr fuel) as (T & F & HT & HF & H). exists (T, F). split; [exact HT|]. split; [exact HF|]. split; [cbn; lra|exact H]. Qed.
  Lemma esc_tight eps : 0 < eps -> exists n0, forall fuel, (n0 <= fuel)%nat -> exists tf, tight (esc_of t a b K fuel) p eps tf.
  Proof.
    intros He. destruct esc_full as (Hp & CV & B).
    assert (TE : forall s, 0 <= s <= 1 -> s <> p -> exists n0, forall fuel, (n0 <= fuel)%nat -> exists r, esc_of t a b K fuel s = Ok r).
    { intros s Hs N. apply (esc_loop_terminates (brown_sum t a b K) _ p); [exact CV|exists 0%nat; reflexivity|exact N]. }
    assert (LO : exists n0, forall fuel, (n0 <= fuel)%nat -> forall T F, T <= p <= F -> (forall s, 0 <= s <= 1 -> esc_of t a b K fuel s = answer T F s) -> 0 <= T -> p - eps / 2 <= T).
    { destruct (Rle_or_lt (p - eps / 2) 0) as [L|L]; [exists 0%nat; intros; lra|]. destruct (TE (p - eps / 2)) as (n0 & H0); [lra|lra|]. exists n0. intros fuel Hf T F TF H _.
      destruct (H0 fuel Hf) as (r & Er). rewrite H in Er by lra. unfold answer in Er. destruct (Rltb (p - eps / 2) T) eqn:E1; [apply Rltb_true in E1; lra|].
      destruct (Rltb F (p - eps / 2)) eqn:E2; [apply Rltb_true in E2; lra|discriminate]. }
    assert (HI : exists n0, forall fuel, (n0 <= fuel)%nat -> forall T F, T <= p <= F -> (forall s, 0 <= s <= 1 -> esc_of t a b K fuel s = answer T F s) -> F <= 1 -> F <= p + eps / 2).
    { destruct (Rle_or_lt 1 (p + eps / 2)) as [L|L]; [exists 0%nat; intros; lra|]. destruct (TE (p + eps / 2)) as (n0 & H0); [lra|lra|]. exists n0. intros fuel Hf T F TF H _.
      destruct (H0 fuel Hf) as (r & Er). rewrite H in Er by lra. unfold answer in Er. destruct (Rltb (p + eps / 2) T) eqn:E1; [apply Rltb_true in E1; lra|].
      destruct (Rltb F (p + eps / 2)) eqn:E2; [apply Rltb_true in E2; lra|discriminate]. }
    destruct LO as (n1 & H1), HI as (n2 & H2). exists (n1 + n2)%nat. intros fuel Hf. destruct (esc_thr fuel) as (T & F & HT & HF & H). exists (T, F).
    specialize (H1 fuel ltac:(lia) T F ltac:(lra) H ltac:(lra)). specialize (H2 fuel ltac:(lia) T F ltac:(lra) H ltac:(lra)).
    split; [exact HT|]. split; [exact HF|]. split; [cbn; lra|exact H].
  Qed.
End Esc.

(** the seed ends at one of the layers whose thresholds are listed *)
Fixpoint steps (l : list (R * R)) (u : R) : R :=
  match l with
  | [] => 0
  | tf :: r => if Rltb u (fst tf) then steps r u else if Rltb (snd tf) u then 1 else 0
  end.
Definition clip (lo hi x : R) : R := Rmax lo (Rmin hi x).
Definition low (ps : list R) : R := fold_right Rmin 1 ps.
Definition fits (eps : R) : list (R * R) -> list R -> Prop := Forall2 (fun tf p => 0 <= fst tf <= p /\ p <= snd tf <= 1 /\ snd tf - fst tf <= eps).
Lemma clip_in lo hi x : lo <= hi -> lo <= clip lo hi x <= hi.
Proof. intros H. unfold clip, Rmax, Rmin. repeat destruct (Rle_dec _ _); lra. Qed.
Lemma clip_step lo hi T F p x : lo <= hi -> T <= p <= F -> Rabs (clip lo hi T - clip lo (clip lo hi T) x + (hi - clip lo hi F) - (hi - clip lo hi (Rmin p x))) <= F - T.
Proof.
  intros H HT. apply Rabs_le. unfold clip, Rmax, Rmin. destruct (Rle_dec hi T), (Rle_dec hi F); repeat destruct (Rle_dec _ _); lra.
Qed.
Lemma steps_int eps thr ps : fits eps thr ps -> forall lo hi, 0 <= lo -> lo <= hi -> hi <= 1 ->
  exists v, is_RInt (steps thr) lo hi v /\ Rabs (v - (hi - clip lo hi (low ps))) <= INR (length thr) * eps.
Proof.
  intros HF. induction HF as [|(T, F) p thr ps (HT & HF0 & Heps) HF IH]; intros lo hi H0 Hh H1.
  - exists 0. split.
    + replace 0 with ((hi - lo) * 0) by ring. exact (is_RInt_const lo hi 0).
    + cbn. unfold clip. rewrite (Rmin_left hi 1) by lra. rewrite Rmax_right by lra. rewrite Rabs_R0 || replace (0 - (hi - hi)) with 0 by ring. rewrite Rabs_R0. lra.
  - cbn in HT, HF0, Heps. set (m1 := clip lo hi T). set (m2 := clip lo hi F).
    assert (M1 : lo <= m1 <= hi) by (apply clip_in; exact Hh). assert (M2 : lo <= m2 <= hi) by (apply clip_in; exact Hh).
    assert (M12 : m1 <= m2) by (unfold m1, m2, clip, Rmax, Rmin; destruct (Rle_dec hi T), (Rle_dec hi F); repeat destruct (Rle_dec _ _); lra).
    destruct (IH lo m1 H0 ltac:(lra) ltac:(lra)) as (v & Iv & Dv).
    exists (v + (hi - m2)). split.
    + apply (rint_split _ lo m1 hi v (hi - m2)); [reflexivity| |].
      * apply (is_RInt_ext (steps thr)); [|exact Iv]. rewrite Rmin_left, Rmax_right by lra. intros u Hu. cbn [steps fst snd].
        rewrite (proj2 (Rltb_true u T)); [reflexivity|]. assert (m1 <= T \/ T <= lo) by (unfold m1, clip, Rmax, Rmin; repeat destruct (Rle_dec _ _); lra).
        destruct H as [H|H]; [lra|]. assert (m1 = lo) by (unfold m1, clip, Rmax, Rmin; repeat destruct (Rle_dec _ _); lra). lra.
      * assert (LT : forall u, m1 < u < hi -> Rltb u T = false).
        { intros u Hu. apply Rltb_false. assert (T <= m1 \/ hi <= T) by (unfold m1, clip, Rmax, Rmin; repeat destruct (Rle_dec _ _); lra).
          destruct H as [H|H]; [lra|]. assert (m1 = hi) by (unfold m1, clip, Rmax, Rmin; repeat destruct (Rle_dec _ _); lra). lra. }
        apply (rint_split _ m1 m2 hi ((m2 - m1) * 0) ((hi - m2) * 1)); [ring| |].
        -- refine (is_RInt_ext (fun _ => 0) _ _ _ _ _ (is_RInt_const m1 m2 0)). rewrite Rmin_left, Rmax_right by lra. intros u Hu. cbn [steps fst snd].
           rewrite LT by lra. rewrite (proj2 (Rltb_false F u)); [reflexivity|]. assert (m2 <= F \/ F <= lo) by (unfold m2, clip, Rmax, Rmin; repeat destruct (Rle_dec _ _); lra).
           destruct H as [H|H]; [lra|]. assert (m2 = lo) by (unfold m2, clip, Rmax, Rmin; repeat destruct (Rle_dec _ _); lra). lra.
        -- refine (is_RInt_ext (fun _ => 1) _ _ _ _ _ (is_RInt_const m2 hi 1)). rewrite Rmin_left, Rmax_right by lra. intros u Hu. cbn [steps fst snd].
           rewrite LT by lra. rewrite (proj2 (Rltb_true F u)); [reflexivity|]. assert (F <= m2 \/ hi <= F) by (unfold m2, clip, Rmax, Rmin; repeat destruct (Rle_dec _ _); lra).
           destruct H as [H|H]; [lra|]. assert (m2 = hi) by (unfold m2, clip, Rmax, Rmin; repeat destruct (Rle_dec _ _); lra). lra.
    + cbn [length low fold_right]. fold (low ps). rewrite S_INR. pose proof (clip_step lo hi T F p (low ps) Hh ltac:(lra)) as C. fold m1 m2 in C.
      replace (v + (hi - m2) - (hi - clip lo hi (Rmin p (low ps)))) with ((v - (m1 - clip lo m1 (low ps))) + (m1 - clip lo m1 (low ps) + (hi - m2) - (hi - clip lo hi (Rmin p (low ps))))) by ring.
      eapply Rle_trans; [apply Rabs_triang|]. lra.
Qed.
