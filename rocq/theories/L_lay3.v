(** The law of the layer of a Brownian bridge. *)
From Coquelicot Require Import Hierarchy RInt RInt_analysis.
From Coq Require Import Reals List Bool Arith Lia Lra.
From Verif Require Import Base Np Rng L_rng M_mjp M_hit M_path SpecHit SpecLaw SpecEsc SpecLay L_hit2 L_hit3 L_hit4 L_hit5 L_hit6 L_hit7 L_hit8 L_hit9 L_heat3 L_heat4 L_heat5 L_heat6 L_can2 L_law L_law2 L_law3 L_law4 L_law5 L_law6 L_law7 L_esc L_esc2 L_lay L_lay2.
Import ListNotations.
Local Open Scope R_scope.

Section Layer.
  Variables (t a b : R) (lb ub : ext).
  Hypotheses (Ht : 0 < t) (Hlb : elt lb (Fin (Rmin a b))) (Hub : elt (Fin (Rmax a b)) ub).
  Lemma layer_at j : (1 <= j)%nat -> exists le ue p, compute_edges j t a b lb ub = Ok (Fin le, Fin ue) /\ elt lb (Fin le) /\ elt (Fin ue) ub /\
    le < a < ue /\ le < b < ue /\ Rabs (a - (le + ue) / 2) < (ue - le) / 2 /\ Rabs (b - (le + ue) / 2) < (ue - le) / 2 /\
    brown_escape t (a - (le + ue) / 2) (b - (le + ue) / 2) ((ue - le) / 2) p.
  Proof.
    intros Hj. destruct (edges_inside t a b lb ub Ht Hlb Hub j) as (le & ue & E & EL & EU & _ & _ & I). destruct (I Hj) as (I1 & I2).
    pose proof (Rmin_l a b). pose proof (Rmin_r a b). pose proof (Rmax_l a b). pose proof (Rmax_r a b).
    assert (A1 : Rabs (a - (le + ue) / 2) < (ue - le) / 2) by (apply inside_abs; lra). assert (A2 : Rabs (b - (le + ue) / 2) < (ue - le) / 2) by (apply inside_abs; lra).
    destruct (brown_full_range t _ _ _ Ht A1 A2) as (p & Ep & _). exists le, ue, p. repeat split; try assumption; lra.
  Qed.
  (** the last layer counted is the least likely to be left *)
  Lemma layer_decr i j p q : (1 <= i)%nat -> (i <= j)%nat -> layer_escape t a b lb ub i p -> layer_escape t a b lb ub j q -> q <= p.
  Proof.
    intros Hi Hij (le & ue & Ei & Pi) (le' & ue' & Ej & Pj).
    destruct (layer_at i Hi) as (x & y & p' & E & _ & _ & B1 & B2 & _). rewrite E in Ei. injection Ei as -> ->.
    destruct (Nat.eq_dec i j) as [<-|N].
    - rewrite E in Ej. injection Ej as -> ->. apply (brown_nested t a b le' ue' le' ue' p q Ht B1 B2 (Rle_refl _) (Rle_refl _) Pi Pj).
    - destruct (edges_nested t a b lb ub Ht Hlb Hub i j le ue le' ue' ltac:(lia) E Ej) as (N1 & N2).
      apply (brown_nested t a b le ue le' ue' p q Ht B1 B2); [lra|lra|exact Pi|exact Pj].
  Qed.
  Definition layer_result (L : nat) (r : res nat) : R := value (fun j => ind (j <=? L)%nat) r.
  Lemma layer_run fuel n l u : (1 <= l)%nat -> 0 <= u <= 1 -> exists r, (forall o k, layer_loop fuel n l t a b lb ub u o k = (r, k)) /\ forall j, r = Ok j -> (l <= j)%nat.
  Proof.
    revert l. induction n as [|n IH]; intros l Hl Hu; [exists NoFuel; split; [reflexivity|discriminate]|].
    destruct (layer_at l Hl) as (le & ue & p & E & _ & _ & _ & _ & A1 & A2 & _).
    destruct (IH (S l) ltac:(lia) Hu) as (r & Hr & Hj).
    exists (match esc_of t (a - (le + ue) / 2) (b - (le + ue) / 2) ((ue - le) / 2) fuel u with Ok true => r | Ok false => Ok l | Raise e => Raise e | NoFuel => NoFuel end). split.
    - intros o k. cbn [layer_loop]. rewrite E. unfold bind at 1, lift. cbv beta iota zeta. unfold bind. rewrite (esc_run t _ _ _ fuel u Ht A1 A2 Hu).
      destruct (esc_of _ _ _ _ _ _) as [[|]| |]; try reflexivity. apply Hr.
    - destruct (esc_of _ _ _ _ _ _) as [[|]| |]; intros j Q; try discriminate. { specialize (Hj j Q). lia. } injection Q as <-. lia.
  Qed.

  Variables (L : nat) (p : R).
  Hypotheses (HL : (1 <= L)%nat) (Hp : layer_escape t a b lb ub L p).
  (** the thresholds of the layers up to L at one fuel are eps apart *)
  Definition close (fuel : nat) (eps : R) : Prop := forall j, (1 <= j <= L)%nat -> exists tf le ue q, compute_edges j t a b lb ub = Ok (Fin le, Fin ue) /\
    layer_escape t a b lb ub j q /\ tight (esc_of t (a - (le + ue) / 2) (b - (le + ue) / 2) ((ue - le) / 2) fuel) q eps tf.
  Lemma close_one fuel : close fuel 1.
  Proof.
    intros j Hj. destruct (layer_at j ltac:(lia)) as (le & ue & q & E & _ & _ & _ & _ & A1 & A2 & Q).
    destruct (esc_tight1 t _ _ _ q Ht A1 A2 Q fuel) as (tf & H). exists tf, le, ue, q. split; [exact E|]. split; [exists le, ue; split; assumption|exact H].
  Qed.
  Lemma close_eps eps : 0 < eps -> exists n0, forall fuel, (n0 <= fuel)%nat -> close fuel eps.
  Proof.
    intros He. enough (X : forall m, exists n0, forall fuel, (n0 <= fuel)%nat -> forall j, (1 <= j <= m)%nat -> exists tf le ue q, compute_edges j t a b lb ub = Ok (Fin le, Fin ue) /\
      layer_escape t a b lb ub j q /\ tight (esc_of t (a - (le + ue) / 2) (b - (le + ue) / 2) ((ue - le) / 2) fuel) q eps tf) by exact (X L).
    intros m. induction m as [|m (n1 & H1)]; [exists 0%nat; intros; lia|].
    destruct (layer_at (S m) ltac:(lia)) as (le & ue & q & E & _ & _ & _ & _ & A1 & A2 & Q).
    destruct (esc_tight t _ _ _ q Ht A1 A2 Q eps He) as (n2 & H2). exists (n1 + n2)%nat. intros fuel Hf j Hj.
    destruct (Nat.eq_dec j (S m)) as [->|N]; [|apply H1; lia]. destruct (H2 fuel ltac:(lia)) as (tf & H). exists tf, le, ue, q. split; [exact E|]. split; [exists le, ue; split; assumption|exact H].
  Qed.
  Lemma low_le ps : Forall (fun q => p <= q) ps -> In p ps -> p <= 1 -> low ps = p.
  Proof.
    intros A I P1. assert (G : forall qs, Forall (fun q => p <= q) qs -> p <= low qs).
    { intros qs. induction 1; cbn; [exact P1|]. apply Rmin_glb; assumption. }
    induction ps as [|q ps IH]; [destruct I|]. inversion A; subst. cbn. fold (low ps). destruct I as [->|I].
    - apply Rmin_left. apply G. assumption.
    - rewrite IH by assumption. apply Rmin_right. assumption.
  Qed.
  Lemma loop_steps fuel eps : close fuel eps -> forall m l n, (l + m = S L)%nat -> (1 <= l)%nat ->
    exists thr ps, fits eps thr ps /\ Forall (fun q => p <= q) ps /\ ((m <= n)%nat -> (0 < m)%nat -> In p ps) /\ (length thr <= m)%nat /\
      forall u, 0 <= u <= 1 -> exists r, (forall o k, layer_loop fuel n l t a b lb ub u o k = (r, k)) /\ layer_result L r = steps thr u.
  Proof.
    intros C m. induction m as [|m IH]; intros l n Hl H1.
    - exists [], []. split; [constructor|]. split; [constructor|]. split; [intros; lia|]. split; [cbn; lia|]. intros u Hu. destruct (layer_run fuel n l u H1 Hu) as (r & Hr & Hj). exists r. split; [exact Hr|].
      unfold layer_result, value. destruct r as [j| |]; try reflexivity. specialize (Hj j eq_refl). rewrite (proj2 (Nat.leb_gt j L)) by lia. reflexivity.
    - destruct n as [|n].
      { exists [], []. split; [constructor|]. split; [constructor|]. split; [intros; lia|]. split; [cbn; lia|]. intros u Hu. exists NoFuel. split; reflexivity. }
      destruct (C l ltac:(lia)) as (tf & le & ue & q & E & Q & T1 & T2 & T3 & T4).
      destruct (IH (S l) n ltac:(lia) ltac:(lia)) as (thr & ps & F & A & I & LEN & H).
      destruct (layer_at l H1) as (le' & ue' & p' & E' & _ & _ & _ & _ & A1 & A2 & _). rewrite E in E'. injection E' as <- <-.
      exists (tf :: thr), (q :: ps). split; [constructor; [repeat split; lra|exact F]|].
      split; [constructor; [apply (layer_decr l L q p); [lia|lia|exact Q|exact Hp]|exact A]|].
      split.
      { intros Hm _. destruct m as [|m]; [|right; apply I; lia]. left. assert (l = L) by lia. subst l.
        destruct Q as (x & y & Ex & Qx). destruct Hp as (x' & y' & Ex' & Qx'). rewrite Ex in Ex'. injection Ex' as <- <-.
        apply Rle_antisym; [apply (layer_decr L L p q)|apply (layer_decr L L q p)]; try lia; exists x, y; split; assumption. }
      split; [cbn; lia|]. intros u Hu. destruct (H u Hu) as (r & Hr & Vr). cbn [steps]. specialize (T4 u Hu).
      eexists. split.
      { intros o k. cbn [layer_loop]. rewrite E. unfold bind at 1, lift. cbv beta iota zeta. unfold bind. rewrite (esc_run t _ _ _ fuel u Ht A1 A2 Hu). rewrite T4.
        instantiate (1 := match answer (fst tf) (snd tf) u with Ok true => r | Ok false => Ok l | Raise e => Raise e | NoFuel => NoFuel end).
        destruct (answer _ _ _) as [[|]| |]; try reflexivity. apply Hr. }
      unfold answer. destruct (Rltb u (fst tf)); [exact Vr|]. destruct (Rltb (snd tf) u); [|reflexivity]. cbn. rewrite (proj2 (Nat.leb_le l L)) by lia. reflexivity.
  Qed.
  Lemma p_range : 0 <= p < 1.
  Proof.
    destruct Hp as (le & ue & E & Q). destruct (layer_at L HL) as (x & y & _ & E' & _ & _ & _ & _ & A1 & A2 & _). rewrite E in E'. injection E' as <- <-.
    exact (proj1 (esc_full t _ _ _ p Ht A1 A2 Q)).
  Qed.
  (** the seeds above lo that end at a layer up to L *)
  Definition layer_of (fuel : nat) (u : R) : R := layer_result L (fst (layer_loop fuel fuel 1 t a b lb ub u {| ora_r := fun _ _ => 0; ora_n := fun _ _ => 0%nat |} 0%nat)).
  Lemma layer_measure fuel eps : close fuel eps -> forall lo, 0 <= lo <= 1 -> exists v, is_RInt (layer_of fuel) lo 1 v /\ ((L <= fuel)%nat -> Rabs (v - (1 - Rmax lo p)) <= INR L * eps).
  Proof.
    intros C lo Hlo. destruct (loop_steps fuel eps C L 1 fuel ltac:(lia) ltac:(lia)) as (thr & ps & F & A & I & LEN & H).
    assert (EP : 0 <= eps) by (destruct (C 1%nat ltac:(lia)) as (tf & _ & _ & q & _ & _ & T1 & T2 & T3 & _); lra).
    destruct (steps_int eps thr ps F lo 1 ltac:(lra) ltac:(lra) ltac:(lra)) as (v & Iv & Dv). exists v. split.
    - apply (is_RInt_ext (steps thr)); [|exact Iv]. rewrite Rmin_left, Rmax_right by lra. intros u Hu. destruct (H u ltac:(lra)) as (r & Hr & Vr). unfold layer_of. rewrite Hr. symmetry. exact Vr.
    - intros Hf. pose proof p_range as PR. rewrite (low_le ps A (I Hf ltac:(lia)) ltac:(lra)) in Dv. unfold clip in Dv. rewrite (Rmin_right 1 p) in Dv by lra.
      eapply Rle_trans; [exact Dv|]. apply Rmult_le_compat_r; [exact EP|]. apply le_INR. exact LEN.
  Qed.
  Lemma layer_value fuel u : 0 <= u <= 1 -> chance (layer_loop fuel fuel 1 t a b lb ub u) (fun j => j <=? L)%nat (layer_of fuel u).
  Proof.
    intros Hu. destruct (layer_run fuel fuel 1 u ltac:(lia) Hu) as (r & Hr & _). unfold layer_of. rewrite Hr. cbn [fst].
    apply (mean_done (value (fun j => ind (j <=? L)%nat)) _ r). intros o k _. apply Hr.
  Qed.
End Layer.
