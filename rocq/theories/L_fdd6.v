(** What the event of SpecFdd means, and the law of the number of transitions. *)
From Coquelicot Require Import Hierarchy RInt RInt_analysis Series.
From Coq Require Import Reals List Bool Arith Lia Lra Sorted Permutation.
From Verif Require Import Base Np Rng L_rng M_mjp SpecMjp SpecLin SpecLaw SpecFdd L_list L_path L_law L_law2 L_law4 L_law5 L_bridge L_unif L_bridge2 L_bridge3 L_fdd1 L_fdd2 L_fdd3 L_fdd4 L_fdd5 L_lindemo L_mat Mat.
Import ListNotations.
Local Open Scope R_scope.

Lemma seen_look : forall J c u, look (Some c) J u = Some (seen c J u).
Proof.
  induction J as [|[a i] J IH]; intros c u; [reflexivity|]. cbn [look seen]. unfold Rleb.
  destruct (Rle_dec a u); [apply IH|reflexivity].
Qed.
Lemma visits_spec : forall s obs, timed s -> Forall (fun p => 0 <= fst p) obs ->
  (visits obs s = true <-> forall u y, In (u, y) obs -> state_at s u y).
Proof.
  intros s obs [HL HF HS HB] HO. unfold visits.
  assert (SL := fun u i => state_at_look s u i HL (SS_lt_le _ HS)). unfold jumps in SL.
  destruct (sk_t s) as [|t0 ts]; [discriminate|]. destruct (sk_x s) as [|x0 xs]; [discriminate|].
  injection HF as ->. cbn [combine] in SL |- *.
  assert (E : forall u y, 0 <= u -> state_at s u y <-> seen x0 (combine ts xs) u = y).
  { intros u y Hu. rewrite SL. cbn [look]. unfold Rleb. destruct (Rle_dec 0 u); [|lra]. rewrite seen_look. split; [intros Q; injection Q; auto|intros ->; reflexivity]. }
  rewrite forallb_forall. rewrite Forall_forall in HO. split.
  - intros H u y Hin. apply E; [exact (HO _ Hin)|]. apply Nat.eqb_eq. exact (H _ Hin).
  - intros H [u y] Hin. apply Nat.eqb_eq. apply E; [exact (HO _ Hin)|]. apply H. exact Hin.
Qed.

Lemma rsum_pick : forall n k (f : nat -> R), (k < n)%nat -> rsum n (fun j => f j * ind (Nat.eqb j k)) = f k.
Proof.
  induction n as [|n IH]; intros k f H; [lia|]. cbn [rsum]. destruct (Nat.eq_dec k n) as [->|N].
  - rewrite Nat.eqb_refl. assert (E : rsum n (fun j => f j * ind (Nat.eqb j n)) = 0).
    { apply rsum_0. intros j Hj. destruct (Nat.eqb_spec j n); [lia|]. unfold ind. ring. }
    rewrite E. unfold ind. ring.
  - rewrite IH by lia. destruct (Nat.eqb_spec n k); [lia|]. unfold ind. ring.
Qed.
Lemma n_trans_law : forall L dim gen T i f n fuel, generator dim gen -> 0 < rate_bound dim gen -> 0 < T -> expm_exact L ->
  (i < dim)%nat -> (f < dim)%nat -> 0 < get_trans L dim T gen i f -> (n < fuel)%nat ->
  let rt := rate_bound dim gen * T in
  chance (sample_n_trans fuel dim (dtrans dim gen) (rate_bound dim gen) T (get_trans L dim T gen) i f)
    (fun r => Nat.eqb (fst r) n) (exp (- rt) * rt ^ n / INR (fact n) * mpow dim (dtrans dim gen) n i f / get_trans L dim T gen i f).
Proof.
  intros L dim gen T i f n fuel Hg Hr HT HL Hi Hf HC Hn rt. unfold chance.
  refine (average_eq _ _ _ _ _ _ (number_law L dim gen T Hg Hr HT HL i f Hi Hf HC (fun k => ind (Nat.eqb k n)) fuel)).
  rewrite rsum_pick by exact Hn. unfold uterm, mass. fold rt. rewrite exp_Ropp. field.
  pose proof (exp_pos rt). pose proof (INR_fact_neq_0 n). repeat split; lra.
Qed.
