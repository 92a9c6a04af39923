(** The law of a redrawn path without conditioning times, and a generator whose first pieces are not stationary. *)
From Coquelicot Require Import Rcomplements Hierarchy Rbar.
From Coq Require Import Reals List Bool Arith Lia Lra.
From Verif Require Import Base Np Rng L_list L_rng M_mjp SpecMjp SpecLin SpecLaw SpecFdd L_law L_law2 L_law4 L_law5 L_stat L_fdd1 L_fwd5 L_fwd6 L_mat Mat.
Import ListNotations.
Local Open Scope R_scope.

Lemma mutate_single : forall L dim gen q obs, (2 <= dim)%nat -> generator dim gen -> pos_off dim gen -> expm_exact L -> solve_ok L dim (stat_matrix gen) stat_rhs ->
  asked dim obs q ->
  exists p, rsum dim p = 1 /\ (forall i, (i < dim)%nat -> 0 < p i) /\ stationary dim gen p /\
  exists c, (forall fuel, chance (mutate_partition L fuel [q] dim gen) (all_visit [obs]) (c fuel)) /\
    Un_cv c (rsum dim (fun x => p x * markov (fun t => get_trans L dim t gen) 0 x obs)).
Proof.
  intros L dim gen q obs Hd Hg Ho HL HS (A1 & A2 & A3 & A4 & A5).
  destruct (forwards_stat_fdd L dim gen Hg HL (sk_fin q) A1 obs Hd Ho HS A4 A5) as (p & Q1 & Q2 & Q3 & c & C1 & C2).
  exists p. split; [exact Q1|]. split; [exact Q2|]. split; [exact Q3|]. exists c. split; [|exact C2].
  intros fuel. apply (average_map _ _ (sample_forwards L fuel (sk_fin q) None dim gen) (fun s => [s])).
  apply (average_ext _ _ (fun s => ind (visits obs s))); [|apply C1].
  intros s. unfold all_visit; cbn [combine forallb fst snd]. rewrite andb_true_r. reflexivity.
Qed.

Definition gen12 : mat := fun i j => match i, j with O, O => -1 | O, _ => 1 | _, O => 2 | _, _ => -2 end.
Definition stat12 : vec := fun i => match i with O => 2 / 3 | _ => 1 / 3 end.
Lemma gen12_generator : generator 2 gen12.
Proof.
  split.
  - intros i j Hi Hj N. destruct i as [|[|i]], j as [|[|j]]; try lia; cbn; lra.
  - intros i Hi. destruct i as [|[|i]]; try lia; cbn; lra.
Qed.
Lemma gen12_pos : pos_off 2 gen12.
Proof. intros i j Hi Hj N. destruct i as [|[|i]], j as [|[|j]]; try lia; cbn; lra. Qed.
Lemma stat12_stationary : stationary 2 gen12 stat12.
Proof. intros j Hj. destruct j as [|[|j]]; try lia; cbn; lra. Qed.
Lemma not_stationary : forall L, expm_exact L ->
  ~ (forall f obs, (f < 2)%nat -> in_order 0 obs 1 -> Forall (fun c => (snd c < 2)%nat) obs ->
      exists c, (forall fuel, chance (sample_backwards L fuel 1 f 2 gen12) (visits obs) (c fuel)) /\
        Un_cv c (rsum 2 (fun i => stat12 i * markov (fun t => get_trans L 2 t gen12) 0 i (obs ++ [(1, f)])) / stat12 f)).
Proof.
  intros L HL H. pose proof (proj1 (backwards_stationary L 2 gen12 (le_n 2) gen12_generator gen12_pos HL stat12 ltac:(cbn; lra)
    ltac:(intros i Hi; destruct i as [|[|i]]; try lia; cbn; lra) stat12_stationary 1 ltac:(lra)) H 0%nat ltac:(lia)) as E.
  cbn in E. lra.
Qed.

Lemma not_stationary_witness : exists dim gen p T, generator dim gen /\ pos_off dim gen /\ rsum dim p = 1 /\ stationary dim gen p /\ 0 < T /\
  forall L, expm_exact L ->
  ~ (forall f obs, (f < dim)%nat -> in_order 0 obs T -> Forall (fun c => (snd c < dim)%nat) obs ->
      exists c, (forall fuel, chance (sample_backwards L fuel T f dim gen) (visits obs) (c fuel)) /\
        Un_cv c (rsum dim (fun i => p i * markov (fun t => get_trans L dim t gen) 0 i (obs ++ [(T, f)])) / p f)).
Proof.
  exists 2%nat, gen12, stat12, 1. split; [exact gen12_generator|]. split; [exact gen12_pos|]. split; [cbn; lra|]. split; [exact stat12_stationary|].
  split; [lra|]. exact not_stationary.
Qed.
