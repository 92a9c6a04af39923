(** Property theorems C01, C02, C03, C17, C18, C19, C84. *)
From Coq Require Import Reals List ZArith Bool Lra Lia Sorted.
From Coquelicot Require Import Hierarchy RInt.
From Coq Require Import Floats.SpecFloat.
From Verif Require Import Base Np Rng Mat L_rng M_mjp SpecMjp L_list L_path L_part L_path2 L_occ L_demo L_f64 L_repart L_anch.
Import ListNotations.
Local Open Scope R_scope.

(** C01: partitioning and pasting back gives the same path. *)
Theorem C01_partition_paste_roundtrip : forall (s : skel R) (breaks : list R),
  wf_skel s -> StronglySorted Rle breaks ->
  (forall b, In b breaks -> 0 <= b <= sk_fin s) ->
  paste_partition (partition_skeleton s breaks) = Ok s.
Proof. exact (fun s bs W => roundtrip s (proj1 W) (proj2 W) bs). Qed.
Print Assumptions C01_partition_paste_roundtrip.
Example C01_example : wf_skel demo /\ StronglySorted Rle demo_breaks /\
  (forall b, In b demo_breaks -> 0 <= b <= sk_fin demo) /\ length (partition_skeleton demo demo_breaks) = 6%nat.
Proof. exact (conj demo_wf (conj demo_breaks_sorted (conj demo_breaks_in (proj1 (partition_correct demo demo_breaks demo_wf demo_breaks_sorted demo_breaks_in))))). Qed.

(** C02: the pieces are the restrictions of the path to the intervals between breaks. *)
Theorem C02_partition_pieces : forall (s : skel R) (breaks : list R),
  wf_skel s -> StronglySorted Rle breaks ->
  (forall b, In b breaks -> 0 <= b <= sk_fin s) ->
  length (partition_skeleton s breaks) = S (length breaks) /\
  total_dur (partition_skeleton s breaks) = sk_fin s /\
  forall k a b, nth_error (0 :: breaks ++ [sk_fin s]) k = Some a ->
    nth_error (0 :: breaks ++ [sk_fin s]) (S k) = Some b ->
    exists p, nth_error (partition_skeleton s breaks) k = Some p /\
      sk_fin p = b - a /\
      nth_error (sk_t p) 0 = Some 0 /\
      (a < b -> wf_skel p) /\
      (forall i, state_at s a i -> initial_state p i) /\
      (forall u i, 0 <= u < b - a -> (state_at p u i <-> state_at s (a + u) i)).
Proof. exact partition_correct. Qed.
Print Assumptions C02_partition_pieces.
Example C02_example : nth_error (0 :: demo_breaks ++ [sk_fin demo]) 3 = Some 1 /\
  nth_error (0 :: demo_breaks ++ [sk_fin demo]) 4 = Some (5/2) /\ 1 < 5/2.
Proof. split; [reflexivity|split; [reflexivity|lra]]. Qed.

(** C01/C02, repartition_skeleton: the old breaks leave no trace, ... *)
Theorem C01_repartition : forall (s : skel R) (old new : list R),
  wf_skel s -> StronglySorted Rle old -> (forall b, In b old -> 0 <= b <= sk_fin s) ->
  repartition_skeleton (partition_skeleton s old) new = Ok (partition_skeleton s new).
Proof. exact repartition_roundtrip. Qed.
Print Assumptions C01_repartition.
(** the random partition: equidistant breaks strictly inside, pieces that paste back to the path *)
Theorem C02_sample_partition : forall s intensity, wf_skel s ->
  returns (sample_partition s intensity) (fun r => paste_partition (fst r) = Ok s /\ length (fst r) = S (length (snd r)) /\
    forall i, (i < length (snd r))%nat ->
    nth i (snd r) 0 = (INR i + 1) * (sk_fin s / (INR (length (snd r)) + 1)) /\ 0 < nth i (snd r) 0 < sk_fin s).
Proof. exact partition_sampled. Qed.
Print Assumptions C02_sample_partition.
(** ... and on any pieces the new pieces show, at every time, what the old ones show. *)
Theorem C02_repartition : forall (ps : list (skel R)) (new : list R),
  (forall p, In p ps -> sk_fin p = 0 \/ timed p) -> (exists p, In p ps /\ timed p) ->
  StronglySorted Rle new -> (forall b, In b new -> 0 <= b <= total_dur ps) ->
  exists qs, repartition_skeleton ps new = Ok qs /\ length qs = S (length new) /\
    total_dur qs = total_dur ps /\
    forall k p j u a b i, nth_error ps k = Some p -> timed p -> 0 <= u < sk_fin p ->
      nth_error (0 :: new ++ [total_dur ps]) j = Some a ->
      nth_error (0 :: new ++ [total_dur ps]) (S j) = Some b ->
      a <= total_dur (firstn k ps) + u < b ->
      exists q, nth_error qs j = Some q /\ sk_fin q = b - a /\ wf_skel q /\
        (state_at q (total_dur (firstn k ps) + u - a) i <-> state_at p u i).
Proof. exact repartition_correct. Qed.
Print Assumptions C02_repartition.
Example C02_repartition_example : (forall p, In p demo_pieces -> sk_fin p = 0 \/ timed p) /\
  (exists p, In p demo_pieces /\ timed p) /\ StronglySorted Rle [1; 2] /\
  (forall b, In b [1; 2] -> 0 <= b <= total_dur demo_pieces).
Proof.
  split; [|split; [|split]].
  - intros p H; unfold demo_pieces in H; in_cases H;
      [right; exact demo_timed|left; reflexivity|right; exact demo2_timed].
  - exists demo; split; [left; reflexivity|exact demo_timed].
  - apply SSorted_cons; [apply SSorted_cons; constructor|]. constructor; [lra|constructor].
  - intros b H. unfold total_dur; simpl. in_cases H; lra.
Qed.

(** C03: pasting concatenates the pieces; the result is canonical. *)
Theorem C03_paste_concatenates : forall ps : list (skel R),
  (forall p, In p ps -> sk_fin p = 0 \/ timed p) ->
  (exists p, In p ps /\ timed p) ->
  exists s, paste_partition ps = Ok s /\ wf_skel s /\ sk_fin s = total_dur ps /\
    forall k p u i, nth_error ps k = Some p -> timed p -> 0 <= u ->
      (u < sk_fin p \/ (forall j q, (k < j)%nat -> nth_error ps j = Some q -> sk_fin q = 0)) ->
      (state_at p u i <-> state_at s (total_dur (firstn k ps) + u) i).
Proof. exact paste_correct. Qed.
Print Assumptions C03_paste_concatenates.
Example C03_example : (forall p, In p demo_pieces -> sk_fin p = 0 \/ timed p) /\
  (exists p, In p demo_pieces /\ timed p) /\ total_dur demo_pieces = 4.
Proof.
  split; [|split].
  - intros p H; unfold demo_pieces in H; in_cases H;
      [right; exact demo_timed|left; reflexivity|right; exact demo2_timed].
  - exists demo; split; [left; reflexivity|exact demo_timed].
  - unfold total_dur; simpl; lra.
Qed.

(** C03, error case: nothing of positive duration cannot be pasted. *)
Theorem C03_paste_nothing : forall ps : list (skel R),
  (forall p, In p ps -> sk_fin p = 0) -> paste_partition ps = Raise ValueError.
Proof. exact paste_empty. Qed.
Print Assumptions C03_paste_nothing.
Example C03_nothing_example : forall p, In p [demo_zero] -> sk_fin p = 0.
Proof. intros p H; in_cases H; reflexivity. Qed.

(** C17: evaluation is right-continuous lookup. *)
Theorem C17_call : forall (s : skel R) (ts : list R),
  timed s -> (forall u, In u ts -> 0 <= u <= sk_fin s) ->
  exists xs, skel_call s ts = Ok xs /\ Forall2 (state_at s) ts xs.
Proof. exact skel_call_correct. Qed.
Print Assumptions C17_call.
Theorem C17_state_unique : forall (s : skel R) u i j, state_at s u i -> state_at s u j -> i = j.
Proof. exact state_at_unique. Qed.
Print Assumptions C17_state_unique.
Theorem C17_call_beyond_horizon : forall (s : skel R) (ts : list R) u,
  In u ts -> sk_fin s < u -> skel_call s ts = Raise ValueError.
Proof. exact skel_call_late. Qed.
Print Assumptions C17_call_beyond_horizon.
(** A negative time is not rejected: it silently yields the last state of the path. *)
Theorem C17_negative_time_wraps : forall (s : skel R) u x,
  timed s -> u < 0 -> final_state s x -> skel_call s [u] = Ok [x].
Proof. exact skel_call_negative. Qed.
Print Assumptions C17_negative_time_wraps.
Example C17_example : timed demo /\ final_state demo 0%nat /\ state_at demo 1 1%nat.
Proof.
  split; [exact demo_timed|split; [exists [0; 1]%nat; reflexivity|]].
  exists 1%nat, 1. repeat split; [lra|]. intros [|[|[|j]]] tj Hj E; simpl in E; try lia; inversion E; subst; try lra.
  destruct j; discriminate.
Qed.

(** C18: est_stat returns exact occupation fractions. *)
Theorem C18_est_stat : forall (s : skel R) (states : list nat), wf_skel s ->
  exists v, est_stat s states = Ok v /\ length v = length states /\
   forall f : R -> nat, (forall u, 0 <= u < sk_fin s -> state_at s u (f u)) ->
   Forall2 (fun st p => is_RInt (fun u => if Nat.eqb (f u) st then 1 else 0) 0 (sk_fin s) (p * sk_fin s)
                        /\ 0 <= p) states v.
Proof. exact est_stat_correct. Qed.
Print Assumptions C18_est_stat.
Theorem C18_est_stat_sums_to_one : forall (s : skel R) (states : list nat) v,
  wf_skel s -> NoDup states -> (forall i, In i (sk_x s) -> In i states) ->
  est_stat s states = Ok v -> fold_right Rplus 0 v = 1.
Proof. exact est_stat_sum. Qed.
Print Assumptions C18_est_stat_sums_to_one.
Example C18_example : wf_skel demo /\ NoDup [0; 1]%nat /\ (forall i, In i (sk_x demo) -> In i [0; 1]%nat)
  /\ forall u, 0 <= u < sk_fin demo -> exists i, state_at demo u i.
Proof.
  split; [exact demo_wf|split; [repeat constructor; simpl; intuition lia|split]].
  - simpl; intuition.
  - intros u Hu; apply state_at_total; [exact demo_timed|tauto].
Qed.

(** C84: == decides equality; for canonical skeletons it decides whether the two paths
    agree at all times. *)
Theorem C84_eq : forall a b : skel R, skel_eq a b = true <-> a = b.
Proof. exact skel_eq_correct. Qed.
Print Assumptions C84_eq.
Theorem C84_eq_paths : forall a b : skel R, wf_skel a -> wf_skel b ->
  skel_eq a b = true <->
  sk_fin a = sk_fin b /\ forall u i, 0 <= u < sk_fin a -> (state_at a u i <-> state_at b u i).
Proof. exact skel_eq_canonical. Qed.
Print Assumptions C84_eq_paths.
Example C84_example : wf_skel demo.
Proof. exact demo_wf. Qed.

(** C19: in binary64 the round trip is not exact (0.9 with a break at 0.3 on [0, 1]). *)
Theorem C19_roundtrip_binary64_refuted : exists (s : skel F64) (breaks : list F64) (s' : skel F64),
  (* s is a well-formed skeleton 0 = t0 < t1 < horizon with two different states *)
  (exists t1, sk_t s = [n0; t1] /\ nltb n0 t1 = true /\ nltb t1 (sk_fin s) = true) /\
  sk_x s = [0; 1]%nat /\
  (* one break strictly inside the horizon, not on a jump *)
  (exists b, breaks = [b] /\ nltb n0 b = true /\ nltb b (sk_fin s) = true) /\
  Forall (fun f => valid_binary 53 1024 f = true) (sk_fin s :: sk_t s ++ breaks) /\
  paste_partition (partition_skeleton s breaks) = Ok s' /\ skel_eq s' s = false.
Proof. exact roundtrip_binary64. Qed.
Print Assumptions C19_roundtrip_binary64_refuted.
