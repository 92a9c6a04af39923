(** Vocabulary for the statements about jump-process paths, independent of the
    functions of the model (only the record [skel] is used). *)
From Coq Require Import Reals List Sorted.
From Verif Require Import Base M_mjp.
Import ListNotations.
Local Open Scope R_scope.

(** The path is in state [i] at time [u]: [i] is the state entered at the last listed
    jump not after [u] (right-continuous path). *)
Definition state_at (s : skel R) (u : R) (i : nat) : Prop :=
  exists k tk,
    nth_error (sk_t s) k = Some tk /\ nth_error (sk_x s) k = Some i /\ tk <= u /\
    forall j tj, (k < j)%nat -> nth_error (sk_t s) j = Some tj -> u < tj.

(** No two consecutive entries are equal. *)
Definition no_repeat (x : list nat) : Prop :=
  forall i a b, nth_error x i = Some a -> nth_error x (S i) = Some b -> a <> b.

(** Jump times start at 0, increase strictly and stay below the horizon. *)
Record timed (s : skel R) : Prop := {
  td_len : length (sk_t s) = length (sk_x s);
  td_first : nth_error (sk_t s) 0 = Some 0;
  td_sorted : StronglySorted Rlt (sk_t s);
  td_below : forall t, In t (sk_t s) -> t < sk_fin s }.

(** A canonical skeleton: additionally every listed jump changes the state. *)
Definition wf_skel (s : skel R) : Prop := timed s /\ no_repeat (sk_x s).

(** Sum of a list of durations. *)
Definition total_dur (l : list (skel R)) : R := fold_right Rplus 0 (map sk_fin l).

(** Last state of a path. *)
Definition final_state (s : skel R) (i : nat) : Prop :=
  exists x, sk_x s = x ++ [i].
Definition initial_state (s : skel R) (i : nat) : Prop :=
  exists x, sk_x s = i :: x.

(** A path on [0, fin_t] over states below [dim] that starts in [i] and ends in [f]; jump
    times are sorted (strictly so with probability one, see [wf_skel]) and every jump
    changes the state. *)
Definition bridge_path (dim : nat) (fin_t : R) (i f : nat) (s : skel R) : Prop :=
  length (sk_t s) = length (sk_x s) /\ nth_error (sk_t s) 0 = Some 0 /\ StronglySorted Rle (sk_t s) /\
  (forall t, In t (sk_t s) -> 0 <= t < fin_t) /\ no_repeat (sk_x s) /\ sk_fin s = fin_t /\
  Forall (fun j => (j < dim)%nat) (sk_x s) /\ initial_state s i /\ final_state s f.
