(** A binary64 witness against the exact round trip. *)
From Coq Require Import List ZArith Bool.
From Coq Require Import Floats.SpecFloat.
From Verif Require Import Base Np M_mjp.
Import ListNotations.

Definition f_one : F64 := S754_finite false 4503599627370496 (-52).
Definition f_09 : F64 := S754_finite false 8106479329266893 (-53).
Definition f_03 : F64 := S754_finite false 5404319552844595 (-54).
Lemma roundtrip_binary64 : exists (s : skel F64) (breaks : list F64) (s' : skel F64),
  (* s is a well-formed skeleton 0 = t0 < t1 < horizon with two different states *)
  (exists t1, sk_t s = [n0; t1] /\ nltb n0 t1 = true /\ nltb t1 (sk_fin s) = true) /\
  sk_x s = [0; 1]%nat /\
  (* one break strictly inside the horizon, not on a jump *)
  (exists b, breaks = [b] /\ nltb n0 b = true /\ nltb b (sk_fin s) = true) /\
  Forall (fun f => valid_binary 53 1024 f = true) (sk_fin s :: sk_t s ++ breaks) /\
  paste_partition (partition_skeleton s breaks) = Ok s' /\ skel_eq s' s = false.
Proof.
  exists (mk_skel [n0; f_09] [0; 1]%nat f_one), [f_03],
    (mk_skel [n0; S754_finite false 8106479329266894 (-53)] [0; 1]%nat f_one).
  split; [exists f_09; repeat split; vm_compute; reflexivity|].
  split; [reflexivity|].
  split; [exists f_03; repeat split; vm_compute; reflexivity|].
  split; [repeat constructor; vm_compute; reflexivity|].
  split; vm_compute; reflexivity.
Qed.
