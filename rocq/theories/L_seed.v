(** Lemmas: normal operators, bounds of the discrepancy along a path, raw seeds, interpolation of seeds. *)
From Coq Require Import Reals List Bool Arith ZArith Lia Lra Psatz Sorted Permutation.
From Verif Require Import Base Np Rng L_list L_rng L_prop M_mjp M_hit SpecHit M_path SpecPath L_sde2 L_sde3 M_skel SpecSkel L_skel2 L_skel3 L_skel4 L_skel5 L_skel6 L_skel7 M_seed SpecSeed.
Import ListNotations.
Local Open Scope R_scope.

Lemma max2 a b : np_max_from a [b] = Rmax a b.
Proof. cbn. destruct (Rltb_dec a b) as [[L ->]|[L ->]]; [now rewrite Rmax_right by lra|now rewrite Rmax_left by lra]. Qed.
Lemma min2 a b : np_min_from a [b] = Rmin a b.
Proof. cbn. destruct (Rltb_dec b a) as [[L ->]|[L ->]]; [now rewrite Rmin_right by lra|now rewrite Rmin_left by lra]. Qed.
(** ** the operators *)
Lemma combine_map_l {A B C} (f : A -> B) (l : list A) (m : list C) : combine (map f l) m = map (fun p => (f (fst p), snd p)) (combine l m).
Proof. revert m. induction l as [|a l IH]; intros [|b m]; cbn; auto. now rewrite IH. Qed.
Lemma ito_operators T x0 x1 : operators (ito_norm T x0 x1) (ito_denorm T x0 x1) T (sqrt T) x0 x1.
Proof.
  split; intros; auto. unfold ito_norm, option_map. now rewrite combine_map_l, map_map.
Qed.
Lemma sw_operators vol T x0 x1 : operators (sw_norm vol T x0 x1) (sw_denorm vol T x0 x1) T (sqrt T * vol) x0 x1.
Proof.
  split; intros; auto.
  - unfold sw_norm, option_map. now rewrite combine_map_l, map_map.
  - unfold sw_denorm, option_map, path_at. do 2 f_equal. apply map_ext. intros p. ring.
Qed.
Section Ops.
Context (norm denorm : normop) (T scale x0 x1 : R) (OP : operators norm denorm T scale x0 x1) (HT : 0 < T) (HC : 0 < scale).
Lemma denorm_norm t x : length x = length t -> let r := norm t (Some x) in denorm (fst r) (snd r) = (t, Some x).
Proof.
  intros L. rewrite (op_norm_some _ _ _ _ _ _ OP). cbn [fst snd]. rewrite (op_denorm_some _ _ _ _ _ _ OP). f_equal; [|f_equal].
  - rewrite map_map, <- (map_id t) at 1. rewrite map_id. rewrite <- (map_id t) at 2. apply map_ext. intros. field. lra.
  - revert x L. induction t as [|a t IH]; intros [|b x] L; try discriminate; cbn; auto. f_equal; [|apply IH; auto].
    unfold path_at. field. lra.
Qed.
Lemma norm_denorm s z : length z = length s -> let r := denorm s (Some z) in norm (fst r) (snd r) = (s, Some z).
Proof.
  intros L. rewrite (op_denorm_some _ _ _ _ _ _ OP). cbn [fst snd]. rewrite (op_norm_some _ _ _ _ _ _ OP). f_equal; [|f_equal].
  - rewrite map_map. rewrite <- (map_id s) at 2. apply map_ext. intros. field. lra.
  - revert z L. induction s as [|a s IH]; intros [|b z] L; try discriminate; cbn; auto. f_equal; [|apply IH; auto].
    unfold path_at. field. lra.
Qed.
Lemma pinned : norm [0; T] (Some [x0; x1]) = ([0; 1], Some [0; 0]) /\ denorm [0; 1] (Some [0; 0]) = ([0; T], Some [x0; x1]).
Proof.
  rewrite (op_norm_some _ _ _ _ _ _ OP), (op_denorm_some _ _ _ _ _ _ OP). cbn. unfold path_at. split; repeat f_equal; field; lra.
Qed.

(** *** sample_raw_seed *)
Lemma bound_lo lb o k : exists lz, bound_z arr_max norm [0; T] lb o k = (Ok lz, k) /\
  (forall s z, 0 <= s <= 1 -> elt lz (Fin z) -> elt lb (Fin (path_at scale x0 x1 s z))) /\ (elt lb (Fin (Rmin x0 x1)) -> elt lz (Fin 0)) /\
  (forall l, lb = Fin l -> lz = Fin ((l - Rmin x0 x1) / scale)) /\ (is_fin lz = is_fin lb) /\ (lz = PosInf -> lb = PosInf).
Proof.
  destruct lb as [|l|]; cbn [bound_z].
  - exists NegInf. split; [reflexivity|]. split; [easy|]. split; [easy|]. split; [discriminate|auto].
  - rewrite (op_norm_some _ _ _ _ _ _ OP). cbn [map combine fst snd]. unfold bind, values_of, lift_opt, ret, lift. cbn [snd arr_max]. rewrite max2. eexists. split; [reflexivity|].
    assert (E : Rmax ((l - x0 - 0 / T * (x1 - x0)) / scale) ((l - x0 - T / T * (x1 - x0)) / scale) = (l - Rmin x0 x1) / scale).
    { replace ((l - x0 - 0 / T * (x1 - x0)) / scale) with ((l - x0) / scale) by (field; lra).
      replace ((l - x0 - T / T * (x1 - x0)) / scale) with ((l - x1) / scale) by (field; lra).
      assert (I : 0 < / scale) by now apply Rinv_0_lt_compat.
      unfold Rmin, Rmax. destruct (Rle_dec x0 x1), (Rle_dec ((l - x0) / scale) ((l - x1) / scale)) as [D|D]; auto; unfold Rdiv in *; nra. }
    rewrite E.
    split; [|split; [|split; [|split; auto; discriminate]]].
    + cbn. intros s z Hs Hz. unfold path_at. apply Rmult_lt_compat_r with (r := scale) in Hz; auto. unfold Rdiv in Hz. rewrite Rmult_assoc, Rinv_l, Rmult_1_r in Hz by lra.
      unfold Rmin in Hz. destruct (Rle_dec x0 x1); nra.
    + cbn. intros H. unfold Rdiv. assert (0 < / scale) by now apply Rinv_0_lt_compat. nra.
    + intros ? [= <-]. reflexivity.
  - exists PosInf. split; [reflexivity|]. split; [easy|]. split; [easy|]. split; [discriminate|auto].
Qed.
Lemma bound_hi ub o k : exists uz, bound_z arr_min norm [0; T] ub o k = (Ok uz, k) /\
  (forall s z, 0 <= s <= 1 -> elt (Fin z) uz -> elt (Fin (path_at scale x0 x1 s z)) ub) /\ (elt (Fin (Rmax x0 x1)) ub -> elt (Fin 0) uz) /\
  (forall u, ub = Fin u -> uz = Fin ((u - Rmax x0 x1) / scale)).
Proof.
  destruct ub as [|l|]; cbn [bound_z].
  - exists NegInf. split; [reflexivity|]. split; [easy|]. split; [easy|]. discriminate.
  - rewrite (op_norm_some _ _ _ _ _ _ OP). cbn [map combine fst snd]. unfold bind, values_of, lift_opt, ret, lift. cbn [snd arr_min]. rewrite min2. eexists. split; [reflexivity|].
    assert (E : Rmin ((l - x0 - 0 / T * (x1 - x0)) / scale) ((l - x0 - T / T * (x1 - x0)) / scale) = (l - Rmax x0 x1) / scale).
    { replace ((l - x0 - 0 / T * (x1 - x0)) / scale) with ((l - x0) / scale) by (field; lra).
      replace ((l - x0 - T / T * (x1 - x0)) / scale) with ((l - x1) / scale) by (field; lra).
      assert (I : 0 < / scale) by now apply Rinv_0_lt_compat.
      unfold Rmin, Rmax. destruct (Rle_dec x0 x1), (Rle_dec ((l - x0) / scale) ((l - x1) / scale)) as [D|D]; auto; unfold Rdiv in *; nra. }
    rewrite E. split; [|split].
    + cbn. intros s z Hs Hz. unfold path_at. apply Rmult_lt_compat_r with (r := scale) in Hz; auto. unfold Rdiv in Hz. rewrite Rmult_assoc, Rinv_l, Rmult_1_r in Hz by lra.
      unfold Rmax in Hz. destruct (Rle_dec x0 x1); nra.
    + cbn. intros H. unfold Rdiv. assert (0 < / scale) by now apply Rinv_0_lt_compat. nra.
    + intros ? [= <-]. reflexivity.
  - exists PosInf. split; [reflexivity|]. split; [easy|]. split; [easy|]. discriminate.
Qed.
End Ops.
