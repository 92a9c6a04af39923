(** Cutting and pasting anchorages; demonstrations. *)
From Coq Require Import Reals List Bool Arith ZArith Lia Lra Sorted.
From Coq Require Import Floats.SpecFloat.
From Verif Require Import Base Np Rng Mat M_mjp M_models M_sw SpecSw L_list L_sw L_sw9 L_f64.
Import ListNotations.
Local Open Scope R_scope.

Lemma starts_nth segs : forall e k p, nth_error (starts e segs) k = Some p -> nth_error segs k = Some (snd p).
Proof. induction segs as [|s r IH]; intros e [|k] p H; simpl in H; try discriminate; [inversion H; auto|]. simpl. eapply IH; eauto. Qed.
Lemma starts_next segs : forall e k p q, nth_error (starts e segs) k = Some p -> nth_error (starts e segs) (S k) = Some q -> fst q = snd (snd p).
Proof.
  induction segs as [|s r IH]; intros e [|k] p q H1 H2; try discriminate.
  - cbn in H1. inversion H1; subst. destruct r; cbn in H2; inversion H2; auto.
  - cbn [starts nth_error] in H1. change (nth_error (starts (snd s) r) (S k) = Some q) in H2. eapply IH; eauto.
Qed.
Lemma nth_error_map_inv {A B} (f : A -> B) l k b : nth_error (map f l) k = Some b -> exists a, nth_error l k = Some a /\ b = f a.
Proof. revert k; induction l as [|x l IH]; intros [|k] H; simpl in H; try discriminate; [injection H as <-; exists x; auto|]. apply IH in H as (a & H & E). exists a. auto. Qed.
Lemma split_facts {Z} (z : list Z) (h : anchorage) new_t : hd_error (a_t h) = Some 0 -> z <> [] -> length (a_t h) = S (length z) -> length (a_y h) = S (length z) -> length (a_v h) = S (length z) ->
  let '(zp, hp) := split_hidden z h new_t in
  paste_hidden zp hp = Ok (z, h) /\ length zp = length hp /\ length hp = S (length (filter (fun u => np_isin u new_t) (pyslice (a_t h) 1 (-1)))) /\
  (forall k zz hh, nth_error zp k = Some zz -> nth_error hp k = Some hh -> zz <> [] /\ length (a_t hh) = S (length zz) /\ length (a_y hh) = S (length zz) /\ length (a_v hh) = S (length zz) /\ hd_error (a_t hh) = Some 0) /\
  (forall k h1 h2, nth_error hp k = Some h1 -> nth_error hp (S k) = Some h2 -> last_opt (a_y h1) = hd_error (a_y h2) /\ last_opt (a_v h1) = hd_error (a_v h2) /\ last_opt (a_y h1) <> None).
Proof.
  intros H0 HZ L1 L2 L3. pose proof (anch_of_ents h ltac:(congruence) ltac:(congruence)) as EH. destruct (ents h) as [|e K] eqn:EK.
  { rewrite <- EH in L1. discriminate. }
  assert (TE : tm e = 0). { rewrite <- EH in H0. simpl in H0. inversion H0; auto. }
  assert (LK : length z = length K). { rewrite <- EH in L1. simpl in L1. rewrite map_length in L1. lia. }
  assert (NK : K <> []) by (intros ->; destruct z; [congruence|discriminate]).
  rewrite <- EH. destruct (blocks_exist (in_cond new_t) K NK) as (segs & NS & -> & HM).
  pose proof (roundtrip_ents z e (flat segs) new_t TE LK) as RT. 
  assert (CN : length (snd (split_hidden z (anch_of (e :: flat segs)) new_t)) = S (length (filter (fun u => np_isin u new_t) (pyslice (a_t (anch_of (e :: flat segs))) 1 (-1))))).
  { unfold split_hidden. cbn [snd]. rewrite map_length, combine_length. unfold break_r. cbn [tl length]. rewrite app_length, map_length. cbn [length].
    replace (length (filter (fun p => np_isin (snd p) new_t) (combine (seq 1 (length (a_t (anch_of (e :: flat segs))) - 2)) (pyslice (a_t (anch_of (e :: flat segs))) 1 (-1)))))
      with (length (filter (fun u => np_isin u new_t) (pyslice (a_t (anch_of (e :: flat segs))) 1 (-1)))); [lia|].
    set (l := pyslice _ _ _). replace (length (a_t (anch_of (e :: flat segs))) - 2)%nat with (length l).
    - generalize 1%nat. clear. induction l as [|a l IH]; intros i; auto. cbn [length seq combine filter snd]. destruct (np_isin a new_t); cbn [length]; rewrite (IH (S i)); auto.
    - subst l. cbn [anch_of a_t map]. rewrite slice_inner_removelast, removelast_len, !map_length. cbn [length]. rewrite map_length. lia. }
  rewrite (split_blocks z e segs new_t NS HM LK) in RT, CN |- *. split; [exact RT|]. cbn [snd] in CN.
  assert (LH : length (zparts z segs) = length (hparts e segs)).
  { rewrite hparts_starts, map_length. clear. revert z e. induction segs; intros; simpl; auto. }
  split; [exact LH|]. split; [exact CN|]. split.
  - intros k zz hh Hz Hh. rewrite hparts_starts in Hh. apply nth_error_map_inv in Hh as (p & Hp & ->). pose proof (starts_nth _ _ _ _ Hp) as Hs.
    pose proof (zparts_sizes segs z LK) as ZS. assert (Lz : length zz = (length (fst (snd p)) + 1)%nat).
    { clear -ZS Hz Hs. revert k Hz Hs. induction ZS; intros [|k] Hz Hs; simpl in *; try discriminate; eauto. inversion Hz; inversion Hs; subst; auto. }
    unfold shift_by. cbn [a_t a_y a_v map]. cbn [length]. rewrite !map_length, !app_length. cbn [length hd_error]. repeat split; try lia.
    + intros ->. simpl in Lz. lia.
    + f_equal. ring.
  - intros k h1 h2 Hk Hk'. rewrite hparts_starts in Hk, Hk'. apply nth_error_map_inv in Hk as (p & Hp & ->). apply nth_error_map_inv in Hk' as (q & Hq & ->).
    pose proof (starts_next _ _ _ _ _ Hp Hq) as E. unfold shift_by. cbn [a_y a_v]. rewrite app_comm_cons, !map_app. cbn [map]. rewrite !last_opt_app. cbn [hd_error]. rewrite E. repeat split; discriminate.
Qed.

(** ** binary64 *)
Definition demo_f64 : anch F64 := mk_anch [n0; f_03; f_09; f_one] [0; 0; 0; 0]%nat [n0; n0; n0; n0].
Lemma split_binary64 : exists (h h' : anch F64) (z : list nat) (b u : F64),
  (* four increasing times starting at 0, one seed per interval; b and u are inner times *)
  a_t h = [n0; b; u; f_one] /\ nltb n0 b = true /\ nltb b u = true /\ nltb u f_one = true /\ length z = 3%nat /\ length (a_y h) = 4%nat /\ length (a_v h) = 4%nat /\
  Forall (fun f => valid_binary 53 1024 f = true) (a_t h) /\
  (let '(zp, hp) := split_hidden z h [b] in paste_hidden zp hp = Ok (z, h')) /\
  (* u is lost, and the next split at u finds one section where a fresh augmentation has two *)
  np_isin u (a_t h) = true /\ np_isin u (a_t h') = false /\ length (snd (split_hidden z h' [u])) = 1%nat /\ length (snd (split_hidden z h [u])) = 2%nat.
Proof.
  exists demo_f64, (mk_anch [n0; f_03; S754_finite false 8106479329266894 (-53); f_one] [0; 0; 0; 0]%nat [n0; n0; n0; n0]), [0; 1; 2]%nat, f_03, f_09.
  split; [reflexivity|]. do 3 (split; [vm_compute; reflexivity|]). do 3 (split; [reflexivity|]). split; [repeat constructor; vm_compute; reflexivity|]. repeat split; vm_compute; reflexivity.
Qed.
