(** Holding times of update as integrals. *)
From Coq Require Import Reals List ZArith Bool Arith Lia Lra Sorted.
From Coquelicot Require Import Hierarchy RInt.
From Verif Require Import Base Np Rng Mat M_mjp M_inf SpecMjp SpecLin SpecInf L_list L_path L_part L_path2 L_rng L_mat L_occ L_inf L_demo L_lindemo.
Import ListNotations.
Local Open Scope R_scope.

Lemma occ_closed : forall t x st a,
  length t = length x -> StronglySorted Rlt (a :: t) ->
  forall i0 (f : R -> nat),
  (forall u, a <= u < last t a -> look (Some i0) (combine t x) u = Some (f u)) ->
  is_RInt (fun u => if Nat.eqb (f u) st then 1 else 0) a (last t a)
    (rdot (map (fun y => if Nat.eqb y st then 1 else 0) (i0 :: x)) (np_diff (a :: t) ++ [0])).
Proof.
  intros t; induction t as [|b t IH]; intros x st a HL HS i0 f Hf.
  - destruct x; [|discriminate]. cbn [last]. unfold rdot; simpl.
    replace ((if Nat.eqb i0 st then 1 else 0) * 0 + 0) with 0 by ring.
    apply (is_RInt_point (V := R_NormedModule)).
  - destruct x as [|i1 x]; [discriminate|]. rewrite last_cons' in *.
    inversion HS as [|? ? HS' F]; subst. inversion F as [|? ? Hab Fb]; subst.
    assert (Hbl : b <= last t b).
    { inversion HS' as [|? ? _ Fb']; subst. clear -Fb'. destruct t as [|c t]; [simpl; lra|].
      rewrite Forall_forall in Fb'. left. apply Fb'. clear. rewrite last_cons'. revert c. induction t as [|d t IH]; intros c; [left; auto|].
      rewrite last_cons'. right. apply IH. }
    replace (rdot (map (fun y => if Nat.eqb y st then 1 else 0) (i0 :: i1 :: x)) (np_diff (a :: b :: t) ++ [0]))
      with (Rplus ((b - a) * (if Nat.eqb i0 st then 1 else 0))
        (rdot (map (fun y => if Nat.eqb y st then 1 else 0) (i1 :: x)) (np_diff (b :: t) ++ [0]))).
    2:{ destruct t; unfold rdot; simpl; lra. }
    apply (is_RInt_Chasles (V := R_NormedModule) _ a b (last t b)).
    + apply (is_RInt_ext (V := R_NormedModule)) with (f := fun _ => if Nat.eqb i0 st then 1 else 0).
      * intros u Hu. rewrite Rmin_left, Rmax_right in Hu by lra.
        specialize (Hf u ltac:(lra)). simpl in Hf.
        destruct (Rleb_dec b u) as [[? ?]|[_ Q]]; [lra|]. rewrite Q in Hf. inversion Hf; subst. reflexivity.
      * apply (is_RInt_const (V := R_NormedModule) a b (if Nat.eqb i0 st then 1 else 0)).
    + apply IH; auto.
      intros u Hu. specialize (Hf u ltac:(lra)). simpl in Hf.
      destruct (Rleb_dec b u) as [[_ Q]|[? ?]]; [|lra]. rewrite Q in Hf. auto.
Qed.

Lemma hold_integral s i tl_ (f : R -> nat) : timed s -> last_jump s tl_ ->
  (forall u, 0 <= u < tl_ -> state_at s u (f u)) ->
  is_RInt (fun u => if Nat.eqb (f u) i then 1 else 0) 0 tl_ (hold_of s i).
Proof.
  intros H (l & El) Hf. pose proof (td_first s H) as F0. pose proof (td_sorted s H) as SS. pose proof (td_len s H) as HL.
  assert (Hf' : forall u, 0 <= u < tl_ -> look None (jumps s) u = Some (f u)).
  { intros u Hu. apply state_at_look; auto. apply SS_lt_le; auto. }
  unfold hold_of, ediff1d_end, jumps in *. destruct (sk_t s) as [|a t] eqn:Et; [discriminate|]. inversion F0; subst a.
  destruct (sk_x s) as [|i0 x] eqn:Ex; [discriminate|].
  assert (EL : last t 0 = tl_).
  { destruct l as [|b l]; inversion El; subst; [reflexivity|]. apply last_last. }
  rewrite <- EL in *. apply occ_closed; auto.
  intros u Hu. specialize (Hf' u Hu). simpl in Hf'.
  destruct (Rleb_dec 0 u) as [[_ Q]|[? ?]]; [|lra]. rewrite Q in Hf'. exact Hf'.
Qed.

Lemma last_jump_ex s : timed s -> exists t, last_jump s t /\ 0 <= t < sk_fin s.
Proof.
  intros H. destruct (timed_len_t s H) as [_ HNE]. destruct (exists_last HNE) as (l & t & E). exists t. split; [exists l; auto|].
  split; [|apply (td_below s H); rewrite E; apply in_or_app; right; left; auto].
  pose proof (td_first s H) as F0. pose proof (td_sorted s H) as SS. rewrite E in *.
  destruct l as [|a l]; simpl in F0; inversion F0; subst; [lra|]. inversion SS as [|? ? _ F]; subst.
  rewrite Forall_forall in F. left. apply F. apply in_or_app; right; left; auto.
Qed.

Lemma update_stats dim s alp0 bet0 : wf_skel s -> Forall (fun i => (i < dim)%nat) (sk_x s) ->
  exists alp1 bet1 (hold : nat -> R) tl_, update dim s alp0 bet0 = Ok (alp1, bet1) /\ last_jump s tl_ /\ 0 <= tl_ < sk_fin s /\
   (forall i, alp1 i i = None) /\
   (forall i j, i <> j -> alp1 i j = option_map (Rplus (INR (n_jumps (sk_x s) i j))) (alp0 i j)) /\
   (forall i j, bet1 i j = option_map (Rplus (hold i)) (bet0 i j)) /\
   (forall i (f : R -> nat), (forall u, 0 <= u < tl_ -> state_at s u (f u)) ->
      is_RInt (fun u => if Nat.eqb (f u) i then 1 else 0) 0 tl_ (hold i)) /\
   rsum dim (fun i => rsum dim (fun j => INR (n_jumps (sk_x s) i j))) = INR (length (sk_x s) - 1) /\
   rsum dim hold = tl_.
Proof.
  intros W HS. destruct (update_ok dim s alp0 bet0 (proj1 W) HS) as (alp1 & bet1 & E & E1 & E2 & E3).
  destruct (last_jump_ex s (proj1 W)) as (t & LJ & Ht).
  exists alp1, bet1, (hold_of s), t. split; [auto|]. split; [auto|]. split; [auto|]. split; [auto|]. split; [auto|]. split; [auto|].
  split; [|split].
  - intros i f Hf. apply hold_integral; auto. apply W.
  - apply n_jumps_total; auto.
  - apply (hold_total dim s t); auto. apply W.
Qed.

(** the time after the last jump is lost *)
Lemma update_loses dim s (alp0 bet0 : omat) : wf_skel s -> Forall (fun i => (i < dim)%nat) (sk_x s) ->
  exists alp1 bet1 (hold : nat -> R) tl_, update dim s alp0 bet0 = Ok (alp1, bet1) /\
   (forall i j, bet1 i j = option_map (Rplus (hold i)) (bet0 i j)) /\
   last_jump s tl_ /\ rsum dim hold = tl_ /\ tl_ < sk_fin s.
Proof.
  intros W HS. destruct (update_stats dim s alp0 bet0 W HS) as (a & b & h & t & E & LJ & Ht & _ & _ & E3 & _ & _ & E4).
  exists a, b, h, t. split; [auto|]. split; [auto|]. split; [auto|]. split; [auto|]. apply Ht.
Qed.

Lemma rdot_snoc x v : forall (d : list R) a, length x = length d -> rdot (x ++ [v]) (d ++ [a]) = rdot x d + v * a.
Proof.
  induction x as [|b x IH]; intros [|c d] a H; try discriminate; [unfold rdot; simpl; ring|].
  change (b * c + rdot (x ++ [v]) (d ++ [a]) = b * c + rdot x d + v * a). rewrite IH by (simpl in H; lia). ring.
Qed.
Lemma update_vs_est s i tl_ v : wf_skel s -> last_jump s tl_ -> est_stat s [i] = Ok [v] ->
  forall f, final_state s f -> v * sk_fin s = hold_of s i + (if Nat.eqb f i then sk_fin s - tl_ else 0).
Proof.
  intros [H NR] LJ E f (x & Ex). destruct LJ as (l & El). unfold est_stat in E. rewrite El, last_opt_app in E.
  assert (E1 : rdot (map (fun y => if Nat.eqb y i then 1 else 0) (sk_x s)) (ediff1d_end (sk_t s) (sk_fin s - tl_)) / sk_fin s = v) by (rewrite El; injection E; auto). clear E. unfold ediff1d_end in E1.
  pose proof (td_below s H tl_ ltac:(rewrite El; apply in_or_app; right; left; auto)) as B.
  pose proof (timed_pos s H) as P. unfold hold_of, ediff1d_end.
  assert (LD : length (np_diff (sk_t s)) = length x).
  { destruct (timed_len_t s H) as [HL HNE]. pose proof (ediff_length (sk_t s) 0 HNE) as EL. unfold ediff1d_end in EL.
    rewrite app_length in EL. cbn [length] in EL. rewrite (td_len s H), Ex, app_length in EL. cbn [length] in EL. lia. }
  assert (LM : length (map (fun y => if Nat.eqb y i then 1 else 0) x) = length (np_diff (sk_t s))) by (rewrite map_length; auto).
  rewrite Ex, map_app in *. cbn [map] in *. rewrite (rdot_snoc _ _ _ _ LM) in E1. rewrite (rdot_snoc _ _ _ _ LM).
  rewrite <- E1. destruct (Nat.eqb f i); field; lra.
Qed.

(** demo hyper-parameters *)
Definition hyp2 (v : R) : omat := fun i j => if Nat.eqb i j then None else Some v.
Lemma hyp2_ok dim (P : R -> Prop) v : P v -> hyper dim P (hyp2 v).
Proof.
  intros H. split; [intros i _; unfold hyp2; rewrite Nat.eqb_refl; auto|].
  intros i j _ _ N. exists v. unfold hyp2. destruct (Nat.eqb_spec i j); [contradiction|auto].
Qed.
Lemma demo_states : Forall (fun i => (i < 2)%nat) (sk_x demo).
Proof. simpl. repeat constructor. Qed.
Lemma loglik_value dim s gen : wf_skel s -> Forall (fun i => (i < dim)%nat) (sk_x s) -> pos_off dim gen ->
  exists hold : nat -> R, (forall tl_ i (f : R -> nat), last_jump s tl_ -> (forall u, 0 <= u < tl_ -> state_at s u (f u)) ->
      is_RInt (fun u => if Nat.eqb (f u) i then 1 else 0) 0 tl_ (hold i)) /\
  eval_loglik dim s gen = Ok (Some (rsum dim (fun i => rsum dim (fun j => INR (n_jumps (sk_x s) i j) * ln (gen i j)))
                                    + rsum dim (fun i => hold i * gen i i))).
Proof.
  intros W HS HO. exists (hold_of s). split.
  - intros t i f LJ Hf. apply hold_integral; auto. apply W.
  - rewrite (loglik_ok dim s gen W HS HO). do 2 f_equal. rewrite (n_jumps_sum dim (fun a b => ln (gen a b)) (sk_x s) HS).
    unfold hold_of. rewrite (rdot_sum dim (fun a => gen a a) (sk_x s) HS). reflexivity.
Qed.

(** what update credits, next to est_stat: only the final sojourn differs *)
Lemma update_est dim s (alp0 bet0 : omat) i v f tl_ : wf_skel s -> Forall (fun i => (i < dim)%nat) (sk_x s) ->
  est_stat s [i] = Ok [v] -> final_state s f -> last_jump s tl_ ->
  exists alp1 bet1, update dim s alp0 bet0 = Ok (alp1, bet1) /\
   (forall j, bet1 i j = option_map (Rplus (v * sk_fin s - (if Nat.eqb f i then sk_fin s - tl_ else 0))) (bet0 i j)).
Proof.
  intros W HS E Hf LJ. destruct (update_ok dim s alp0 bet0 (proj1 W) HS) as (alp1 & bet1 & E1 & _ & _ & E3).
  exists alp1, bet1. split; auto. intros j. rewrite E3. rewrite (update_vs_est s i tl_ v W LJ E f Hf). f_equal. f_equal. ring.
Qed.
Lemma horizon_refuted : exists (s : skel R) alp1 bet1 (hold : nat -> R), wf_skel s /\
  Forall (fun i => (i < 2)%nat) (sk_x s) /\ update 2 s (hyp2 1) (hyp2 1) = Ok (alp1, bet1) /\
  (forall i j, bet1 i j = option_map (Rplus (hold i)) (hyp2 1 i j)) /\ rsum 2 hold <> sk_fin s.
Proof.
  destruct (update_loses 2 demo (hyp2 1) (hyp2 1) demo_wf demo_states) as (a & b & h & t & E & E3 & _ & S1 & L).
  exists demo, a, b, h. rewrite S1. repeat split; auto using demo_states; try (apply demo_wf). lra.
Qed.
