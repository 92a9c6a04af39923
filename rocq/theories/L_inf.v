(** Posterior updates of jump-process rates (mjplib/inference.py). *)
From Coq Require Import Reals List ZArith Bool Arith Lia Lra Sorted.
From Verif Require Import Base Np Rng Mat M_mjp M_inf SpecMjp SpecLin SpecInf L_list L_path L_part L_path2 L_rng L_mat L_sim L_mutate L_stat.
Import ListNotations.
Local Open Scope R_scope.

(** ** masks *)
Lemma mask_sum (l : list R) (p : nat -> bool) x : length l = length x ->
  exists r, mask l (map p x) = Some r /\ fold_right Rplus 0 r = rdot (map (fun a => if p a then 1 else 0) x) l.
Proof.
  revert x; induction l as [|a l IH]; intros [|b x] H; try discriminate.
  - exists []. split; auto.
  - simpl in H. destruct (IH x) as (r & E & S1); [lia|]. simpl. rewrite E.
    eexists; split; [reflexivity|]. unfold rdot in *. simpl. rewrite <- S1. destruct (p b); simpl; ring.
Qed.

Lemma but_last_cons {A} (a : A) b l : but_last (a :: b :: l) = a :: but_last (b :: l).
Proof. reflexivity. Qed.

Lemma followers_count i : forall x, x <> [] -> exists l, followers x i = Some l /\
  (forall j, length (filter (Nat.eqb j) l) = n_jumps x i j).
Proof.
  intros x. destruct x as [|a x]; intros H; [contradiction|]. clear H. unfold followers.
  revert a. induction x as [|b x IH]; intros a.
  - exists []. split; auto.
  - destruct (IH b) as (l & E & C). cbn [map]. rewrite but_last_cons. cbn [mask]. cbn [mask] in E.
    cbn [map] in E. destruct (mask x (but_last (Nat.eqb b i :: map (fun a0 => Nat.eqb a0 i) x))) as [r|] eqn:Er; [|discriminate].
    inversion E; subst r. eexists; split; [reflexivity|]. intros j.
    change (n_jumps (a :: b :: x) i j) with ((if Nat.eqb a i && Nat.eqb b j then 1 else 0) + n_jumps (b :: x) i j)%nat.
    rewrite <- C. destruct (Nat.eqb a i); cbn [andb]; auto. cbn [filter]. rewrite (Nat.eqb_sym j b).
    destruct (Nat.eqb b j); cbn [length]; lia.
Qed.

Lemma ediff_length (t : list R) v : t <> [] -> length (ediff1d_end t v) = length t.
Proof.
  intros H. unfold ediff1d_end. rewrite app_length. destruct t as [|a t]; [contradiction|]. clear H.
  revert a; induction t as [|b t IH]; intros a; auto.
  change (np_diff (a :: b :: t)) with ((b - a) :: np_diff (b :: t)). specialize (IH b). cbn [length] in *. lia.
Qed.

Definition hold_of (s : skel R) (i : nat) : R :=
  rdot (map (fun a => if Nat.eqb a i then 1 else 0) (sk_x s)) (ediff1d_end (sk_t s) 0).

Lemma hold_times_ok s i : timed s -> hold_times s i = Some (hold_of s i).
Proof.
  intros H. destruct (timed_len_t s H) as [HL HNE]. unfold hold_times.
  destruct (mask_sum (ediff1d_end (sk_t s) 0) (fun a => Nat.eqb a i) (sk_x s)) as (r & -> & ->); auto.
  rewrite ediff_length; auto.
Qed.

Lemma timed_x_ne s : timed s -> sk_x s <> [].
Proof.
  intros H E. pose proof (td_len s H) as L1. rewrite E in L1. pose proof (td_first s H) as F.
  destruct (sk_t s); discriminate.
Qed.

Lemma update_ok dim s alp0 bet0 : timed s -> Forall (fun i => (i < dim)%nat) (sk_x s) ->
  exists alp1 bet1, update dim s alp0 bet0 = Ok (alp1, bet1) /\
   (forall i, alp1 i i = None) /\
   (forall i j, i <> j -> alp1 i j = option_map (Rplus (INR (n_jumps (sk_x s) i j))) (alp0 i j)) /\
   (forall i j, bet1 i j = option_map (Rplus (hold_of s i)) (bet0 i j)).
Proof.
  intros H HS. pose proof (timed_x_ne s H) as NE. unfold update.
  assert (E1 : forallb (fun i => is_some (followers (sk_x s) i)) (seq 0 dim) = true).
  { apply forallb_forall. intros i _. destruct (followers_count i (sk_x s) NE) as (l & -> & _). auto. }
  assert (E2 : forallb (fun a => Nat.ltb a dim) (tl (sk_x s)) = true).
  { apply forallb_forall. intros a Ha. apply Nat.ltb_lt. rewrite Forall_forall in HS. apply HS.
    destruct (sk_x s); [destruct Ha|right; auto]. }
  assert (E3 : forallb (fun i => is_some (hold_times s i)) (seq 0 dim) = true).
  { apply forallb_forall. intros i _. rewrite hold_times_ok; auto. }
  rewrite E1, E2, E3. cbn [negb]. eexists _, _. split; [reflexivity|]. repeat split.
  - intros i. rewrite Nat.eqb_refl. reflexivity.
  - intros i j N. destruct (Nat.eqb_spec i j); [contradiction|].
    destruct (followers_count i (sk_x s) NE) as (l & -> & C). unfold bincount. rewrite C.
    destruct (alp0 i j); reflexivity.
  - intros i j. rewrite hold_times_ok by auto. destruct (bet0 i j); reflexivity.
Qed.

(** ** sums over moves *)
Definition move_sum (f : nat -> nat -> R) : list nat -> R :=
  fix go x := match x with a :: ((b :: _) as r) => f a b + go r | _ => 0 end.

Lemma n_jumps_sum dim (f : nat -> nat -> R) : forall x, Forall (fun i => (i < dim)%nat) x ->
  rsum dim (fun i => rsum dim (fun j => INR (n_jumps x i j) * f i j)) = move_sum f x.
Proof.
  induction x as [|a [|b x] IH]; intros HF; try (apply rsum_0; intros; apply rsum_0; intros; simpl; ring).
  inversion HF as [|? ? Ha HF']; subst. inversion HF' as [|? ? Hb _]; subst. specialize (IH HF').
  change (move_sum f (a :: b :: x)) with (f a b + move_sum f (b :: x)). rewrite <- IH.
  transitivity (rsum dim (fun i => rsum dim (fun j => (if Nat.eqb a i then if Nat.eqb b j then f i j else 0 else 0)
       + INR (n_jumps (b :: x) i j) * f i j))).
  - apply rsum_ext. intros i _. apply rsum_ext. intros j _.
    change (n_jumps (a :: b :: x) i j) with ((if Nat.eqb a i && Nat.eqb b j then 1 else 0) + n_jumps (b :: x) i j)%nat.
    rewrite plus_INR. destruct (Nat.eqb a i), (Nat.eqb b j); simpl; ring.
  - rewrite (rsum_ext dim _ (fun i => (if Nat.eqb a i then f i b else 0) + rsum dim (fun j => INR (n_jumps (b :: x) i j) * f i j))).
    + rewrite rsum_plus. f_equal. apply (rsum_delta dim (fun i => f i b)); auto.
    + intros i _. rewrite rsum_plus. f_equal. destruct (Nat.eqb a i).
      * apply (rsum_delta dim (fun j => f i j)); auto.
      * apply rsum_0; auto.
Qed.

Lemma no_repeat_cons a x : no_repeat (a :: x) -> no_repeat x.
Proof. intros H i p q H1 H2. apply (H (S i)); auto. Qed.

Lemma n_jumps_diag x : no_repeat x -> forall i, n_jumps x i i = 0%nat.
Proof.
  induction x as [|a [|b x] IH]; intros H i; auto.
  change (n_jumps (a :: b :: x) i i) with ((if Nat.eqb a i && Nat.eqb b i then 1 else 0) + n_jumps (b :: x) i i)%nat.
  rewrite IH by (eapply no_repeat_cons; eauto). assert (a <> b) by (apply (H 0%nat); auto).
  destruct (Nat.eqb_spec a i), (Nat.eqb_spec b i); simpl; auto. congruence.
Qed.

Lemma n_jumps_total dim x : Forall (fun i => (i < dim)%nat) x ->
  rsum dim (fun i => rsum dim (fun j => INR (n_jumps x i j))) = INR (length x - 1).
Proof.
  intros H. transitivity (move_sum (fun _ _ => 1) x).
  - rewrite <- (n_jumps_sum dim _ x H). apply rsum_ext. intros i _. apply rsum_ext. intros j _. ring.
  - clear. induction x as [|a [|b x] IH]; auto. change (move_sum (fun _ _ => 1) (a :: b :: x)) with (1 + move_sum (fun _ _ => 1) (b :: x)).
    rewrite IH. replace (length (a :: b :: x) - 1)%nat with (S (length (b :: x) - 1)) by (simpl; lia). rewrite S_INR. ring.
Qed.

Lemma rdot_sum dim (g : nat -> R) x : Forall (fun i => (i < dim)%nat) x -> forall h,
  rsum dim (fun i => rdot (map (fun a => if Nat.eqb a i then 1 else 0) x) h * g i)
  = rdot (map g x) h.
Proof.
  induction 1 as [|a x Ha HF IH]; intros h.
  - apply rsum_0. intros. unfold rdot; simpl; ring.
  - destruct h as [|d h]; [apply rsum_0; intros; unfold rdot; simpl; ring|].
    change (rdot (map g (a :: x)) (d :: h)) with (g a * d + rdot (map g x) h). rewrite <- IH.
    transitivity (rsum dim (fun i => (if Nat.eqb a i then g i * d else 0) + rdot (map (fun b => if Nat.eqb b i then 1 else 0) x) h * g i)).
    + apply rsum_ext. intros i _. change (rdot (map (fun b => if Nat.eqb b i then 1 else 0) (a :: x)) (d :: h))
        with ((if Nat.eqb a i then 1 else 0) * d + rdot (map (fun b => if Nat.eqb b i then 1 else 0) x) h).
      destruct (Nat.eqb a i); ring.
    + rewrite rsum_plus. f_equal. apply (rsum_delta dim (fun i => g i * d)); auto.
Qed.

Lemma diff_sum (t : list R) a : fold_right Rplus 0 (np_diff (a :: t)) = last t a - a.
Proof.
  revert a; induction t as [|b t IH]; intros a; [simpl; lra|].
  change (np_diff (a :: b :: t)) with ((b - a) :: np_diff (b :: t)). cbn [fold_right]. rewrite IH, last_cons'. lra.
Qed.

Lemma hold_total dim s tl_ : timed s -> Forall (fun i => (i < dim)%nat) (sk_x s) -> last_jump s tl_ ->
  rsum dim (fun i => hold_of s i) = tl_.
Proof.
  intros H HS (l & El). transitivity (rsum dim (fun i => hold_of s i * 1)); [apply rsum_ext; intros; ring|].
  unfold hold_of. rewrite (rdot_sum dim (fun _ => 1) (sk_x s) HS).
  assert (E : forall x h, length x = length h -> rdot (map (fun _ : nat => 1) x) h = fold_right Rplus 0 h).
  { clear. induction x; intros [|b h] E; try discriminate; unfold rdot in *; simpl in *; auto. rewrite IHx by lia. ring. }
  destruct (timed_len_t s H) as [HL HNE]. rewrite E by (rewrite ediff_length; auto).
  pose proof (td_first s H) as F0. destruct (sk_t s) as [|a t] eqn:Et; [discriminate|]. inversion F0; subst a.
  unfold ediff1d_end. rewrite fold_right_app. cbn [fold_right]. rewrite Rplus_0_r, diff_sum.
  destruct l as [|b l]; inversion El; subst.
  - simpl. lra.
  - rewrite last_last. lra.
Qed.

(** ** conjugacy *)
Lemma loglik_ok dim s gen : wf_skel s -> Forall (fun i => (i < dim)%nat) (sk_x s) -> pos_off dim gen ->
  eval_loglik dim s gen = Ok (Some (move_sum (fun a b => ln (gen a b)) (sk_x s)
      + rdot (map (fun a => gen a a) (sk_x s)) (ediff1d_end (sk_t s) 0))).
Proof.
  intros [H NR] HS HO. unfold eval_loglik.
  replace (forallb (fun a => Nat.ltb a dim) (sk_x s)) with true.
  2:{ symmetry. apply forallb_forall. intros a Ha. apply Nat.ltb_lt. rewrite Forall_forall in HS; auto. }
  cbn [negb]. rewrite (td_len s H), Nat.eqb_refl. cbn [negb].
  replace (forallb _ _) with true.
  2:{ symmetry. apply forallb_forall. intros [a b] Hp. apply Rltb_true. cbn [fst snd].
      assert (E : exists i, nth_error (sk_x s) i = Some a /\ nth_error (sk_x s) (S i) = Some b).
      { clear -Hp. induction (sk_x s) as [|c [|d x] IH]; simpl in Hp; try contradiction.
        destruct Hp as [Hp|Hp].
        - inversion Hp; subst. exists 0%nat; auto.
        - destruct IH as (i & I1 & I2); auto. exists (S i). auto. }
      destruct E as (i & I1 & I2). apply HO.
      - rewrite Forall_forall in HS. apply HS. eapply nth_error_In; eauto.
      - rewrite Forall_forall in HS. apply HS. eapply nth_error_In; eauto.
      - eapply NR; eauto. }
  do 2 f_equal. pose proof (td_len s H) as HL. unfold ediff1d_end. clear -HL. revert HL. generalize (sk_t s) as t.
  induction (sk_x s) as [|a [|b x] IH]; intros [|u [|v t]] HL; try discriminate; try (simpl; unfold rdot; simpl; ring).
  specialize (IH (v :: t) ltac:(simpl in *; lia)).
  change (np_diff (u :: v :: t)) with ((v - u) :: np_diff (v :: t)).
  change (combine (but_last (a :: b :: x)) (tl (a :: b :: x))) with ((a, b) :: combine (but_last (b :: x)) (tl (b :: x))).
  set (C := combine (but_last (b :: x)) (tl (b :: x))) in *. set (D := np_diff (v :: t)) in *.
  set (Y := map (fun a0 => gen a0 a0) (b :: x)) in *.
  change (ln (gen a b) + (v - u) * gen a a +
    fold_right Rplus 0 (map (fun q : nat * nat * R => let '(p, dt) := q in ln (gen (fst p) (snd p)) + dt * gen (fst p) (fst p)) (combine C D))
    = ln (gen a b) + move_sum (fun a0 b0 => ln (gen a0 b0)) (b :: x) + (gen a a * (v - u) + rdot Y (D ++ [0]))).
  rewrite IH. ring.
Qed.

Definition off_sum (dim : nat) (f : nat -> nat -> R) : R :=
  rsum dim (fun i => rsum dim (fun j => if Nat.eqb i j then 0 else f i j)).

Lemma logprior_off dim gen alp bet (P : R -> Prop) (a b : mat) : pos_off dim gen ->
  (forall i, (i < dim)%nat -> alp i i = None) ->
  (forall i j, (i < dim)%nat -> (j < dim)%nat -> i <> j -> alp i j = Some (a i j) /\ bet i j = Some (b i j)) ->
  eval_logprior dim gen alp bet = off_sum dim (fun i j => (a i j - 1) * ln (gen i j) - b i j * gen i j).
Proof.
  intros HO HD HE. unfold eval_logprior, off_sum. apply rsum_ext. intros i Hi. apply rsum_ext. intros j Hj.
  destruct (Nat.eqb_spec i j) as [->|N].
  - rewrite HD by auto. reflexivity.
  - destruct (HE i j Hi Hj N) as [-> ->]. rewrite (proj2 (Rltb_true 0 (gen i j))) by (apply HO; auto). reflexivity.
Qed.

Definition num (A : omat) : mat := fun i j => nan0 (A i j).
Lemma hyper_num dim P A : hyper dim P A -> forall i j, (i < dim)%nat -> (j < dim)%nat -> i <> j -> A i j = Some (num A i j) /\ P (num A i j).
Proof. intros [_ H] i j Hi Hj N. unfold num. destruct (H i j Hi Hj N) as (a & -> & Pa). auto. Qed.

Lemma conjugacy dim s gen alp0 bet0 : wf_skel s -> Forall (fun i => (i < dim)%nat) (sk_x s) ->
  generator dim gen -> pos_off dim gen -> hyper dim (fun _ => True) alp0 -> hyper dim (fun _ => True) bet0 ->
  exists alp1 bet1 ll, update dim s alp0 bet0 = Ok (alp1, bet1) /\ eval_loglik dim s gen = Ok (Some ll) /\
    eval_logprior dim gen alp1 bet1 = eval_logprior dim gen alp0 bet0 + ll.
Proof.
  intros W HS HG HO HA HB. destruct (update_ok dim s alp0 bet0 (proj1 W) HS) as (alp1 & bet1 & EU & U1 & U2 & U3).
  exists alp1, bet1. eexists. split; [exact EU|]. split; [apply loglik_ok; auto|].
  pose proof (hyper_num _ _ _ HA) as NA. pose proof (hyper_num _ _ _ HB) as NB.
  rewrite (logprior_off dim gen alp0 bet0 (fun _ => True) (num alp0) (num bet0)); auto;
    [|apply HA|intros; split; [apply NA|apply NB]; auto].
  rewrite (logprior_off dim gen alp1 bet1 (fun _ => True) (fun i j => INR (n_jumps (sk_x s) i j) + num alp0 i j)
             (fun i j => hold_of s i + num bet0 i j)); auto.
  2:{ intros i j Hi Hj N. rewrite U2, U3 by auto. destruct (NA i j Hi Hj N) as [-> _], (NB i j Hi Hj N) as [-> _]. auto. }
  rewrite <- (n_jumps_sum dim (fun a b => ln (gen a b)) (sk_x s) HS).
  rewrite <- (rdot_sum dim (fun a => gen a a) (sk_x s) HS). unfold off_sum.
  rewrite <- !rsum_plus. apply rsum_ext. intros i Hi.
  change (rdot (map (fun a => if Nat.eqb a i then 1 else 0) (sk_x s)) (ediff1d_end (sk_t s) 0)) with (hold_of s i).
  assert (Gi : gen i i = - rsum dim (fun j => if Nat.eqb i j then 0 else gen i j)).
  { pose proof (proj2 HG i Hi) as R0. rewrite (split_at dim (gen i) i Hi) in R0.
    rewrite (rsum_ext dim (fun j => if Nat.eqb i j then 0 else gen i j) (fun j => if Nat.eqb j i then 0 else gen i j)); [lra|].
    intros j _. rewrite Nat.eqb_sym. auto. }
  rewrite Gi. replace (hold_of s i * - rsum dim (fun j => if Nat.eqb i j then 0 else gen i j))
    with (rsum dim (fun j => - (if Nat.eqb i j then 0 else hold_of s i * gen i j))).
  - rewrite <- !rsum_plus. apply rsum_ext. intros j Hj. destruct (Nat.eqb_spec i j) as [<-|N]; [|ring].
    rewrite (n_jumps_diag (sk_x s) (proj2 W)). simpl. ring.
  - rewrite <- Ropp_mult_distr_r, <- rsum_scal_l.
    rewrite (rsum_ext dim _ (fun j => (-1) * (hold_of s i * (if Nat.eqb i j then 0 else gen i j)))).
    + rewrite rsum_scal_l. ring.
    + intros j _. destruct (Nat.eqb i j); ring.
Qed.

(** ** generators from hyper-parameters *)
Lemma fill_neg_ok dim A (Q : mat) : (forall i, (i < dim)%nat -> A i i = None) ->
  (forall i j, (i < dim)%nat -> (j < dim)%nat -> i <> j -> A i j = Some (Q i j) /\ 0 < Q i j) ->
  exists G : mat, (forall i j, (i < dim)%nat -> (j < dim)%nat -> fill_neg_rows dim A i j = Some (G i j)) /\
    (forall i j, i <> j -> G i j = Q i j) /\ generator dim G /\ pos_off dim G.
Proof.
  intros HD HO. set (G := fill_diagonal Q (fun i => - nansum_row dim A i)). exists G.
  assert (GO : forall i j, i <> j -> G i j = Q i j).
  { intros i j N. unfold G, fill_diagonal. destruct (Nat.eqb_spec i j); [contradiction|auto]. }
  assert (PO : pos_off dim G) by (intros i j Hi Hj N; rewrite GO by auto; apply HO; auto).
  split; [|split; [auto|split; [|auto]]].
  - intros i j Hi Hj. unfold fill_neg_rows, G, fill_diagonal. destruct (Nat.eqb_spec i j); auto. apply HO; auto.
  - split; [intros; left; apply PO; auto|]. intros i Hi. unfold G. rewrite fill_row_sum by auto. unfold nansum_row.
    rewrite (rsum_ext dim (fun j => if Nat.eqb i j then 0 else Q i j) (fun j => nan0 (A i j))); [lra|].
    intros j Hj. destruct (Nat.eqb_spec i j) as [<-|N]; [rewrite HD by auto; auto|].
    destruct (HO i j Hi Hj N) as [-> _]. auto.
Qed.

Lemma get_ev_ok dim alp bet : hyper dim (Rlt 0) alp -> hyper dim (Rlt 0) bet ->
  exists G : mat, (forall i j, (i < dim)%nat -> (j < dim)%nat -> get_ev dim alp bet i j = Some (G i j)) /\
    generator dim G /\ pos_off dim G /\
    (forall i j a b, (i < dim)%nat -> (j < dim)%nat -> i <> j -> alp i j = Some a -> bet i j = Some b -> G i j = a / b).
Proof.
  intros HA HB. pose proof (hyper_num _ _ _ HA) as NA. pose proof (hyper_num _ _ _ HB) as NB.
  destruct (fill_neg_ok dim (fun i j => nandiv (alp i j) (bet i j)) (fun i j => num alp i j / num bet i j)) as (G & G1 & G2 & G3 & G4).
  - intros i Hi. rewrite (proj1 HA) by auto. reflexivity.
  - intros i j Hi Hj N. destruct (NA i j Hi Hj N) as [E1 P1], (NB i j Hi Hj N) as [E2 P2]. rewrite E1, E2. cbn [nandiv].
    destruct (Reqb_dec (num bet i j) 0) as [[? _]|[_ ->]]; [lra|]. split; auto. apply Rdiv_lt_0_compat; auto.
  - exists G. split; [exact G1|]. split; [exact G3|]. split; [exact G4|]. intros i j a b Hi Hj N E1 E2. rewrite G2 by auto.
    unfold num. rewrite E1, E2. reflexivity.
Qed.

Lemma get_mode_ok dim alp bet : hyper dim (Rlt 1) alp -> hyper dim (Rlt 0) bet ->
  exists G : mat, (forall i j, (i < dim)%nat -> (j < dim)%nat -> get_mode dim alp bet i j = Some (G i j)) /\
    generator dim G /\ pos_off dim G /\
    (forall i j a b, (i < dim)%nat -> (j < dim)%nat -> i <> j -> alp i j = Some a -> bet i j = Some b -> G i j = (a - 1) / b).
Proof.
  intros HA HB. pose proof (hyper_num _ _ _ HA) as NA. pose proof (hyper_num _ _ _ HB) as NB.
  destruct (fill_neg_ok dim (fun i j => nandiv (nan2 Rminus (alp i j) (Some 1)) (bet i j)) (fun i j => (num alp i j - 1) / num bet i j)) as (G & G1 & G2 & G3 & G4).
  - intros i Hi. rewrite (proj1 HA) by auto. reflexivity.
  - intros i j Hi Hj N. destruct (NA i j Hi Hj N) as [E1 P1], (NB i j Hi Hj N) as [E2 P2]. rewrite E1, E2. cbn [nandiv nan2].
    destruct (Reqb_dec (num bet i j) 0) as [[? _]|[_ ->]]; [lra|]. split; auto. apply Rdiv_lt_0_compat; lra.
  - exists G. split; [exact G1|]. split; [exact G3|]. split; [exact G4|]. intros i j a b Hi Hj N E1 E2. rewrite G2 by auto.
    unfold num. rewrite E1, E2. reflexivity.
Qed.

Lemma mapM_total {A B} G (f : A -> M B) (P : A -> B -> Prop) l :
  (forall a, In a l -> total_if G (f a) (P a)) -> total_if G (mapM f l) (Forall2 P l).
Proof.
  induction l as [|a l IH]; intros H; cbn [mapM]; [apply total_ret; constructor|].
  eapply total_bind; [apply H; left; auto|]. intros b Hb. eapply total_bind; [apply IH; intros; apply H; right; auto|].
  intros bs Hbs. apply total_ret. constructor; auto.
Qed.

Lemma nth_list_prod n : forall m i j, (i < m)%nat -> (j < n)%nat ->
  nth_error (list_prod (seq 0 m) (seq 0 n)) (i * n + j) = Some (i, j).
Proof.
  intros m. enough (HG : forall b i j, (i < m)%nat -> (j < n)%nat -> nth_error (list_prod (seq b m) (seq 0 n)) (i * n + j) = Some (b + i, j)%nat) by (intros; apply HG; auto).
  induction m as [|m IH]; intros b i j Hi Hj; [lia|]. cbn [seq list_prod].
  destruct i as [|i].
  - simpl. rewrite nth_error_app1 by (rewrite map_length, seq_length; auto). rewrite nth_error_map.
    rewrite (nth_error_nth' _ 0%nat) by (rewrite seq_length; auto). rewrite seq_nth by auto. simpl. rewrite Nat.add_0_r. auto.
  - rewrite nth_error_app2 by (rewrite map_length, seq_length; simpl; lia). rewrite map_length, seq_length.
    replace (S i * n + j - n)%nat with (i * n + j)%nat by (simpl; lia). rewrite IH by lia. do 2 f_equal. lia.
Qed.

Lemma sample_param_ok dim alp bet : hyper dim (Rlt 0) alp -> hyper dim (Rlt 0) bet ->
  total (sample_param dim alp bet) (fun g => exists G : mat,
    (forall i j, (i < dim)%nat -> (j < dim)%nat -> g i j = Some (G i j)) /\ generator dim G /\ pos_off dim G).
Proof.
  intros HA HB. pose proof (hyper_num _ _ _ HA) as NA. pose proof (hyper_num _ _ _ HB) as NB.
  apply total_any. unfold sample_param.
  assert (IN : forall p, In p (list_prod (seq 0 dim) (seq 0 dim)) -> (fst p < dim)%nat /\ (snd p < dim)%nat).
  { intros [i j] H. apply in_prod_iff in H as [H1 H2]. apply in_seq in H1, H2. simpl; lia. }
  replace (existsb _ _) with false.
  2:{ symmetry. apply not_true_is_false. intros E. apply existsb_exists in E as ([i j] & Hp & E).
      destruct (IN _ Hp) as [Hi Hj]. cbn [fst snd] in *. destruct (Nat.eq_dec i j) as [->|N].
      - rewrite (proj1 HA), (proj1 HB) in E by auto. discriminate.
      - destruct (NA i j Hi Hj N) as [E1 P1], (NB i j Hi Hj N) as [E2 P2]. rewrite E1, E2 in E. cbn [neg_entry] in E.
        rewrite !(proj2 (Rltb_false _ 0)) in E by lra. discriminate. }
  eapply total_bind; [apply mapM_total with (P := fun p g => fst p = snd p /\ g = None \/ fst p <> snd p /\ exists v, g = Some v /\ 0 < v)|].
  - intros [i j] Hp. destruct (IN _ Hp) as [Hi Hj]. cbn [fst snd] in *. destruct (Nat.eq_dec i j) as [->|N].
    + rewrite (proj1 HA) by auto. cbn [gamma_entry]. apply total_ret. auto.
    + destruct (NA i j Hi Hj N) as [-> P1], (NB i j Hi Hj N) as [-> P2]. cbn [gamma_entry].
      eapply total_bind; [apply total_draw_r|]. intros v Hv. apply total_ret. right. split; auto. exists v. split; auto.
      simpl in Hv. apply Hv; auto. apply Rdiv_lt_0_compat; lra.
  - intros l Hl. apply total_ret. 
    assert (E : forall i j, (i < dim)%nat -> (j < dim)%nat ->
      i = j /\ nth (i * dim + j) l None = None \/ i <> j /\ exists v, nth (i * dim + j) l None = Some v /\ 0 < v).
    { intros i j Hi Hj. pose proof (nth_list_prod dim dim i j Hi Hj) as E.
      assert (F2 : forall (A B : Type) (P : A -> B -> Prop) l m k a, Forall2 P l m -> nth_error l k = Some a -> exists b, nth_error m k = Some b /\ P a b).
      { clear. intros A B P l m k a F. revert k. induction F; intros [|k] E; simpl in *; try discriminate.
        - inversion E; subst; eauto.
        - eauto. }
      destruct (F2 _ _ _ _ _ _ _ Hl E) as (g & Eg & Pg). cbn [fst snd] in Pg.
      rewrite (nth_error_nth _ _ None Eg). exact Pg. }
    destruct (fill_neg_ok dim (fun i j => nth (i * dim + j) l None) (fun i j => nan0 (nth (i * dim + j) l None))) as (G & G1 & _ & G3 & G4).
    + intros i Hi. destruct (E i i Hi Hi) as [[_ H]|[H _]]; [auto|contradiction].
    + intros i j Hi Hj N. destruct (E i j Hi Hj) as [[H _]|[_ (v & -> & Pv)]]; [contradiction|]. auto.
    + exists G. auto.
Qed.

(** ** the mode *)
Lemma ln_le_sub1 x : 0 < x -> ln x <= x - 1.
Proof.
  intros H. pose proof (exp_ineq1_le (ln x)) as E. rewrite exp_ln in E by auto. lra.
Qed.
Lemma gamma_mode a b x : 1 < a -> 0 < b -> 0 < x ->
  (a - 1) * ln x - b * x <= (a - 1) * ln ((a - 1) / b) - b * ((a - 1) / b).
Proof.
  intros Ha Hb Hx. set (m := (a - 1) / b). assert (Hm : 0 < m) by (apply Rdiv_lt_0_compat; lra).
  assert (Eb : b * m = a - 1) by (unfold m; field; lra).
  pose proof (ln_le_sub1 (x / m) ltac:(apply Rdiv_lt_0_compat; lra)) as L1.
  unfold Rdiv in L1. rewrite ln_mult, ln_Rinv in L1 by (auto; apply Rinv_0_lt_compat; auto).
  assert (E2 : (a - 1) * (x * / m) = b * x) by (rewrite <- Eb; field; lra).
  assert ((a - 1) * (ln x + - ln m) <= (a - 1) * (x * / m - 1)) by (apply Rmult_le_compat_l; lra).
  lra.
Qed.

Lemma mode_maximal dim alp bet : hyper dim (Rlt 1) alp -> hyper dim (Rlt 0) bet ->
  exists G : mat, (forall i j, (i < dim)%nat -> (j < dim)%nat -> get_mode dim alp bet i j = Some (G i j)) /\
    forall gen, pos_off dim gen -> eval_logprior dim gen alp bet <= eval_logprior dim G alp bet.
Proof.
  intros HA HB. destruct (get_mode_ok dim alp bet HA HB) as (G & G1 & G2 & G3 & G4). exists G. split; auto.
  intros gen HO. pose proof (hyper_num _ _ _ HA) as NA. pose proof (hyper_num _ _ _ HB) as NB.
  rewrite !(logprior_off dim _ alp bet (fun _ => True) (num alp) (num bet)); auto;
    try apply HA; try (intros; split; [apply NA|apply NB]; auto).
  unfold off_sum. apply rsum_le. intros i Hi. apply rsum_le. intros j Hj. destruct (Nat.eqb_spec i j) as [E|N]; [lra|].
  destruct (NA i j Hi Hj N) as [E1 P1], (NB i j Hi Hj N) as [E2 P2].
  rewrite (G4 i j _ _ Hi Hj N E1 E2). apply gamma_mode; auto.
Qed.
