(** The draws behind a sampled generator. *)
From Coq Require Import Reals List Bool Arith Lia Lra.
From Coquelicot Require Import RInt Hierarchy.
From Verif Require Import Base Np Rng Mat M_mjp M_inf M_sw SpecMjp SpecInf SpecSw L_rng L_inf L_inf2 L_sw10.
Import ListNotations.
Local Open Scope R_scope.

Section Draws.
  Variables (alp bet : omat).
  Notation entry := (fun p : nat * nat => gamma_entry (alp (fst p) (snd p)) (bet (fst p) (snd p))).
  Definition drawn (p : nat * nat) : nat := match alp (fst p) (snd p), bet (fst p) (snd p) with Some _, Some _ => 1 | _, _ => 0 end%nat.
  Definition before (l : list (nat * nat)) (n : nat) : nat := fold_right Nat.add 0%nat (map drawn (firstn n l)).
  Lemma entries : forall l o k, exists out, mapM entry l o k = (Ok out, (k + before l (length l))%nat) /\ length out = length l /\
    forall n p a b, nth_error l n = Some p -> alp (fst p) (snd p) = Some a -> bet (fst p) (snd p) = Some b ->
      nth_error out n = Some (Some (ora_r o (k + before l n) (DGamma a (1 / b)))).
  Proof.
    induction l as [|q l IH]; intros o k.
    - exists []. split; [cbn; rewrite Nat.add_0_r; reflexivity|]. split; [reflexivity|]. intros [|n]; discriminate.
    - destruct (IH o (k + drawn q)%nat) as (out & E & EL & H).
      assert (Q : exists v, entry q o k = (Ok v, (k + drawn q)%nat) /\ forall a b, alp (fst q) (snd q) = Some a -> bet (fst q) (snd q) = Some b -> v = Some (ora_r o k (DGamma a (1 / b)))).
      { unfold gamma_entry, drawn. destruct (alp (fst q) (snd q)) as [a|] eqn:EA; [destruct (bet (fst q) (snd q)) as [b|] eqn:EB|].
        - eexists. split; [cbn; rewrite Nat.add_1_r; reflexivity|]. intros ? ? [= <-] [= <-]. reflexivity.
        - exists None. split; [cbn; rewrite Nat.add_0_r; reflexivity|]. intros ? ? _ [=].
        - exists None. split; [cbn; rewrite Nat.add_0_r; reflexivity|]. intros ? ? [=]. }
      destruct Q as (v & Qv & Hv). exists (v :: out). split; [|split].
      + cbn [mapM]. unfold bind at 1. rewrite Qv. unfold bind at 1. rewrite E. unfold ret. apply f_equal. unfold before. cbn [length firstn map fold_right]. rewrite Nat.add_assoc. reflexivity.
      + cbn. rewrite EL. reflexivity.
      + intros [|n] p a b Hp Ha Hb.
        * injection Hp as <-. cbn. rewrite Nat.add_0_r. f_equal. apply Hv; assumption.
        * cbn [nth_error] in *. rewrite (H n p a b Hp Ha Hb). unfold before. cbn [length firstn map fold_right]. rewrite Nat.add_assoc. reflexivity.
  Qed.
  Lemma before_mono : forall l m n, (m <= n)%nat -> (before l m <= before l n)%nat.
  Proof.
    induction l as [|q l IH]; intros m n H; [unfold before; rewrite !firstn_nil; apply le_n|]. destruct m as [|m]; [cbn; lia|]. destruct n as [|n]; [lia|].
    unfold before in *. cbn. specialize (IH m n ltac:(lia)). lia.
  Qed.
  Lemma before_next : forall l n p, nth_error l n = Some p -> before l (S n) = (before l n + drawn p)%nat.
  Proof.
    induction l as [|q l IH]; intros [|n] p Hp; try discriminate; [injection Hp as <-; unfold before; cbn; lia|]. cbn [nth_error] in Hp. unfold before in *. specialize (IH n p Hp).
    change (firstn (S (S n)) (q :: l)) with (q :: firstn (S n) l). change (firstn (S n) (q :: l)) with (q :: firstn n l). cbn [map fold_right]. rewrite IH. lia.
  Qed.
  Lemma before_inj : forall l m n p q, nth_error l m = Some p -> nth_error l n = Some q -> drawn p = 1%nat -> drawn q = 1%nat -> before l m = before l n -> m = n.
  Proof.
    intros l m n p q Hp Hq Dp Dq E. destruct (Nat.lt_trichotomy m n) as [H|[H|H]]; [|exact H|]; exfalso.
    - pose proof (before_mono l (S m) n H). rewrite (before_next l m p Hp) in *. lia.
    - pose proof (before_mono l (S n) m H). rewrite (before_next l n q Hq) in *. lia.
  Qed.
End Draws.

Lemma sample_param_draws : forall dim alp bet o k, hyper dim (Rlt 0) alp -> hyper dim (Rlt 0) bet ->
  exists g k' (rank : nat -> nat -> nat), sample_param dim alp bet o k = (Ok g, k') /\
    (forall i j i' j', (i < dim)%nat -> (j < dim)%nat -> i <> j -> (i' < dim)%nat -> (j' < dim)%nat -> i' <> j' -> rank i j = rank i' j' -> i = i' /\ j = j') /\
    forall i j a b, (i < dim)%nat -> (j < dim)%nat -> i <> j -> alp i j = Some a -> bet i j = Some b ->
      (k <= rank i j < k')%nat /\ g i j = Some (ora_r o (rank i j) (DGamma a (1 / b))).
Proof.
  intros dim alp bet o k HA HB. pose proof (hyper_num _ _ _ HA) as NA. pose proof (hyper_num _ _ _ HB) as NB.
  unfold sample_param. set (idx := list_prod (seq 0 dim) (seq 0 dim)).
  assert (IN : forall p, In p idx -> (fst p < dim)%nat /\ (snd p < dim)%nat).
  { intros [i j] H. apply in_prod_iff in H as [H1 H2]. apply in_seq in H1, H2. simpl; lia. }
  replace (existsb _ _) with false.
  2:{ symmetry. apply not_true_is_false. intros E. apply existsb_exists in E as ([i j] & Hp & E).
      destruct (IN _ Hp) as [Hi Hj]. cbn [fst snd] in *. destruct (Nat.eq_dec i j) as [->|N].
      - rewrite (proj1 HA), (proj1 HB) in E by auto. discriminate.
      - destruct (NA i j Hi Hj N) as [E1 P1], (NB i j Hi Hj N) as [E2 P2]. rewrite E1, E2 in E. cbn [neg_entry] in E.
        rewrite !(proj2 (Rltb_false _ 0)) in E by lra. discriminate. }
  destruct (entries alp bet idx o k) as (out & E & EL & H).
  assert (D1 : forall i j, (i < dim)%nat -> (j < dim)%nat -> i <> j -> drawn alp bet (i, j) = 1%nat).
  { intros i j Hi Hj N. unfold drawn; cbn [fst snd]. destruct (NA i j Hi Hj N) as [-> _], (NB i j Hi Hj N) as [-> _]. reflexivity. }
  exists (fill_neg_rows dim (fun i j => nth (i * dim + j) out None)), (k + before alp bet idx (length idx))%nat, (fun i j => k + before alp bet idx (i * dim + j))%nat.
  split; [unfold bind; rewrite E; reflexivity|]. split.
  - intros i j i' j' Hi Hj N Hi' Hj' N' ER.
    assert (EE : (i * dim + j = i' * dim + j')%nat).
    { apply (before_inj alp bet idx _ _ (i, j) (i', j')); [apply nth_list_prod; assumption|apply nth_list_prod; assumption|apply D1; assumption|apply D1; assumption|lia]. }
    pose proof (nth_list_prod dim dim i j Hi Hj) as X1. pose proof (nth_list_prod dim dim i' j' Hi' Hj') as X2. rewrite EE in X1. rewrite X1 in X2. injection X2 as -> ->. split; reflexivity.
  - intros i j a b Hi Hj N Ha Hb. pose proof (nth_list_prod dim dim i j Hi Hj) as X. fold idx in X. split.
    + split; [lia|]. pose proof (before_next alp bet idx _ _ X) as Y. rewrite D1 in Y by assumption.
      assert (LT : (i * dim + j < length idx)%nat) by (apply nth_error_Some; rewrite X; discriminate).
      pose proof (before_mono alp bet idx (S (i * dim + j)) (length idx) LT). lia.
    + unfold fill_neg_rows. destruct (Nat.eqb_spec i j); [contradiction|]. exact (nth_error_nth _ _ None (H _ (i, j) a b X Ha Hb)).
Qed.

Lemma update_generator_draws : forall dim t vt y h n alp bet o k, hidden_ok dim t vt y h n -> hyper dim (Rlt 0) alp -> hyper dim (Rlt 0) bet ->
  exists lam k' (rank : nat -> nat -> nat) (hold : nat -> R) tl_, mcmc_update_generator dim h alp bet o k = (Ok lam, k') /\ last_jump y tl_ /\
    (forall i (f : R -> nat), (forall u, 0 <= u < tl_ -> state_at y u (f u)) -> is_RInt (fun u => if Nat.eqb (f u) i then 1 else 0) 0 tl_ (hold i)) /\
    (forall i j i' j', (i < dim)%nat -> (j < dim)%nat -> i <> j -> (i' < dim)%nat -> (j' < dim)%nat -> i' <> j' -> rank i j = rank i' j' -> i = i' /\ j = j') /\
    forall i j a b, (i < dim)%nat -> (j < dim)%nat -> i <> j -> alp i j = Some a -> bet i j = Some b ->
      (k <= rank i j < k')%nat /\ lam i j = Some (ora_r o (rank i j) (DGamma (INR (n_jumps (M_mjp.sk_x y) i j) + a) (1 / (hold i + b)))).
Proof.
  intros dim t vt y h n alp bet o k HO HA HB.
  pose proof (proj1 (ho_wf _ _ _ _ _ _ HO)) as HT.
  destruct (L_inf.update_ok dim y alp bet HT (ho_dim _ _ _ _ _ _ HO)) as (alp1 & bet1 & E & ED & EA & EB).
  destruct (last_jump_ex y HT) as (tl_ & LJ & Ht). set (hold := hold_of y) in *.
  assert (HH : forall i, 0 <= hold i) by (intros i; apply hold_of_nonneg; exact HT).
  assert (HA1 : hyper dim (Rlt 0) alp1).
  { split; [intros i Hi; apply ED|]. intros i j Hi Hj N. destruct (proj2 HA i j Hi Hj N) as (a & Ea & Pa). exists (INR (n_jumps (M_mjp.sk_x y) i j) + a).
    rewrite (EA i j N), Ea. split; [reflexivity|]. pose proof (pos_INR (n_jumps (M_mjp.sk_x y) i j)). lra. }
  assert (HB1 : hyper dim (Rlt 0) bet1).
  { split; [intros i Hi; rewrite EB, (proj1 HB i Hi); reflexivity|]. intros i j Hi Hj N. destruct (proj2 HB i j Hi Hj N) as (b & Eb & Pb). exists (hold i + b).
    rewrite (EB i j), Eb. split; [reflexivity|]. pose proof (HH i). lra. }
  destruct (sample_param_draws dim alp1 bet1 o k HA1 HB1) as (g & k' & rank & EG & RI & RD).
  exists g, k', rank, hold, tl_. split.
  { unfold mcmc_update_generator, bind, lift. rewrite (ho_prune _ _ _ _ _ _ HO). cbn. rewrite E. exact EG. }
  split; [exact LJ|]. split; [intros i f Hf; apply hold_integral; assumption|]. split; [exact RI|].
  intros i j a b Hi Hj N Ha Hb. apply RD; auto; [rewrite (EA i j N), Ha|rewrite (EB i j), Hb]; reflexivity.
Qed.
