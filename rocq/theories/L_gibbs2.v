(** Lemmas for C15 and C16: the law of the generator drawn by mcmc_update_generator. *)
From Coq Require Import Reals List Bool Arith Lra Lia.
From Coquelicot Require Import Hierarchy RInt.
From Verif Require Import Base Np Rng M_mjp M_inf M_path M_sw SpecMjp SpecInf SpecPath SpecSw L_rng L_inf L_inf2 L_sw10 L_gibbs SpecLaw L_law SpecGauss L_gauss2 L_gauss3 Mat.
Import ListNotations.
Local Open Scope R_scope.

Lemma generator_posterior : forall dim t vt y h n alp bet, hidden_ok dim t vt y h n -> hyper dim (Rlt 0) alp -> hyper dim (Rlt 0) bet ->
  exists alp1 bet1 (hold : nat -> R) tl_, last_jump y tl_ /\
    (forall i (f : R -> nat), (forall u, 0 <= u < tl_ -> state_at y u (f u)) -> is_RInt (fun u => if Nat.eqb (f u) i then 1 else 0) 0 tl_ (hold i)) /\
    hyper dim (Rlt 0) alp1 /\ hyper dim (Rlt 0) bet1 /\ (forall i, 0 <= hold i) /\
    (forall i j, i <> j -> alp1 i j = option_map (Rplus (INR (n_jumps (M_mjp.sk_x y) i j))) (alp i j)) /\
    (forall i j, bet1 i j = option_map (Rplus (hold i)) (bet i j)) /\
    forall o k, mcmc_update_generator dim h alp bet o k = sample_param dim alp1 bet1 o k.
Proof.
  intros dim t vt y h n alp bet HO HA HB.
  pose proof (proj1 (ho_wf _ _ _ _ _ _ HO)) as HT.
  destruct (L_inf.update_ok dim y alp bet HT (ho_dim _ _ _ _ _ _ HO)) as (alp1 & bet1 & E & ED & EA & EB).
  destruct (last_jump_ex y HT) as (tl_ & LJ & Ht). set (hold := hold_of y) in *.
  assert (HH : forall i, 0 <= hold i) by (intros i; apply hold_of_nonneg; exact HT).
  exists alp1, bet1, hold, tl_. split; [exact LJ|]. split; [intros i f Hf; apply hold_integral; assumption|]. split; [|split; [|split; [exact HH|split; [exact EA|split; [exact EB|]]]]].
  - split; [intros i Hi; apply ED|]. intros i j Hi Hj N. destruct (proj2 HA i j Hi Hj N) as (a & Ea & Pa). exists (INR (n_jumps (M_mjp.sk_x y) i j) + a).
    rewrite (EA i j N), Ea. split; [reflexivity|]. pose proof (pos_INR (n_jumps (M_mjp.sk_x y) i j)). lra.
  - split; [intros i Hi; rewrite EB, (proj1 HB i Hi); reflexivity|]. intros i j Hi Hj N. destruct (proj2 HB i j Hi Hj N) as (b & Eb & Pb). exists (hold i + b).
    rewrite (EB i j), Eb. split; [reflexivity|]. pose proof (HH i). lra.
  - intros o k. unfold mcmc_update_generator, bind, lift. rewrite (ho_prune _ _ _ _ _ _ HO). cbn. rewrite E. reflexivity.
Qed.
Lemma average_run : forall A (m m' : M A) f v, (forall o k, m o k = m' o k) -> average m' f v -> average m f v.
Proof.
  intros A m m' f v E H. unfold average in *. inversion H as [m0 r Hr|m0 d f0 g v0 Hm Hf He|m0 d f0 g v0 Hm Hn Hf He]; subst.
  - apply mean_done. intros o k V. rewrite E. exact (Hr o k V).
  - apply (mean_real _ _ d f0 g); [intros o k V; rewrite E; exact (Hm o k V)|exact Hf|exact He].
  - apply (mean_int _ _ d f0 g); [intros o k V; rewrite E; exact (Hm o k V)|exact Hn|exact Hf|exact He].
Qed.
Lemma gibbs_law : forall dim t vt y h n alp bet, hidden_ok dim t vt y h n -> hyper dim (Rlt 0) alp -> hyper dim (Rlt 0) bet ->
  exists (hold : nat -> R) tl_, last_jump y tl_ /\
    (forall i (f : R -> nat), (forall u, 0 <= u < tl_ -> state_at y u (f u)) -> is_RInt (fun u => if Nat.eqb (f u) i then 1 else 0) 0 tl_ (hold i)) /\
    forall (f : nat -> nat -> R -> R) (v : nat -> nat -> R),
    (forall i j a b, (i < dim)%nat -> (j < dim)%nat -> i <> j -> alp i j = Some a -> bet i j = Some b ->
       expect_r (DGamma (INR (n_jumps (M_mjp.sk_x y) i j) + a) (1 / (hold i + b))) (f i j) (v i j)) ->
    average (mcmc_update_generator dim h alp bet)
      (fun g => rprod dim (fun i => rprod dim (fun j => if Nat.eqb i j then 1 else match g i j with Some x => f i j x | None => 0 end)))
      (rprod dim (fun i => rprod dim (fun j => if Nat.eqb i j then 1 else v i j))).
Proof.
  intros dim t vt y h n alp bet HO HA HB.
  destruct (generator_posterior dim t vt y h n alp bet HO HA HB) as (alp1 & bet1 & hold & tl_ & LJ & HI & HA1 & HB1 & HH & EA & EB & ER).
  exists hold, tl_. split; [exact LJ|]. split; [exact HI|]. intros f v HE. apply (average_run _ _ _ _ _ ER). apply sample_param_law; [exact HA1|exact HB1|].
  intros i j a b Hi Hj N Ea Eb. destruct (proj2 HA i j Hi Hj N) as (a0 & Ea0 & _). destruct (proj2 HB i j Hi Hj N) as (b0 & Eb0 & _).
  rewrite (EA i j N), Ea0 in Ea. rewrite (EB i j), Eb0 in Eb. injection Ea as <-. injection Eb as <-. apply HE; assumption.
Qed.
Lemma gibbs_mean : forall dim t vt y h n alp bet, hidden_ok dim t vt y h n -> hyper dim (Rlt 0) alp -> hyper dim (Rlt 0) bet ->
  exists (hold : nat -> R) tl_, last_jump y tl_ /\
    (forall i (f : R -> nat), (forall u, 0 <= u < tl_ -> state_at y u (f u)) -> is_RInt (fun u => if Nat.eqb (f u) i then 1 else 0) 0 tl_ (hold i)) /\
    forall i j a b, (i < dim)%nat -> (j < dim)%nat -> i <> j -> alp i j = Some a -> bet i j = Some b ->
      average (mcmc_update_generator dim h alp bet) (fun g => match g i j with Some x => x | None => 0 end)
        ((INR (n_jumps (M_mjp.sk_x y) i j) + a) / (hold i + b)).
Proof.
  intros dim t vt y h n alp bet HO HA HB.
  destruct (generator_posterior dim t vt y h n alp bet HO HA HB) as (alp1 & bet1 & hold & tl_ & LJ & HI & HA1 & HB1 & HH & EA & EB & ER).
  exists hold, tl_. split; [exact LJ|]. split; [exact HI|]. intros i j a b Hi Hj N Ea Eb. apply (average_run _ _ _ _ _ ER).
  destruct (ev_is_mean dim alp1 bet1 i j HA1 HB1 Hi Hj) as (e & Ee & HV).
  unfold get_ev, fill_neg_rows in Ee. destruct (Nat.eqb_spec i j) as [|_]; [contradiction|]. rewrite (EA i j N), (EB i j), Ea, Eb in Ee. cbn [option_map nandiv] in Ee.
  destruct (Reqb (hold i + b) 0) eqn:E0; [discriminate|]. injection Ee as <-. exact HV.
Qed.
