(** Lemmas for C85. *)
From Coq Require Import Reals List Bool Arith Lia Lra.
From Verif Require Import Base Np Rng Mat M_mjp M_inf M_bf M_adapt M_path M_skel M_seed M_models M_sw M_chain M_ito SpecTrail L_sde3.
Import ListNotations.
Local Open Scope R_scope.

Lemma bind_inv {A B} (m : M A) (f : A -> M B) o k b k' : bind m f o k = (Ok b, k') ->
  exists a k1, m o k = (Ok a, k1) /\ f a o k1 = (Ok b, k').
Proof. unfold bind. destruct (m o k) as [[a|e|] k1]; intro H; [eauto|discriminate H|discriminate H]. Qed.
Lemma lift_inv {A} (r : res A) o k a k' : lift r o k = (Ok a, k') -> r = Ok a /\ k' = k.
Proof. unfold lift. intro H. injection H as -> ->. auto. Qed.
Lemma ret_inv {A} (a b : A) o k k' : ret a o k = (Ok b, k') -> a = b /\ k' = k.
Proof. unfold ret. intro H. injection H as -> ->. auto. Qed.

Lemma ito_trail fuel mp maxp lb ub reduce disc bounds grad log_prior loglik batch precoin pr maxf t vt o :
  forall ins thi z k l k',
  ito_resume fuel mp maxp lb ub reduce disc bounds grad log_prior loglik batch precoin pr maxf ins thi z t vt o k = (Ok l, k') ->
  trail (fun i s s' => exists k0 sector accept z1 k1 k2,
      ito_params fuel mp maxp reduce disc grad log_prior loglik batch precoin pr maxf (ii_propose i) (fst s) (snd s) t vt o k0
        = (Ok (sector, accept, fst s', z1), k1) /\
      update_sde fuel mp maxp lb ub reduce disc bounds batch pr maxf (ii_omes i) (fst s') z1 t vt o k1 = (Ok (snd s'), k2))
    (thi, z) ins l.
Proof.
  induction ins as [|i ins IH]; intros thi z k l k' H; cbn [ito_resume] in H.
  - apply ret_inv in H as (<- & _). exact I.
  - apply bind_inv in H as ([thi1 z1] & k1 & H1 & H). apply bind_inv in H as (l1 & k2 & H2 & H).
    apply ret_inv in H as (<- & _). cbn [trail]. split; [|exact (IH _ _ _ _ _ H2)].
    unfold ito_update_joint in H1. apply bind_inv in H1 as ([[[sec acc] th] zz] & k3 & E1 & H1).
    apply bind_inv in H1 as (z2 & k4 & E2 & H1). apply ret_inv in H1 as (H1 & _). injection H1 as <- <-.
    exists k, sec, acc, zz, k3, k4. cbn [fst snd]. auto.
Qed.

Lemma ito_trail_start fuel mp maxp lb ub reduce disc bounds grad log_prior loglik batch precoin pr maxf t vt o init ins k l k' :
  ito_sample_posterior fuel mp maxp lb ub reduce disc bounds grad log_prior loglik batch precoin pr maxf init t vt ins o k = (Ok l, k') ->
  exists z k1, ito_sample_aug fuel mp maxp lb ub reduce t vt init o k = (Ok z, k1) /\
  trail (fun i s s' => exists k0 sector accept z1 k1 k2,
      ito_params fuel mp maxp reduce disc grad log_prior loglik batch precoin pr maxf (ii_propose i) (fst s) (snd s) t vt o k0
        = (Ok (sector, accept, fst s', z1), k1) /\
      update_sde fuel mp maxp lb ub reduce disc bounds batch pr maxf (ii_omes i) (fst s') z1 t vt o k1 = (Ok (snd s'), k2))
    (init, z) ins l.
Proof.
  intro H. unfold ito_sample_posterior in H. apply bind_inv in H as (z & k1 & H1 & H2).
  exists z, k1. split; [exact H1|]. exact (ito_trail _ _ _ _ _ _ _ _ _ _ _ _ _ _ _ _ _ _ _ _ _ _ _ _ H2).
Qed.

Lemma sw_trail L dim fuel mp maxp lb ub vol disc bounds grad log_prior loglik batch precoin pr maxf t vt opt decay air alp bet o :
  forall ins c k l k',
  resume_sampling L dim fuel mp maxp lb ub vol disc bounds grad log_prior loglik batch precoin pr maxf t vt opt decay air alp bet ins c o k = (Ok l, k') ->
  trail (fun i c c' => exists k0 lam k1 acc z1 acc2 k2,
      mcmc_update_generator dim (c_h c) alp bet o k0 = (Ok lam, k1) /\ c_lam c' = mat_of lam /\
      update_params fuel mp maxp vol disc grad log_prior loglik batch precoin pr maxf (in_propose i) (in_params i) (c_thi c) (c_z c) (c_h c)
        = Ok (acc, c_thi c', z1) /\
      update_hidden L fuel mp maxp lb ub (vol (c_thi c')) (disc (c_thi c')) (bounds (c_thi c')) (loglik (c_thi c')) batch precoin pr maxf
        t vt opt decay air dim (c_lam c') (in_hidden i) (c_sp c) z1 (c_h c) o k1 = (Ok (acc2, (c_z c', c_h c', c_sp c')), k2))
    c ins l.
Proof.
  induction ins as [|i ins IH]; intros c k l k' H; cbn [resume_sampling] in H.
  - apply ret_inv in H as (<- & _). exact Logic.I.
  - apply bind_inv in H as (c1 & k1 & H1 & H). apply bind_inv in H as (l1 & k2 & H2 & H).
    apply ret_inv in H as (<- & _). cbn [trail]. split; [|exact (IH _ _ _ _ H2)].
    unfold update_joint in H1. apply bind_inv in H1 as (lam & k3 & E1 & H1).
    apply bind_inv in H1 as ([[acc th] zz] & k4 & E2 & H1). apply lift_inv in E2 as (E2 & ->).
    apply bind_inv in H1 as ([acc2 [[z2 h2] sp2]] & k5 & E3 & H1). apply ret_inv in H1 as (<- & _).
    exists k, lam, k3, acc, zz, acc2, k5. cbn [c_h c_lam c_thi c_z c_sp]. auto.
Qed.

Lemma sw_trail_start L dim fuel mp maxp lb ub vol disc bounds grad log_prior loglik batch precoin pr maxf t vt opt decay air alp bet o init ins k l k' :
  sample_posterior L dim fuel mp maxp lb ub vol disc bounds grad log_prior loglik batch precoin pr maxf t vt opt decay air alp bet init ins o k = (Ok l, k') ->
  exists T y k1 z h k2, last_opt t = Some T /\
    sample_forwards L fuel T None dim (mat_of (get_ev dim alp bet)) o k = (Ok y, k1) /\
    sample_aug fuel mp maxp lb ub (vol (repeat init dim)) y t vt o k1 = (Ok (z, h), k2) /\
    resume_sampling L dim fuel mp maxp lb ub vol disc bounds grad log_prior loglik batch precoin pr maxf t vt opt decay air alp bet ins
      (mk_chain (repeat init dim) (mat_of (get_ev dim alp bet)) z h (rw_init y opt 0)) o k2 = (Ok l, k').
Proof.
  intro H. unfold sample_posterior in H. apply bind_inv in H as (T & k1 & H1 & H).
  assert (E : last_opt t = Some T /\ k1 = k).
  { unfold lift_opt in H1. destruct (last_opt t) as [T0|]; [apply ret_inv in H1 as (-> & ->); auto|discriminate H1]. }
  destruct E as (E & ->).
  apply bind_inv in H as (y & k2 & H2 & H). apply bind_inv in H as ([z h] & k3 & H3 & H).
  exists T, y, k2, z, h, k3. auto.
Qed.
