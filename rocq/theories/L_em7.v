(** Zero rates of the M-step, and small cases. *)
From Coq Require Import Reals List Bool Arith ZArith Lia Lra Sorted.
From Verif Require Import Base Np Rng M_mjp M_inf M_bf M_adapt M_path M_skel M_seed M_models M_sw M_chain M_mcem SpecMjp SpecInf SpecSkel SpecSeed SpecSw SpecEm L_inf L_sw L_sw2 L_swdemo L_em L_em2 L_em4 Mat.
Import ListNotations.
Local Open Scope R_scope.

Lemma em_zero dim hh yy alp bet i j : yy <> [] -> Forall2 (particle dim) hh yy -> hyper dim (fun _ => True) alp -> hyper dim (Rlt 0) bet ->
  (i < dim)%nat -> (j < dim)%nat -> i <> j -> alp i j = Some 1 -> Forall (fun y => n_jumps (sk_x y) i j = 0%nat) yy ->
  exists lam v, em_update_generator dim hh alp bet = Ok (lam, v) /\ lam i j = Some 0.
Proof.
  intros HY HP HA HB Hi Hj Hn E1 HF. destruct (em_ok dim hh yy alp bet HY HP HA HB) as (lam & v & EU & _ & _ & HR & _). exists lam, v. split; [exact EU|].
  destruct (HR i j Hi Hj Hn) as [HD ->]. f_equal. unfold Num. rewrite (mean_ext _ (fun _ => 0)).
  - rewrite mean_zero. unfold num. rewrite E1. cbn. field. lra.
  - intros y Iy. rewrite Forall_forall in HF. rewrite (HF y Iy). reflexivity.
Qed.

Lemma em_rows_ok dim hh yy alp bet : yy <> [] -> Forall2 (particle dim) hh yy -> hyper dim (fun _ => True) alp -> hyper dim (Rlt 0) bet ->
  exists lam v, em_update_generator dim hh alp bet = Ok (lam, v) /\ (forall i j, (i < dim)%nat -> (j < dim)%nat -> exists x, lam i j = Some x) /\ (forall i, (i < dim)%nat -> rsum dim (mat_of lam i) = 0) /\
    (forall w, v = Some w <-> em_objective dim yy alp bet (mat_of lam) w).
Proof. intros A B C D. destruct (em_ok dim hh yy alp bet A B C D) as (lam & v & H1 & H2 & H3 & _ & H5). exists lam, v. auto. Qed.
