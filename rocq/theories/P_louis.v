(** Property theorem C98: what the standard errors are. *)
From Coq Require Import Reals List Bool Arith Lra Lia.
From Verif Require Import Base Np Rng M_mjp M_hit M_path SpecPath M_skel M_seed SpecSeed M_inf M_sw M_adapt M_mcem SpecEm M_est SpecEst SpecLouis L_louis L_louis2 Mat.
Import ListNotations.
Local Open Scope R_scope.

(** C98: at a parameter inside the bounds and with exact differentiation, the result of est_se is
    the inverse of the observed information given by Louis' identity, provided that its diagonal is
    positive: l m is the log-likelihood of particle m, G m i its score, H m i j its second derivatives *)
Theorem C98_louis : forall hess grad inv lb ub (f : list R -> M (list R)) thi n (l : nat -> list R -> R) (G : nat -> nat -> list R -> R) (H : nat -> nat -> nat -> R),
  Forall2 interval lb ub -> length lb = length thi -> thi <> [] -> in_box lb ub thi -> ~ touches lb ub thi ->
  (forall y, in_box lb ub y -> forall o k, f y o k = (Ok (map (fun m => l m y) (seq 0 n)), k)) ->
  (exists e, 0 < e /\ forall m i y, (m < n)%nat -> (i < length thi)%nat -> near thi e y -> partial (l m) i y (G m i y)) ->
  (forall m i j, (m < n)%nat -> (i < length thi)%nat -> (j < length thi)%nat -> partial (G m i) j thi (H m i j)) ->
  exact_grad grad (wrap lb ub f) thi -> exact_hess hess (fun x => do v <- wrap lb ub f x; ret (- np_mean v)) thi ->
  forall o k V, inv (table (length thi) (louis n (fun m i => G m i thi) H)) = Ok V ->
    ((forall i row, nth_error V i = Some row -> 0 < nth i row 0) -> se_of hess grad inv lb ub f thi o k = (Ok (Some V), k)) /\
    (~ (forall i row, nth_error V i = Some row -> 0 < nth i row 0) -> se_of hess grad inv lb ub f thi o k = (Ok None, k)).
Proof. exact louis_se. Qed.
Print Assumptions C98_louis.

(** two particles with quadratic log-likelihoods and central differences, which are exact for them *)
Example C98_example_louis : exact_grad q_grad (wrap [Fin (-2)] [Fin 2] q_f) [0] /\
  exact_hess q_hess (fun x => do v <- wrap [Fin (-2)] [Fin 2] q_f x; ret (- np_mean v)) [0] /\
  forall o k, se_of q_hess q_grad q_inv [Fin (-2)] [Fin 2] q_f [0] o k = (Ok (Some [[8 / 15]]), k).
Proof. exact (conj q_exact_grad (conj q_exact_hess louis_example)). Qed.
