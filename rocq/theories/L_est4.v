(** Which objective the standard errors of a regime are computed from. *)
From Coq Require Import Reals List Bool Arith Lra Lia FunctionalExtensionality.
From Verif Require Import Base Np Rng L_rng M_mjp M_hit M_path M_skel M_seed SpecSeed M_models M_inf M_sw M_adapt M_mcem M_est SpecEst.
Import ListNotations.
Local Open Scope R_scope.

Lemma list_nth_eq : forall A (a b : list A), (forall j, nth_error a j = nth_error b j) -> a = b.
Proof.
  induction a as [|x a IH]; intros [|y b] H; try reflexivity; pose proof (H 0%nat) as H0; cbn in H0; try discriminate H0.
  injection H0 as ->. f_equal. apply IH. intros j. exact (H (S j)).
Qed.
Lemma replaced_eq : forall (rows : list (list R)) k x r, (k < length rows)%nat -> replaces rows k x r -> firstn k rows ++ [x] ++ skipn (S k) rows = r.
Proof.
  intros rows k x r Hk (_ & H2 & H3). apply list_nth_eq. intros j.
  assert (LF : length (firstn k rows) = k) by (apply firstn_length_le; lia).
  destruct (lt_eq_lt_dec j k) as [[L | ->]|G].
  - rewrite H3 by lia. rewrite nth_error_app1 by lia. clear - L Hk. revert k j L Hk. induction rows as [|a rows IH]; intros k j L Hk; [cbn in Hk; lia|].
    destruct k as [|k]; [lia|]. destruct j as [|j]; [reflexivity|]. cbn. apply IH; [lia|cbn in Hk; lia].
  - rewrite H2. rewrite nth_error_app2 by lia. rewrite LF, Nat.sub_diag. reflexivity.
  - rewrite H3 by lia. rewrite nth_error_app2 by lia. rewrite LF. destruct (j - k)%nat as [|d] eqn:Ed; [lia|]. cbn [app nth_error].
    replace j with (S k + d)%nat by lia. generalize (S k) as m. clear. intros m. revert rows. induction m as [|m IH]; intros rows; [reflexivity|].
    destruct rows as [|a rows]; [destruct d; reflexivity|]. cbn. apply IH.
Qed.
Lemma rows_loop : forall A B (f : nat -> A -> M B) (rows pre : list A) d o n,
  map_m (fun p => f (fst p) (snd p)) (combine (seq (length pre) (length rows)) rows) o n =
  map_m (fun k => f k (nth k (pre ++ rows) d)) (seq (length pre) (length rows)) o n.
Proof.
  intros A B f rows. induction rows as [|a rows IH]; intros pre d o n; [reflexivity|]. cbn [length seq combine map_m fst snd].
  rewrite app_nth2 by lia. rewrite Nat.sub_diag. cbn [nth]. unfold bind. destruct (f (length pre) a o n) as [[b| |] n1]; try reflexivity.
  specialize (IH (pre ++ [a]) d o n1). rewrite app_length, Nat.add_1_r, <- app_assoc in IH. cbn [app] in IH. rewrite IH. reflexivity.
Qed.
Lemma map_m_fun : forall A B (f g : A -> M B) l, (forall a, In a l -> f a = g a) -> map_m f l = map_m g l.
Proof.
  intros A B f g l. induction l as [|a l IH]; intros H; [reflexivity|]. cbn [map_m]. rewrite (H a (or_introl eq_refl)), IH; [reflexivity|].
  intros b Hb. apply H. right. exact Hb.
Qed.
Lemma sw_se_rows : forall hess grad inv fuel mp mx vol disc loglik log_prior lb ub buffer n_supports omes thi zz hh (F : nat -> list R -> list (list R)),
  (forall k x, (k < length thi)%nat -> replaces thi k x (F k x)) -> forall o n,
  sw_est_se hess grad inv fuel mp mx vol disc loglik log_prior lb ub buffer n_supports omes thi zz hh o n =
  (do b <- lift (buffer_bounds lb ub (length thi) buffer);
   do f <- sw_update_objective fuel mp mx vol disc loglik log_prior n_supports omes thi zz hh;
   map_m (fun k => se_of hess grad inv (fst b) (snd b) (fun x => f (F k x) k) (nth k thi [])) (seq 0 (length thi))) o n.
Proof.
  intros hess grad inv fuel mp mx vol disc loglik log_prior lb ub buffer n_supports omes thi zz hh F HF o n. unfold sw_est_se.
  unfold bind at 1 3. destruct (lift (buffer_bounds lb ub (length thi) buffer) o n) as [[b| |] n1]; try reflexivity.
  unfold bind. destruct (sw_update_objective fuel mp mx vol disc loglik log_prior n_supports omes thi zz hh o n1) as [[f| |] n2]; try reflexivity.
  pose proof (rows_loop _ _ (fun k row => se_of hess grad inv (fst b) (snd b) (fun x => f (firstn k thi ++ [x] ++ skipn (S k) thi) k) row) thi [] [] o n2) as RL.
  cbn [length] in RL. etransitivity; [exact RL|]. cbn [app]. rewrite (map_m_fun _ _ _ (fun k => se_of hess grad inv (fst b) (snd b) (fun x => f (F k x) k) (nth k thi []))); [reflexivity|].
  intros k Hk. apply in_seq in Hk. f_equal. apply functional_extensionality. intros x. f_equal. exact (replaced_eq thi k x (F k x) ltac:(lia) (HF k x ltac:(lia))).
Qed.
Lemma replaces_example : replaces [[1; 2]; [3; 4]; [5; 6]] 1 [7; 8] [[1; 2]; [7; 8]; [5; 6]].
Proof. split; [reflexivity|]. split; [reflexivity|]. intros [|[|j]] H; [reflexivity|congruence|reflexivity]. Qed.
