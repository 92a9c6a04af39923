(** One step of forward simulation: the rates out of a state and the value of the rest of the path. *)
From Coquelicot Require Import Hierarchy Rbar Lim_seq Continuity Derive RInt RInt_analysis RInt_gen Series AutoDerive.
From Coq Require Import Reals List Bool Arith Lia Lra.
From Verif Require Import Base Np Rng L_rng M_mjp SpecMjp SpecLin SpecLaw SpecFdd L_law L_law2 L_law4 L_law5 L_race L_fdd1 L_fdd3 L_fwd1 L_mat Mat.
Import ListNotations.
Local Open Scope R_scope.

Definition tgt (x k : nat) : nat := (k + (if Nat.leb x k then 1 else 0))%nat.
Lemma rsum_skip : forall d x (f : nat -> R), (x < d)%nat -> rsum d f = f x + rsum (d - 1) (fun k => f (tgt x k)).
Proof.
  induction d as [|d IH]; intros x f Hx; [lia|]. cbn [rsum]. rewrite Nat.sub_succ, Nat.sub_0_r.
  destruct (Nat.eq_dec x d) as [->|N].
  - rewrite Rplus_comm. f_equal. apply rsum_ext. intros i Hi. unfold tgt. destruct (Nat.leb_spec d i); [lia|]. f_equal. lia.
  - rewrite (IH x f) by lia. destruct d as [|d]; [lia|]. cbn [rsum]. rewrite Nat.sub_succ, Nat.sub_0_r.
    assert (E : f (tgt x d) = f (S d)) by (unfold tgt; destruct (Nat.leb_spec x d); [f_equal; lia|lia]). rewrite E. ring.
Qed.
Lemma pull_rsum : forall h rs i s, pull h i rs s = rsum (length rs) (fun k => nth k rs 0 * h (i + k)%nat s).
Proof.
  intros h. induction rs as [|r rs IH]; intros i s; [reflexivity|]. cbn [pull length]. rewrite rsum_shift. cbn [nth]. rewrite Nat.add_0_r. f_equal.
  rewrite IH. apply rsum_ext. intros k _. cbn [nth]. rewrite Nat.add_succ_r. reflexivity.
Qed.
Lemma total_rsum : forall rs, total_rate rs = rsum (length rs) (fun k => nth k rs 0).
Proof. induction rs as [|r rs IH]; [reflexivity|]. cbn [total_rate fold_right length]. rewrite rsum_shift. cbn [nth]. fold (total_rate rs). rewrite IH. reflexivity. Qed.

Section Row.
  Variables (dim : nat) (gen : mat).
  Hypothesis Hgen : generator dim gen.
  Notation rates x := (np_delete (row_list dim gen x) x).
  (** the flow out of x into the other states *)
  Definition flow (x : nat) (f : nat -> R) : R := rsum (dim - 1) (fun k => gen x (tgt x k) * f (tgt x k)).
  Lemma rate_nth : forall x k, (x < dim)%nat -> (k < dim - 1)%nat -> nth k (rates x) 0 = gen x (tgt x k).
  Proof.
    intros x k Hx Hk. apply nth_error_nth with (d := 0). rewrite (delete_row_nth dim gen ltac:(lia) x k) by lia. unfold tgt.
    destruct (Nat.ltb_spec k x), (Nat.leb_spec x k); try lia; repeat f_equal; lia.
  Qed.
  Lemma flow_pull : forall x (F : nat -> R -> R) s, (x < dim)%nat -> pull (fun k s => F (tgt x k) s) 0 (rates x) s = flow x (fun z => F z s).
  Proof.
    intros x F s Hx. rewrite pull_rsum, delete_row_length by exact Hx. apply rsum_ext. intros k Hk. rewrite rate_nth by assumption. reflexivity.
  Qed.
  Lemma flow_rsum : forall x f, (x < dim)%nat -> flow x f = rsum dim (fun z => gen x z * f z) - gen x x * f x.
  Proof. intros x f Hx. unfold flow. rewrite (rsum_skip dim x (fun z => gen x z * f z) Hx). ring. Qed.
  Lemma flow_rate : forall x, (x < dim)%nat -> flow x (fun _ => 1) = - gen x x.
  Proof.
    intros x Hx. rewrite flow_rsum by exact Hx. rewrite (rsum_ext dim _ (gen x)) by (intros; ring). rewrite (proj2 Hgen x Hx). ring.
  Qed.
  Lemma total_flow : forall x, (x < dim)%nat -> total_rate (rates x) = - gen x x.
  Proof.
    intros x Hx. rewrite total_rsum, delete_row_length by exact Hx. rewrite <- flow_rate by exact Hx. apply rsum_ext. intros k Hk. rewrite rate_nth by assumption. ring.
  Qed.
  Lemma tgt_lt : forall x k, (k < dim - 1)%nat -> (tgt x k < dim)%nat.
  Proof. intros x k H. unfold tgt. destruct (Nat.leb x k); lia. Qed.
  Lemma tgt_ne : forall x k, tgt x k <> x.
  Proof. intros x k. unfold tgt. destruct (Nat.leb_spec x k); lia. Qed.
  Lemma flow_ext : forall x f g, (forall z, (z < dim)%nat -> f z = g z) -> flow x f = flow x g.
  Proof. intros x f g H. apply rsum_ext. intros k Hk. rewrite H by (apply tgt_lt; exact Hk). reflexivity. Qed.
  Lemma flow_le : forall x f g, (x < dim)%nat -> (forall z, (z < dim)%nat -> f z <= g z) -> flow x f <= flow x g.
  Proof.
    intros x f g Hx H. apply rsum_le. intros k Hk. apply Rmult_le_compat_l; [|apply H, tgt_lt; exact Hk].
    apply (proj1 Hgen); [exact Hx|apply tgt_lt; exact Hk|]. intros E. symmetry in E. exact (tgt_ne x k E).
  Qed.
  Lemma flow_scal : forall x f c, flow x (fun z => c * f z) = c * flow x f.
  Proof. intros x f c. unfold flow. rewrite <- rsum_scal_l. apply rsum_ext. intros; ring. Qed.
  Lemma flow_minus : forall x f g, flow x (fun z => f z - g z) = flow x f - flow x g.
  Proof.
    intros x f g. unfold flow. replace (rsum (dim - 1) (fun k => gen x (tgt x k) * f (tgt x k)) - rsum (dim - 1) (fun k => gen x (tgt x k) * g (tgt x k)))
      with (rsum (dim - 1) (fun k => gen x (tgt x k) * f (tgt x k)) + (-1) * rsum (dim - 1) (fun k => gen x (tgt x k) * g (tgt x k))) by ring.
    rewrite <- rsum_scal_l, <- rsum_plus. apply rsum_ext. intros; ring.
  Qed.
  Lemma rsum_cont : forall n (f : nat -> R -> R) x, (forall k, (k < n)%nat -> continuous (f k) x) -> continuous (fun s => rsum n (fun k => f k s)) x.
  Proof.
    induction n as [|n IH]; intros f x H; cbn [rsum]; [apply continuous_const|].
    apply (continuous_plus (V := R_NormedModule) (fun s => rsum n (fun k => f k s)) (f n)); [apply IH; intros; apply H; lia|apply H; lia].
  Qed.
  Lemma flow_cont : forall x (F : nat -> R -> R) s, (forall z, continuous (F z) s) -> continuous (fun s => flow x (fun z => F z s)) s.
  Proof.
    intros x F s H. unfold flow. apply (rsum_cont (dim - 1) (fun k s => gen x (tgt x k) * F (tgt x k) s)). intros k _.
    apply (continuous_scal_r (V := R_NormedModule) (gen x (tgt x k)) (F (tgt x k))). apply H.
  Qed.
End Row.
