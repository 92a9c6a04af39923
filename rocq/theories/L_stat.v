(** get_stat (mjplib/skeleton.py, lines 391-397) and the generator of lines 368-378. *)
From Coq Require Import Reals List Bool Arith Lia Lra.
From Verif Require Import Base Np Rng Mat M_mjp SpecMjp SpecLin L_list L_rng L_mat L_sim L_bridge L_mutate.
Import ListNotations.
Local Open Scope R_scope.

Section Stat.
Variables (dim : nat) (gen : mat).
Hypothesis Hdim : (1 <= dim)%nat.
Hypothesis Hrows : forall i, (i < dim)%nat -> rsum dim (gen i) = 0.

Lemma flow_total x : rsum dim (fun j => rsum dim (fun i => x i * gen i j)) = 0.
Proof.
  rewrite rsum_swap. apply rsum_0. intros i Hi. rewrite rsum_scal_l, Hrows by auto. ring.
Qed.
Lemma stat_row x i : rsum dim (fun j => stat_matrix gen i j * x j) = rsum dim (fun j => x j * gen j i) - rsum dim x.
Proof. unfold stat_matrix. rewrite <- rsum_minus. apply rsum_ext. intros; ring. Qed.
Lemma dim_pos : 0 < INR dim.
Proof. apply lt_0_INR; lia. Qed.

Lemma stat_system x : solves dim (stat_matrix gen) x stat_rhs <-> (rsum dim x = 1 /\ stationary dim gen x).
Proof.
  unfold solves, stationary, stat_rhs. split.
  - intros H. assert (S1 : rsum dim x = 1).
    { pose proof (flow_total x) as F.
      rewrite (rsum_ext dim _ (fun j => rsum dim x + - (1))) in F.
      - rewrite rsum_const in F. apply Rmult_integral in F. pose proof dim_pos. lra.
      - intros i Hi. specialize (H i Hi). rewrite stat_row in H. lra. }
    split; auto. intros j Hj. specialize (H j Hj). rewrite stat_row in H. lra.
  - intros [H1 H2] i Hi. rewrite stat_row, H2, H1 by auto. lra.
Qed.

Lemma stat_kernel y : solves dim (stat_matrix gen) y (fun _ => 0) <-> (rsum dim y = 0 /\ stationary dim gen y).
Proof.
  unfold solves, stationary. split.
  - intros H. assert (S1 : rsum dim y = 0).
    { pose proof (flow_total y) as F.
      rewrite (rsum_ext dim _ (fun j => rsum dim y)) in F.
      - rewrite rsum_const in F. apply Rmult_integral in F. pose proof dim_pos. lra.
      - intros i Hi. specialize (H i Hi). rewrite stat_row in H. lra. }
    split; auto. intros j Hj. specialize (H j Hj). rewrite stat_row in H. lra.
  - intros [H1 H2] i Hi. rewrite stat_row, H2, H1 by auto. lra.
Qed.

Lemma stat_unique x0 : rsum dim x0 = 1 -> stationary dim gen x0 ->
  (nonsingular dim (stat_matrix gen) <->
   (forall x, rsum dim x = 1 -> stationary dim gen x -> forall i, (i < dim)%nat -> x i = x0 i)).
Proof.
  intros S0 X0. split.
  - intros N x S1 X1 i Hi. enough (x i - x0 i = 0) by lra. apply (N (fun i => x i - x0 i)); auto.
    apply stat_kernel. split; [rewrite rsum_minus; lra|]. intros j Hj.
    rewrite (rsum_ext dim _ (fun i => x i * gen i j - x0 i * gen i j)) by (intros; ring).
    rewrite rsum_minus, (X1 j Hj), (X0 j Hj). lra.
  - intros U y HY i Hi. apply stat_kernel in HY as [Y1 Y2].
    enough (x0 i + y i = x0 i) by lra. apply (U (fun i => x0 i + y i)); auto.
    + rewrite rsum_plus; lra.
    + intros j Hj. rewrite (rsum_ext dim _ (fun i => x0 i * gen i j + y i * gen i j)) by (intros; ring).
      rewrite rsum_plus, (Y2 j Hj), (X0 j Hj). lra.
Qed.

Hypothesis Hoff : pos_off dim gen.

(** a stationary vector cannot have both positive and non-positive entries *)
Lemma stat_sign y : stationary dim gen y -> forall a b, (a < dim)%nat -> (b < dim)%nat -> 0 < y a -> y b <= 0 -> False.
Proof.
  intros HY a b Ha Hb Pa Pb.
  set (A := fun i => if Rltb 0 (y i) then 1 else 0).
  assert (A01 : forall i, A i = 1 /\ 0 < y i \/ A i = 0 /\ y i <= 0).
  { intros i. unfold A. destruct (Rltb_dec 0 (y i)) as [[H ->]|[H ->]]; auto. }
  assert (Z : rsum dim (fun i => y i * rsum dim (fun j => A j * gen i j)) = 0).
  { transitivity (rsum dim (fun j => A j * rsum dim (fun i => y i * gen i j))).
    - rewrite (rsum_ext dim _ (fun i => rsum dim (fun j => A j * (y i * gen i j)))).
      + rewrite rsum_swap. apply rsum_ext. intros j Hj. rewrite rsum_scal_l. ring.
      + intros i Hi. rewrite <- rsum_scal_l. apply rsum_ext. intros; ring.
    - apply rsum_0. intros j Hj. rewrite (HY j Hj). ring. }
  (* each term is <= 0 and the one at a is < 0 *)
  assert (T : forall i, (i < dim)%nat -> y i * rsum dim (fun j => A j * gen i j) <= 0).
  { intros i Hi. destruct (A01 i) as [[Ai Yi]|[Ai Yi]].
    - assert (rsum dim (fun j => A j * gen i j) <= 0).
      { replace (rsum dim (fun j => A j * gen i j)) with (- rsum dim (fun j => (1 - A j) * gen i j)).
        - enough (0 <= rsum dim (fun j => (1 - A j) * gen i j)) by lra. apply rsum_nonneg. intros j Hj.
          destruct (A01 j) as [[Aj _]|[Aj _]]; rewrite Aj; [lra|].
          destruct (Nat.eq_dec i j) as [->|N]; [lra|]. specialize (Hoff i j Hi Hj N). lra.
        - rewrite (rsum_ext dim _ (fun j => gen i j - A j * gen i j)) by (intros; ring).
          rewrite rsum_minus, Hrows by auto. lra. }
      nra.
    - assert (0 <= rsum dim (fun j => A j * gen i j)).
      { apply rsum_nonneg. intros j Hj. destruct (A01 j) as [[Aj Yj]|[Aj Yj]]; rewrite Aj; [|lra].
        destruct (Nat.eq_dec i j) as [->|N]; [lra|]. specialize (Hoff i j Hi Hj N). lra. }
      nra. }
  assert (NE : b <> a) by (intros ->; lra).
  assert (Aa : A a = 1) by (destruct (A01 a) as [[? _]|[_ ?]]; auto; lra).
  assert (Ab : A b = 0) by (destruct (A01 b) as [[_ ?]|[? _]]; auto; lra).
  assert (B : rsum dim (fun j => A j * gen a j) < 0).
  { replace (rsum dim (fun j => A j * gen a j)) with (- rsum dim (fun j => (1 - A j) * gen a j)).
    - enough (0 < rsum dim (fun j => (1 - A j) * gen a j)) by lra. apply (rsum_pos dim _ b); auto.
      + intros j Hj. destruct (A01 j) as [[Aj _]|[Aj Yj]]; rewrite Aj; [lra|].
        assert (a <> j) by (intros ->; lra). specialize (Hoff a j Ha Hj H). lra.
      + rewrite Ab. specialize (Hoff a b Ha Hb (not_eq_sym NE)). lra.
    - rewrite (rsum_ext dim _ (fun j => gen a j - A j * gen a j)) by (intros; ring).
      rewrite rsum_minus, Hrows by auto. lra. }
  assert (0 < rsum dim (fun i => - (y i * rsum dim (fun j => A j * gen i j)))).
  { apply (rsum_pos dim _ a); auto; [intros j Hj; specialize (T j Hj); lra|]. nra. }
  rewrite (rsum_ext dim _ (fun i => (-1) * (y i * rsum dim (fun j => A j * gen i j)))) in H by (intros; ring).
  rewrite rsum_scal_l, Z in H. lra.
Qed.

Lemma exists_pos n (f : vec) : 0 < rsum n f -> exists i, (i < n)%nat /\ 0 < f i.
Proof.
  intros H. induction n as [|n IH]; simpl in H; [lra|].
  destruct (Rlt_dec 0 (f n)) as [P|N]; [exists n; split; auto|].
  destruct IH as (i & Hi & Pi); [lra|]. exists i; split; auto.
Qed.

Lemma stat_pos x : rsum dim x = 1 -> stationary dim gen x -> forall i, (i < dim)%nat -> 0 < x i.
Proof.
  intros H1 H2 i Hi. destruct (exists_pos dim x) as (a & Ha & Pa); [lra|].
  destruct (Rlt_dec 0 (x i)) as [P|N]; auto. exfalso. apply (stat_sign x H2 a i); auto. lra.
Qed.

Lemma split_at n (y : vec) i : (i < n)%nat -> rsum n y = rsum n (fun j => if Nat.eqb j i then 0 else y j) + y i.
Proof.
  intros Hi. transitivity (rsum n (fun j => if Nat.eqb j i then 0 else y j) + rsum n (fun j => if Nat.eqb j i then y j else 0)).
  - rewrite <- rsum_plus. apply rsum_ext. intros j _. destruct (Nat.eqb j i); ring.
  - rewrite rsum_delta_r by auto. reflexivity.
Qed.

Lemma stat_nonsingular : nonsingular dim (stat_matrix gen).
Proof.
  intros y HY i Hi. apply stat_kernel in HY as [Y1 Y2].
  destruct (Rtotal_order (y i) 0) as [N|[E|P]]; auto; exfalso.
  - (* a negative entry: there is a positive one *)
    destruct (Rlt_dec 0 (rsum dim (fun j => if Nat.eqb j i then 0 else y j))) as [Q|Q].
    + exfalso. destruct (exists_pos _ _ Q) as (a & Ha & Pa). destruct (Nat.eqb_spec a i); [lra|].
      apply (stat_sign y Y2 a i); auto; lra.
    + assert (rsum dim y = rsum dim (fun j => if Nat.eqb j i then 0 else y j) + y i).
      { apply split_at; auto. }
      lra.
  - destruct (exists_pos dim (fun j => - (if Nat.eqb j i then 0 else y j))) as (b & Hb & Pb).
    + assert (rsum dim y = rsum dim (fun j => if Nat.eqb j i then 0 else y j) + y i).
      { apply split_at; auto. }
      rewrite (rsum_ext dim _ (fun j => (-1) * (if Nat.eqb j i then 0 else y j))) by (intros; ring).
      rewrite rsum_scal_l. lra.
    + destruct (Nat.eqb_spec b i); [lra|]. apply (stat_sign y Y2 i b); auto. lra.
Qed.

Lemma get_stat_prob L : solve_ok L dim (stat_matrix gen) stat_rhs ->
  exists p, get_stat L dim gen = Some p /\ rsum dim p = 1 /\ (forall i, (i < dim)%nat -> 0 < p i) /\ stationary dim gen p.
Proof.
  unfold solve_ok, get_stat. destruct (la_solve L dim (stat_matrix gen) stat_rhs) as [p|] eqn:E; intros H.
  - exists p. apply stat_system in H as [H1 H2]. repeat split; auto. apply stat_pos; auto.
  - exfalso. apply H, stat_nonsingular.
Qed.
End Stat.

(** starting from the stationary law never fails *)
Lemma forwards_stat_ok L fuel fin_t dim gen : 0 < fin_t -> (2 <= dim)%nat -> generator dim gen -> pos_off dim gen ->
  solve_ok L dim (stat_matrix gen) stat_rhs ->
  safe (sample_forwards L fuel fin_t None dim gen)
    (fun s => wf_skel s /\ sk_fin s = fin_t /\ Forall (fun i => (i < dim)%nat) (sk_x s)).
Proof.
  intros HF HD HG HO HS. apply safe_any.
  eapply safe_weaken; [apply safe_returns_and with (P := fun _ => True)|].
  - unfold sample_forwards. destruct (get_stat_prob dim gen ltac:(lia) (proj2 HG) HO L HS) as (p & E & P1 & P2 & _).
    eapply safe_bind with (Q := fun x => (x < dim)%nat).
    + eapply safe_bind; [apply total_safe; eapply total_lift_opt; [apply E|]|].
      * exact (eq_refl p).
      * intros p' ->. eapply safe_weaken; [apply total_safe, total_choice|].
        -- unfold is_prob_vector. apply andb_true_iff; split.
           ++ apply forallb_forall. intros v Hv. unfold vec_list in Hv. apply in_map_iff in Hv as (i & <- & Hi).
              apply in_seq in Hi. apply Rleb_true. specialize (P2 i ltac:(lia)). lra.
           ++ apply Reqb_true. unfold vec_list. rewrite rsum_list. auto.
        -- simpl. intros i Hi. destruct Hi as [_ Hi]. unfold vec_list in Hi. rewrite map_length, seq_length in Hi. auto.
    + intros x Hx. apply forwards_loop_safe; auto.
  - apply sample_forwards_spec; auto. intros x; discriminate.
  - simpl. intros s (_ & H1 & H2 & H3 & _). auto.
Qed.

(** ** sample_trial_generator *)
Lemma total_draw_lognormal G n : total_if G (draw_rs (repeat DLognormal n)) (fun l => length l = n /\ Forall (fun u => 0 < u) l).
Proof.
  eapply total_weaken; [apply total_draw_rs|]. intros l Hl. split.
  - revert n Hl; induction l as [|a l IH]; intros [|n] Hl; inversion Hl; subst; simpl; auto.
  - revert n Hl; induction l as [|a l IH]; intros [|n] Hl; inversion Hl; subst; constructor; eauto.
Qed.

Lemma fill_row_sum dim (A : mat) (d : vec) i : (i < dim)%nat ->
  rsum dim (fill_diagonal A d i) = rsum dim (fun j => if Nat.eqb i j then 0 else A i j) + d i.
Proof.
  intros Hi. transitivity (rsum dim (fun j => if Nat.eqb i j then 0 else A i j) + rsum dim (fun j => if Nat.eqb i j then d i else 0));
    [|rewrite (rsum_delta dim (fun _ => d i) i Hi); reflexivity].
  rewrite <- rsum_plus. apply rsum_ext. intros j _.
  unfold fill_diagonal. destruct (Nat.eqb i j); ring.
Qed.

Lemma trial_generator_ok dim : total (sample_trial_generator dim) (fun Q => generator dim Q /\ pos_off dim Q).
Proof.
  apply total_any. unfold sample_trial_generator. eapply total_bind; [apply total_draw_lognormal|].
  intros u [H1 H2]. apply total_ret.
  assert (PO : pos_off dim (fill_diagonal (fill_diagonal (fun i j => nth (i * dim + j) u 0) (fun _ => 0))
      (fun i => - rsum dim (fill_diagonal (fun i j => nth (i * dim + j) u 0) (fun _ => 0) i)))).
  { intros i j Hi Hj N. unfold fill_diagonal. destruct (Nat.eqb_spec i j); [contradiction|].
    rewrite Forall_forall in H2. apply H2, nth_In. rewrite H1. nia. }
  split; auto. split.
  - intros i j Hi Hj N. left. apply PO; auto.
  - intros i Hi. rewrite fill_row_sum by auto. rewrite (rsum_ext dim (fun j => if Nat.eqb i j then 0 else _)
      (fill_diagonal (fun i j => nth (i * dim + j) u 0) (fun _ => 0) i)); [lra|].
    intros j _. unfold fill_diagonal. destruct (Nat.eqb i j); auto.
Qed.
