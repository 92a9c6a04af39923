(** The law of a redrawn partition, and when it is that of the stationary process. *)
From Coquelicot Require Import Rcomplements Hierarchy Rbar.
From Coq Require Import Reals List Bool Arith Lia Lra.
From Verif Require Import Base Np Rng L_list L_rng M_mjp SpecMjp SpecLin SpecLaw SpecFdd L_law L_law2 L_law4 L_law5 L_bridge L_bridge3 L_stat L_mutate L_fdd1 L_fdd2 L_fdd3 L_fdd5 L_fwd3 L_fwd4 L_fwd5 L_mat Mat.
Import ListNotations.
Local Open Scope R_scope.

Lemma ind_and : forall a b, ind (a && b) = ind a * ind b.
Proof. intros [] []; cbn; ring. Qed.
Lemma first_some : forall s, sk_x s <> [] -> hd_error (sk_x s) = Some (first_of s).
Proof. intros s H. unfold first_of. destruct (sk_x s) as [|a l]; [congruence|reflexivity]. Qed.
Lemma final_some : forall s, sk_x s <> [] -> last_opt (sk_x s) = Some (final_of s).
Proof. intros s H. unfold final_of. destruct (exists_last H) as (l & a & ->). rewrite last_opt_app, last_last. reflexivity. Qed.
Lemma first_in : forall dim s, sk_x s <> [] -> Forall (fun i => (i < dim)%nat) (sk_x s) -> (first_of s < dim)%nat.
Proof. intros dim s H HF. unfold first_of. destruct (sk_x s) as [|a l]; [congruence|]. inversion HF; assumption. Qed.
Lemma final_in : forall dim s, sk_x s <> [] -> Forall (fun i => (i < dim)%nat) (sk_x s) -> (final_of s < dim)%nat.
Proof. intros dim s H HF. unfold final_of. destruct (exists_last H) as (l & a & E). rewrite E in *. rewrite last_last. apply Forall_app in HF as [_ HF]. inversion HF; assumption. Qed.

Lemma rsum_const_n : forall n x, rsum n (fun _ => x) = INR n * x.
Proof. induction n as [|n IH]; intros x; [cbn; ring|]. rewrite S_INR. cbn [rsum]. rewrite IH. ring. Qed.

Section Mutate.
  Variables (L : linalg) (dim : nat) (gen : mat).
  Hypothesis Hdim : (2 <= dim)%nat.
  Hypothesis Hgen : generator dim gen.
  Hypothesis Hoff : pos_off dim gen.
  Hypothesis HL : expm_exact L.
  Notation Pt := (fun t => get_trans L dim t gen).
  Let Hneg : exists a, (a < dim)%nat /\ gen a a < 0.
  Proof.
    exists 0%nat. split; [lia|]. destruct Hgen as [_ G2]. specialize (G2 0%nat ltac:(lia)).
    assert (0 < rsum dim (fun j => if Nat.eqb 0 j then 0 else gen 0%nat j)).
    { apply rsum_pos with (i := 1%nat); [|lia|].
      - intros j Hj. destruct (Nat.eqb_spec 0 j); [lra|]. left; apply Hoff; lia.
      - apply Hoff; lia. }
    assert (E : rsum dim (gen 0%nat) = gen 0%nat 0%nat + rsum dim (fun j => if Nat.eqb 0 j then 0 else gen 0%nat j)).
    { transitivity (rsum dim (fun j => if Nat.eqb 0 j then gen 0%nat j else 0) + rsum dim (fun j => if Nat.eqb 0 j then 0 else gen 0%nat j));
        [|rewrite rsum_delta by lia; auto]. rewrite <- rsum_plus. apply rsum_ext.
      intros j _. destruct (Nat.eqb 0 j); lra. }
    lra.
  Qed.

  Lemma mids_law : forall os mids, Forall2 (asked dim) os mids ->
    exists c, (forall fuel oq f, average (mapM (fun s => do a <- lift_opt IndexError (hd_error (sk_x s)); do b <- lift_opt IndexError (last_opt (sk_x s));
                   sample_bridge L fuel (sk_fin s) a b dim gen) mids) (fun ms => ind (all_visit (os ++ [oq]) (ms ++ [f]))) (c fuel * ind (visits oq f))) /\
      Un_cv c (fold_right Rmult 1 (map (fun c => pinned Pt (sk_fin (snd c)) (first_of (snd c)) (final_of (snd c)) (fst c)) (combine os mids))).
  Proof.
    induction 1 as [|o s os mids H _ IH].
    - exists (fun _ => 1). split; [|apply cv_const]. intros fuel oq f. cbn [mapM app].
      apply (average_eq _ _ _ (ind (all_visit [oq] ([] ++ [f])))); [|apply (average_ret _ [] (fun ms => ind (all_visit [oq] (ms ++ [f]))))].
      unfold all_visit; cbn [app combine forallb fst snd]. rewrite andb_true_r. ring.
    - destruct IH as (c & C1 & C2). destruct H as (D1 & D2 & D3 & D4 & D5).
      destruct (bridge_fdd L dim gen (sk_fin s) Hgen (neg_rate dim gen Hneg) D1 HL (first_of s) (final_of s) o (first_in dim s D2 D3) (final_in dim s D2 D3)
        (trans_all_pos L dim gen Hdim Hgen Hoff HL (sk_fin s) _ _ D1 (first_in dim s D2 D3) (final_in dim s D2 D3)) D4 D5) as (p & P1 & P2).
      exists (fun fuel => p fuel * c fuel). split; [|cbn [combine map fold_right fst snd]; apply CV_mult; assumption].
      intros fuel oq f. cbn [mapM].
      set (tail := mapM _ mids).
      apply (average_comp _ (bind (sample_bridge L fuel (sk_fin s) (first_of s) (final_of s) dim gen) (fun b => bind tail (fun bs => ret (b :: bs))))).
      { intros ora k _. unfold bind. rewrite (first_some s D2), (final_some s D2). reflexivity. }
      apply (average_bind0 _ _ _ _ _ (fun b => (c fuel * ind (visits oq f)) * ind (visits o b))).
      + apply (average_eq _ _ _ ((c fuel * ind (visits oq f)) * p fuel)); [ring|]. apply average_scal. apply P1.
      + intros b. apply (average_map _ _ tail (fun bs => b :: bs)).
        apply (average_eq _ _ _ (ind (visits o b) * (c fuel * ind (visits oq f)))); [ring|].
        apply (average_ext _ _ (fun bs => ind (visits o b) * ind (all_visit (os ++ [oq]) (bs ++ [f])))).
        * intros bs. rewrite <- ind_and. reflexivity.
        * apply average_scal. apply C1.
  Qed.

  (** the pieces are redrawn independently, each with its conditional law *)
  Lemma mutate_law : forall p mids q o0 os oq, asked dim o0 p -> Forall2 (asked dim) os mids -> asked dim oq q ->
    exists c, (forall fuel, chance (mutate_partition L fuel (p :: mids ++ [q]) dim gen) (all_visit (o0 :: os ++ [oq])) (c fuel)) /\
      Un_cv c (rsum dim (fun i => markov Pt 0 i (o0 ++ [(sk_fin p, final_of p)])) / rsum dim (fun j => Pt (sk_fin p) j (final_of p)) *
        fold_right Rmult 1 (map (fun c => pinned Pt (sk_fin (snd c)) (first_of (snd c)) (final_of (snd c)) (fst c)) (combine os mids)) *
        markov Pt 0 (first_of q) oq).
  Proof.
    intros p mids q o0 os oq (A1 & A2 & A3 & A4 & A5) HM (B1 & B2 & B3 & B4 & B5).
    destruct (backwards_fdd L dim gen (sk_fin p) Hgen (neg_rate dim gen Hneg) A1 HL (final_of p) o0 Hneg (final_in dim p A2 A3) A4 A5) as (a & AA1 & AA2).
    destruct (forwards_fdd L dim gen (sk_fin q) Hgen B1 HL (first_of q) oq Hdim (first_in dim q B2 B3) B4 B5) as (b & BB1 & BB2).
    destruct (mids_law os mids HM) as (m & M1 & M2).
    exists (fun fuel => a fuel * m fuel * b fuel). split.
    - intros fuel. unfold chance.
      set (ms := fun fuel => mapM (fun s => do a <- lift_opt IndexError (hd_error (sk_x s)); do b <- lift_opt IndexError (last_opt (sk_x s));
                   sample_bridge L fuel (sk_fin s) a b dim gen) mids).
      apply (average_comp _ (bind (sample_backwards L fuel (sk_fin p) (final_of p) dim gen) (fun i =>
        bind (sample_forwards L fuel (sk_fin q) (Some (first_of q)) dim gen) (fun f => bind (ms fuel) (fun l => ret (i :: l ++ [f])))))).
      { intros ora k _. unfold mutate_partition. destruct (mids ++ [q]) as [|z r] eqn:E; [destruct mids; discriminate|].
        rewrite <- E. rewrite last_last. unfold bind. rewrite (final_some p A2). cbn [lift_opt]. 
        unfold but_last. rewrite removelast_last. rewrite (first_some q B2). reflexivity. }
      apply (average_bind0 _ _ _ _ _ (fun i => (m fuel * b fuel) * ind (visits o0 i))).
      { apply (average_eq _ _ _ ((m fuel * b fuel) * a fuel)); [ring|]. apply average_scal. apply AA1. }
      intros i. apply (average_bind0 _ _ _ _ _ (fun f => (m fuel * ind (visits o0 i)) * ind (visits oq f))).
      { apply (average_eq _ _ _ ((m fuel * ind (visits o0 i)) * b fuel)); [ring|]. apply average_scal. apply BB1. }
      intros f. apply (average_map _ _ (ms fuel) (fun l => i :: l ++ [f])).
      apply (average_eq _ _ _ (ind (visits o0 i) * (m fuel * ind (visits oq f)))); [ring|].
      apply (average_ext _ _ (fun l => ind (visits o0 i) * ind (all_visit (os ++ [oq]) (l ++ [f])))).
      + intros l. rewrite <- ind_and. reflexivity.
      + apply average_scal. apply M1.
    - apply CV_mult; [apply CV_mult|]; assumption.
  Qed.

  (** ** when is the first piece stationary? *)
  Variable p : vec.
  Hypothesis P1 : rsum dim p = 1.
  Hypothesis P2 : forall i, (i < dim)%nat -> 0 < p i.
  Hypothesis P3 : stationary dim gen p.

  Lemma backwards_stationary : forall T, 0 < T ->
    ((forall f obs, (f < dim)%nat -> in_order 0 obs T -> Forall (fun c => (snd c < dim)%nat) obs ->
      exists c, (forall fuel, chance (sample_backwards L fuel T f dim gen) (visits obs) (c fuel)) /\
        Un_cv c (rsum dim (fun i => p i * markov Pt 0 i (obs ++ [(T, f)])) / p f))
    <-> forall i, (i < dim)%nat -> p i = / INR dim).
  Proof.
    intros T HT. split.
    - intros H. 
      assert (HE : forall i, (i < dim)%nat -> p i = p 0%nat / rsum dim (fun j => Pt T j 0%nat)).
      { intros i Hi. assert (HO : in_order 0 [(0, i)] T) by (cbn; lra).
        assert (HR : Forall (fun c : R * nat => (snd c < dim)%nat) [(0, i)]) by (constructor; [exact Hi|constructor]).
        destruct (H 0%nat [(0, i)] ltac:(lia) HO HR) as (c & C1 & C2).
        destruct (backwards_fdd L dim gen T Hgen (neg_rate dim gen Hneg) HT HL 0%nat [(0, i)] Hneg ltac:(lia) HO HR) as (d & D1 & D2).
        assert (E : rsum dim (fun k => p k * markov Pt 0 k ([(0, i)] ++ [(T, 0%nat)])) / p 0%nat =
          rsum dim (fun k => markov Pt 0 k ([(0, i)] ++ [(T, 0%nat)])) / rsum dim (fun j => Pt T j 0%nat)).
        { apply (UL_sequence c); [exact C2|]. apply (Un_cv_ext d); [|exact D2]. intros n. exact (average_unique _ _ _ _ _ (D1 n) (C1 n)). }
        assert (E0 : forall k, (k < dim)%nat -> markov Pt 0 k ([(0, i)] ++ [(T, 0%nat)]) = if Nat.eqb i k then Pt T i 0%nat else 0).
        { intros k Hk. cbn [app markov]. rewrite (Rminus_0_r T), (Rminus_0_r 0). rewrite <- (tr_trans L dim gen HL 0 k i Hk Hi), (tr_0 dim gen k i Hk Hi). rewrite (Nat.eqb_sym i k). destruct (Nat.eqb_spec k i) as [-> |]; cbn [ind]; ring. }
        rewrite (rsum_ext dim (fun k => markov Pt 0 k ([(0, i)] ++ [(T, 0%nat)])) _ E0), (rsum_delta dim (fun _ => Pt T i 0%nat) i Hi) in E.
        rewrite (rsum_ext dim (fun k => p k * markov Pt 0 k ([(0, i)] ++ [(T, 0%nat)])) (fun k => if Nat.eqb i k then p k * Pt T i 0%nat else 0)) in E
          by (intros k Hk; rewrite (E0 k Hk); destruct (Nat.eqb i k); ring).
        rewrite (rsum_delta dim (fun k => p k * Pt T i 0%nat) i Hi) in E.
        pose proof (trans_all_pos L dim gen Hdim Hgen Hoff HL T i 0%nat HT Hi ltac:(lia)) as PP. pose proof (P2 0%nat ltac:(lia)) as Q0.
        assert (QS : 0 < rsum dim (fun j => Pt T j 0%nat)).
        { apply (rsum_pos dim _ 0%nat); [intros j Hj; left; apply trans_all_pos; auto; lia|lia|apply trans_all_pos; auto; lia]. }
        cbv beta in *. apply (Rmult_eq_reg_r (get_trans L dim T gen i 0%nat / p 0%nat)); [|apply Rgt_not_eq, Rdiv_lt_0_compat; assumption].
        replace (p i * (get_trans L dim T gen i 0%nat / p 0%nat)) with (p i * get_trans L dim T gen i 0%nat / p 0%nat) by (field; lra).
        rewrite E. field. lra. }
      intros i Hi. assert (ES : INR dim * (p 0%nat / rsum dim (fun j => Pt T j 0%nat)) = 1).
      { rewrite <- P1. rewrite (rsum_ext dim p (fun _ => p 0%nat / rsum dim (fun j => Pt T j 0%nat)) HE). symmetry. apply rsum_const_n. }
      rewrite (HE i Hi). assert (0 < INR dim) by (apply lt_0_INR; lia). apply (Rmult_eq_reg_l (INR dim)); [|lra]. rewrite ES. field. lra.
    - intros HU f obs Hf HO HR.
      destruct (backwards_fdd L dim gen T Hgen (neg_rate dim gen Hneg) HT HL f obs Hneg Hf HO HR) as (c & C1 & C2).
      exists c. split; [exact C1|].
      assert (HD : 0 < INR dim) by (apply lt_0_INR; lia).
      assert (S1 : rsum dim (fun j => Pt T j f) = 1).
      { pose proof (stationary_trans L dim gen HL p P3 T f Hf) as ST. rewrite (HU f Hf) in ST.
        rewrite (rsum_ext dim _ (fun j => / INR dim * Pt T j f)) in ST by (intros j Hj; rewrite (HU j Hj); reflexivity).
        rewrite rsum_scal_l in ST. apply (Rmult_eq_reg_l (/ INR dim)); [lra|]. apply Rinv_neq_0_compat. lra. }
      replace (rsum dim (fun i => p i * markov Pt 0 i (obs ++ [(T, f)])) / p f) with (rsum dim (fun i => markov Pt 0 i (obs ++ [(T, f)])) / rsum dim (fun j => Pt T j f)); [exact C2|].
      rewrite S1, (HU f Hf). rewrite (rsum_ext dim (fun i => p i * _) (fun i => / INR dim * markov Pt 0 i (obs ++ [(T, f)]))) by (intros j Hj; rewrite (HU j Hj); reflexivity).
      rewrite rsum_scal_l. field. lra.
  Qed.
End Mutate.
