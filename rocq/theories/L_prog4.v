(** The law of whole bridge paths: forward simulation given the final state. *)
From Coquelicot Require Import Hierarchy RInt RInt_analysis Series.
From Coq Require Import Reals List Bool Arith Lia Lra Sorted Permutation.
From Verif Require Import Base Np Rng L_rng M_mjp SpecMjp SpecLin SpecLaw SpecFdd SpecJumps SpecSupport L_can6 L_fwd4 L_list L_path L_law L_law2 L_law4 L_law5 L_bridge L_unif L_bridge2 L_bridge3 L_fdd1 L_fdd2 L_fdd3 L_fdd4 L_fdd5 L_lindemo L_mat L_jumps1 L_jumps3 L_prog1 L_prog2 L_prog3 Mat.
Import ListNotations.
Local Open Scope R_scope.

Lemma order_end : forall T (o : list (R * nat)) k lo, in_order lo o T -> in_order lo (o ++ [(T, k)]) T.
Proof. intros T. induction o as [|[u y] o IH]; intros k lo H; cbn in *; [split; [exact H|lra]|]. destruct H as [H1 H2]. split; [exact H1|apply IH; exact H2]. Qed.

Section Fwd.
  Variables (L : linalg) (dim : nat) (gen : mat) (T : R) (x0 : nat) (xs : list nat) (bs : list R).
  Hypothesis Hgen : generator dim gen.
  Hypothesis Hrb : 0 < rate_bound dim gen.
  Hypothesis HT : 0 < T.
  Hypothesis HL : expm_exact L.
  Hypothesis Hx0 : (x0 < dim)%nat.
  Hypothesis Hxs : Forall (fun y => (y < dim)%nat) xs.
  Hypothesis Hmv : moves_on x0 xs.
  Hypothesis Hlen : length bs = length xs.
  Hypothesis Hbs : climbs T 0 bs.
  Notation K := (length xs).
  Notation D := (S (S (S (length xs)))).
  Notation U := (up dim gen x0 xs).
  Notation tp := (tups (length xs) 1 bs).
  Notation ks := (seq 1 (length xs)).
  Notation PU := (fun t => get_trans L (S (S (S (length xs)))) t (up dim gen x0 xs)).
  Notation GU := (up_generator dim gen x0 xs Hgen Hrb Hx0 Hxs Hmv).
  Notation RU := (up_pos dim gen x0 xs Hrb Hx0 Hxs).

  Lemma at_seq : forall j, (j <= K)%nat -> at_ 0 ks j = j.
  Proof. intros j H. unfold at_. change (0%nat :: ks) with (seq 0 (S K)). rewrite seq_nth by lia. reflexivity. Qed.
  Lemma up_moves : forall k y, (k <= S (S K))%nat -> y <> k -> 0 < U k y -> st 0 ks k y = y.
  Proof.
    intros k y Hk Hne HU. unfold up, dl in HU. unfold st. rewrite seq_length. destruct (Nat.leb_spec k K) as [A|A].
    - rewrite (proj2 (Nat.eqb_neq y k) Hne) in HU. rewrite at_seq by exact A. rewrite (proj2 (Nat.eqb_neq y k) Hne).
      unfold nxt in HU. destruct (Nat.ltb_spec k K) as [B|B]; cbn [andb].
      + rewrite at_seq by lia. destruct (Nat.eqb_spec y (S k)) as [E|E]; [auto|]. destruct (Nat.eqb_spec y (S K)) as [E2|E2]; [auto|lra].
      + destruct (Nat.eqb_spec y (S K)) as [E2|E2]; [auto|]. destruct (Nat.eqb y (S k)); lra.
    - destruct (Nat.eqb_spec k (S K)) as [E|E]; [|lra]. subst k. rewrite (proj2 (Nat.eqb_neq y (S K)) Hne) in HU.
      destruct (Nat.eqb_spec y (S (S K))) as [E2|E2]; [auto|lra].
  Qed.
  Lemma lifted_self : forall js u k, (k <= S (S K))%nat -> jumping D U T u k js -> liftj 0 ks k js = js /\ lift 0 ks k (map snd js) = map snd js /\ dv k js = js.
  Proof.
    induction js as [|[v y] js IH]; intros u k Hk H; [repeat split|]. cbn [jumping] in H. destruct H as (H1 & H2 & H3 & H4 & H5).
    destruct (IH v y ltac:(lia) H5) as (I1 & I2 & I3). cbn [liftj map snd lift dv]. rewrite (up_moves k y Hk H3 H4), I1, I2, I3.
    rewrite (proj2 (Nat.eqb_neq y k) H3). repeat split.
  Qed.
  Lemma jump_sorted : forall js u k, jumping D U T u k js -> StronglySorted Rle (map fst js) /\ Forall (fun t => u < t < T) (map fst js).
  Proof.
    induction js as [|[v y] js IH]; intros u k H; [split; constructor|]. cbn [jumping] in H. destruct H as (H1 & H2 & H3 & H4 & H5).
    destruct (IH v y H5) as [I1 I2]. cbn [map fst]. split.
    - apply SSorted_cons; [exact I1|]. eapply Forall_impl; [|exact I2]. intros a Ha. cbn in *. lra.
    - apply Forall_cons; [exact H1|]. eapply Forall_impl; [|exact I2]. intros a Ha. cbn in *. lra.
  Qed.
  Lemma seen_end : forall js k, Forall (fun t => t < T) (map fst js) -> seen k js T = last (map snd js) k.
  Proof.
    induction js as [|[v y] js IH]; intros k H; [reflexivity|]. cbn [map fst snd] in *. inversion H; subst. cbn [seen]. destruct (Rle_dec v T) as [A|A]; [|lra].
    rewrite last_cons. apply IH. assumption.
  Qed.
  Lemma fwd_event : forall js, jumping D U T 0 0 js ->
    ind (goes (0%nat :: ks) bs (path T 0 js)) = lsum (fun o => ind (visits (o ++ [(T, K)]) (path T 0 js))) tp.
  Proof.
    intros js HJ. destruct (lifted_self js 0 0 ltac:(lia) HJ) as (E1 & E2 & E3). destruct (jump_sorted js 0 0 HJ) as [HS HF].
    assert (EP : path T 0 js = mk_skel (0 :: map fst (dv 0 js)) (0%nat :: map snd (dv 0 js)) T) by (rewrite E3; reflexivity).
    rewrite EP at 1. rewrite goes_good.
    rewrite good_chk; [|lia|rewrite seq_length; lia|exact HS].
    rewrite chk_tups, E1, E2, seq_length. apply lsum_ext. intros o _. f_equal. unfold visits, path. cbn [sk_t sk_x combine]. rewrite combine_fst_snd, forallb_app. f_equal.
    cbn [forallb fst snd]. rewrite andb_true_r, seen_end; [reflexivity|]. eapply Forall_impl; [|exact HF]. intros a Ha. cbn in *. lra.
  Qed.

  Lemma sum_chance : forall l, (forall o, In o l -> In o tp) ->
    exists p, (forall fuel, average (sample_forwards L fuel T (Some 0%nat) D U) (fun s => lsum (fun o => ind (visits (o ++ [(T, K)]) s)) l) (p fuel)) /\
      Un_cv p (lsum (fun o => markov PU 0 0 (o ++ [(T, K)])) l).
  Proof.
    induction l as [|o l IH]; intros H.
    - exists (fun _ => 0). split; [|apply cv_const].
      destruct (forwards_fdd L D U T GU HT HL 0%nat [] ltac:(lia) ltac:(lia) (Rlt_le _ _ HT) (Forall_nil _)) as (p & H1 & _).
      intros fuel. refine (average_ext _ _ _ _ _ _ (average_eq _ _ _ _ _ _ (average_scal _ _ _ _ 0 (H1 fuel)))); [intros a; unfold lsum; cbn [map fold_right]; ring|ring].
    - destruct (IH (fun c Hc => H c (or_intror Hc))) as (p & P1 & P2). assert (Ho : In o tp) by (apply H; left; reflexivity).
      assert (IO : in_order 0 (o ++ [(T, K)]) T) by (apply order_end; apply (tp_order T xs bs Hbs o Ho)).
      assert (FO : Forall (fun c => (snd c < D)%nat) (o ++ [(T, K)])).
      { apply Forall_app. split; [eapply tp_range; eassumption|]. apply Forall_cons; [cbn; lia|apply Forall_nil]. }
      destruct (forwards_fdd L D U T GU HT HL 0%nat (o ++ [(T, K)]) ltac:(lia) ltac:(lia) IO FO) as (q & Q1 & Q2).
      exists (fun fuel => q fuel + p fuel). split.
      + intros fuel. refine (average_ext _ _ _ _ _ _ (average_plus _ _ _ _ _ _ (Q1 fuel) (P1 fuel))). intros a. rewrite lsum_cons. reflexivity.
      + rewrite lsum_cons. apply CV_plus; assumption.
  Qed.

  Lemma diag' : forall a, (a <= K)%nat -> U a a = gen (at_ x0 xs a) (at_ x0 xs a).
  Proof. intros a H. apply up_diag; assumption. Qed.
  Lemma next' : forall a, (a < K)%nat -> U a (S a) = gen (at_ x0 xs a) (at_ x0 xs (S a)).
  Proof. intros a H. apply up_next; assumption. Qed.
  Lemma skip' : forall k, (k < K)%nat -> skipn k xs = at_ x0 xs (S k) :: skipn (S k) xs.
  Proof. intros k H. apply skip_at; assumption. Qed.
  Lemma density_up : forall ts k t, (k <= K)%nat -> path_density U T t k ts (seq (S k) (K - k)) = path_density gen T t (at_ x0 xs k) ts (skipn k xs).
  Proof.
    induction ts as [|t' ts IH]; intros k t Hk; cbn [path_density].
    - rewrite diag' by exact Hk. destruct (seq (S k) (K - k)), (skipn k xs); reflexivity.
    - destruct (Nat.eq_dec k K) as [E|E].
      + subst k. rewrite Nat.sub_diag, skipn_all. cbn [seq]. rewrite diag' by lia. reflexivity.
      + rewrite (skip' k) by lia. replace (K - k)%nat with (S (K - S k)) by lia. cbn [seq]. rewrite diag', next', IH by lia. reflexivity.
  Qed.

  Lemma sum_is_density : summarkov L dim gen T x0 xs bs = over_times T bs 0 (fun ts => path_density gen T 0 x0 ts xs).
  Proof.
    destruct (sum_chance tp (fun o Ho => Ho)) as (p & P1 & P2).
    assert (FK : Forall (fun y => (y < D)%nat) ks) by (apply Forall_forall; intros y Hy; apply in_seq in Hy; lia).
    assert (MK : moves_on 0 ks).
    { assert (G : forall n k, moves_on k (seq (S k) n)) by (induction n as [|n IH]; intros k; cbn; [exact Logic.I|split; [lia|apply IH]]). apply G. }
    assert (E : forall fuel, (K + 2 <= fuel)%nat -> p fuel = over_times T bs 0 (fun ts => path_density gen T 0 x0 ts xs)).
    { intros fuel Hf. pose proof (path_law L D U T fuel 0%nat ks bs GU ltac:(lia) HT ltac:(lia) FK MK ltac:(rewrite seq_length; exact Hlen) ltac:(rewrite seq_length; exact Hf)) as PL.
      rewrite (over_ext T bs 0 _ (fun ts => path_density gen T 0 x0 ts xs)) in PL.
      2:{ intros ts. pose proof (density_up ts 0 0 ltac:(lia)) as DU. rewrite Nat.sub_0_r in DU. exact DU. }
      symmetry. refine (average_unique _ _ _ _ _ PL _). refine (average_swap _ _ _ _ _ _ (P1 fuel)).
      intros o i Ho. pose proof (forwards_jumps D U T ltac:(lia) L fuel (Some 0%nat) HT ltac:(intros x [= <-]; lia) o i Ho) as R0.
      destruct (fst (sample_forwards L fuel T (Some 0%nat) D U o i)) as [s|e|]; try exact Logic.I; try reflexivity.
      cbn in R0. destruct R0 as (x & js & _ & Ex & HJ & ->). rewrite (Ex 0%nat eq_refl) in *. symmetry. apply fwd_event. exact HJ. }
    apply (UL_sequence p); [exact P2|]. intros eps He. exists (K + 2)%nat. intros n Hn. rewrite (E n Hn). unfold R_dist. rewrite Rminus_diag_eq by reflexivity. rewrite Rabs_R0. exact He.
  Qed.
End Fwd.
