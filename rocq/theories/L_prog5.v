(** The laws of whole bridge and backward paths. *)
From Coquelicot Require Import Hierarchy RInt RInt_analysis Series.
From Coq Require Import Reals List Bool Arith Lia Lra Sorted Permutation.
From Verif Require Import Base Np Rng L_rng M_mjp SpecMjp SpecLin SpecLaw SpecFdd SpecJumps L_list L_path L_law L_law2 L_law4 L_law5 L_bridge L_unif L_bridge2 L_bridge3 L_fdd1 L_fdd2 L_fdd3 L_fdd4 L_fdd5 L_lindemo L_mat L_jumps1 L_jumps3 L_prog1 L_prog2 L_prog3 L_prog4 Mat.
Import ListNotations.
Local Open Scope R_scope.

Lemma at_last : forall xs x, at_ x xs (length xs) = last xs x.
Proof. induction xs as [|y xs IH]; intros x; [reflexivity|]. rewrite last_cons, <- IH. reflexivity. Qed.
Lemma order_climbs : forall T (xs : list nat) bs lo, length bs = length xs -> in_order lo (combine bs xs) T -> climbs T lo bs.
Proof.
  intros T. induction xs as [|y xs IH]; intros [|b bs] lo HL H; try discriminate HL; cbn in *; [exact H|]. destruct H as [H1 H2]. split; [exact H1|].
  apply IH; [lia|exact H2].
Qed.

Lemma bridge_path_law : forall L dim gen T x xs f bs, generator dim gen -> (exists a, (a < dim)%nat /\ gen a a < 0) -> 0 < T -> expm_exact L ->
  (x < dim)%nat -> Forall (fun y => (y < dim)%nat) xs -> moves_on x xs -> last xs x = f -> 0 < get_trans L dim T gen x f ->
  length bs = length xs -> in_order 0 (combine bs xs) T ->
  exists p, (forall fuel, chance (sample_bridge L fuel T x f dim gen) (goes (x :: xs) bs) (p fuel)) /\
    Un_cv p (over_times T bs 0 (fun ts => path_density gen T 0 x ts xs) / get_trans L dim T gen x f).
Proof.
  intros L dim gen T x xs f bs Hgen Hneg HT HL Hx Hxs Hmv <- HC Hlen HO.
  pose proof (neg_rate dim gen Hneg) as Hrb. pose proof (order_climbs T xs bs 0 Hlen HO) as Hbs.
  rewrite <- (at_last xs x) in *.
  exists (fun fuel => rsum fuel (sumterm dim gen T x xs bs) / mass L dim gen T x (at_ x xs (length xs))). split.
  - intros fuel. apply bridge_paths; assumption.
  - rewrite <- (sum_is_density L dim gen T x xs bs Hgen Hrb HT HL Hx Hxs Hmv Hlen Hbs). apply bridge_paths_limit; assumption.
Qed.

Lemma given_end : forall L dim gen T x xs f bs, (2 <= dim)%nat -> generator dim gen -> (exists a, (a < dim)%nat /\ gen a a < 0) -> 0 < T -> expm_exact L ->
  (x < dim)%nat -> Forall (fun y => (y < dim)%nat) xs -> moves_on x xs -> last xs x = f -> 0 < get_trans L dim T gen x f ->
  length bs = length xs -> in_order 0 (combine bs xs) T ->
  exists q, (forall fuel, (length xs + 2 <= fuel)%nat -> chance (sample_forwards L fuel T (Some x) dim gen) (goes (x :: xs) bs) q) /\
  exists p, (forall fuel, chance (sample_bridge L fuel T x f dim gen) (goes (x :: xs) bs) (p fuel)) /\ Un_cv p (q / get_trans L dim T gen x f).
Proof.
  intros L dim gen T x xs f bs Hd Hgen Hneg HT HL Hx Hxs Hmv Hl HC Hlen HO.
  exists (over_times T bs 0 (fun ts => path_density gen T 0 x ts xs)). split.
  - intros fuel Hf. apply path_law; assumption.
  - apply bridge_path_law; assumption.
Qed.

Lemma bridge_starts : forall L dim gen T fuel i f, generator dim gen -> (exists a, (a < dim)%nat /\ gen a a < 0) -> 0 < T -> expm_exact L ->
  (i < dim)%nat -> (f < dim)%nat -> returns (sample_bridge L fuel T i f dim gen) (fun s => nth_error (sk_x s) 0 = Some i).
Proof.
  intros L dim gen T fuel i f Hgen Hneg HT HL Hi Hf o k V. pose proof (neg_rate dim gen Hneg) as Hrb.
  pose proof (sample_bridge_cases L dim gen T Hgen Hrb HT HL fuel i f o k V Hi Hf) as SC.
  destruct (fst (sample_bridge L fuel T i f dim gen o k)) as [s|e|]; [|destruct SC|exact Logic.I].
  destruct SC as [(_ & _ & ->)|[(_ & _ & _ & _ & _ & _ & _ & [l H] & _) _]]; [reflexivity|]. rewrite H. reflexivity.
Qed.

Lemma backwards_path_law : forall L dim gen T x xs f bs, generator dim gen -> (exists a, (a < dim)%nat /\ gen a a < 0) -> 0 < T -> expm_exact L ->
  (x < dim)%nat -> Forall (fun y => (y < dim)%nat) xs -> moves_on x xs -> last xs x = f -> 0 < get_trans L dim T gen x f ->
  length bs = length xs -> in_order 0 (combine bs xs) T ->
  exists p, (forall fuel, chance (sample_backwards L fuel T f dim gen) (goes (x :: xs) bs) (p fuel)) /\
    Un_cv p (over_times T bs 0 (fun ts => path_density gen T 0 x ts xs) / rsum dim (fun j => get_trans L dim T gen j f)).
Proof.
  intros L dim gen T x xs f bs Hgen Hneg HT HL Hx Hxs Hmv Hl HC Hlen HO.
  assert (Hf : (f < dim)%nat).
  { rewrite <- Hl, <- at_last. apply at_range; try assumption. lia. }
  destruct (bridge_path_law L dim gen T x xs f bs Hgen Hneg HT HL Hx Hxs Hmv Hl HC Hlen HO) as (p & P1 & P2).
  pose proof (neg_rate dim gen Hneg) as Hrb.
  pose proof (backwards_choice L dim gen T Hgen Hneg HT HL f Hf) as BC. cbv zeta in BC. destruct BC as [BC1 BC2].
  set (S0 := rsum dim (fun j => get_trans L dim T gen j f)) in *. set (bt := map (fun i => get_trans L dim T gen i f / S0) (seq 0 dim)) in *.
  assert (Lb : length bt = dim) by (unfold bt; rewrite map_length, seq_length; reflexivity).
  assert (Nb : nth x bt 0 = get_trans L dim T gen x f / S0).
  { unfold bt. rewrite (nth_indep _ 0 (get_trans L dim T gen 0%nat f / S0)) by (rewrite map_length, seq_length; exact Hx).
    rewrite (map_nth (fun i => get_trans L dim T gen i f / S0)), seq_nth by exact Hx. reflexivity. }
  exists (fun fuel => nth x bt 0 * p fuel). split.
  - intros fuel. unfold sample_backwards. fold S0 bt.
    pose proof (average_choice _ bt (fun i => sample_bridge L fuel T i f dim gen) (fun s => ind (goes (x :: xs) bs s)) (fun i => if Nat.eqb i x then p fuel else 0) BC1) as AC.
    rewrite Lb in AC. refine (average_eq _ _ _ _ _ _ (AC _)).
    + rewrite (rsum_ext dim _ (fun i => if Nat.eqb i x then nth i bt 0 * p fuel else 0)) by (intros i _; destruct (Nat.eqb i x); ring).
      apply (rsum_delta_r dim (fun i => nth i bt 0 * p fuel) x Hx).
    + intros i Hi Hp. destruct (Nat.eqb_spec i x) as [E|E]; [subst i; apply P1|].
      assert (Ci : 0 < get_trans L dim T gen i f) by (apply BC2; assumption).
      pose proof (bridge_law L dim gen T Hgen Hrb HT HL fuel i f [] Hi Hf Ci (Rlt_le _ _ HT) (Forall_nil _)) as BL.
      refine (average_swap _ _ _ _ _ _ (average_eq _ _ _ _ _ _ (average_scal _ _ _ _ 0 BL))); [|ring].
      intros o k V. pose proof (bridge_starts L dim gen T fuel i f Hgen Hneg HT HL Hi Hf o k V) as R0.
      destruct (fst (sample_bridge L fuel T i f dim gen o k)) as [s|e|]; try exact Logic.I. cbn in R0.
      unfold goes. destruct (list_eq_dec Nat.eq_dec (sk_x s) (x :: xs)) as [D|D]; [|cbn [ind]; ring].
      rewrite D in R0. injection R0 as R0. congruence.
  - assert (SP : 0 < S0).
    { unfold S0. apply (rsum_pos dim (fun j => get_trans L dim T gen j f) x); [intros j Hj; apply (trans_nonneg L dim gen T); assumption|exact Hx|exact HC]. }
    rewrite Nb. replace (over_times T bs 0 (fun ts => path_density gen T 0 x ts xs) / S0)
      with (get_trans L dim T gen x f / S0 * (over_times T bs 0 (fun ts => path_density gen T 0 x ts xs) / get_trans L dim T gen x f)) by (field; lra).
    apply CV_mult; [apply cv_const|exact P2].
Qed.
