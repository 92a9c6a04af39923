(** The chain that records how far a path has followed a given sequence of states. *)
From Coquelicot Require Import Hierarchy.
From Coq Require Import Reals List Bool Arith Lia Lra.
From Verif Require Import Base Np Rng L_rng M_mjp SpecMjp SpecLin SpecLaw SpecJumps L_law L_law2 L_law4 L_law5 L_bridge L_unif L_fdd1 L_fdd2 L_lindemo L_mat Mat.
Import ListNotations.
Local Open Scope R_scope.

Section Progress.
  Variables (dim : nat) (gen : mat) (x0 : nat) (xs : list nat).
  Hypothesis Hgen : generator dim gen.
  Hypothesis Hrb : 0 < rate_bound dim gen.
  Hypothesis Hx0 : (x0 < dim)%nat.
  Hypothesis Hxs : Forall (fun y => (y < dim)%nat) xs.
  Hypothesis Hmv : moves_on x0 xs.
  Notation K := (length xs).
  Notation rb := (rate_bound dim gen).
  Definition at_ (k : nat) : nat := nth k (x0 :: xs) 0%nat.
  Notation f := (at_ K).
  Notation D := (S (S (S K))).
  Notation P := (dtrans dim gen).
  Notation Q := (mpow dim (dtrans dim gen)).

  Lemma at_range : forall k, (k <= K)%nat -> (at_ k < dim)%nat.
  Proof.
    intros k Hk. unfold at_. assert (F : Forall (fun y => (y < dim)%nat) (x0 :: xs)) by (apply Forall_cons; assumption).
    rewrite Forall_forall in F. apply F, nth_In. cbn. lia.
  Qed.
  Lemma moves_nth : forall l a k, moves_on a l -> (k < length l)%nat -> nth (S k) (a :: l) 0%nat <> nth k (a :: l) 0%nat.
  Proof.
    induction l as [|y l IH]; intros a k H Hk; [cbn in Hk; lia|]. cbn in H. destruct H as [H1 H2]. destruct k as [|k]; [exact H1|].
    apply (IH y k H2). cbn in Hk. lia.
  Qed.
  Lemma at_moves : forall k, (k < K)%nat -> at_ (S k) <> at_ k.
  Proof. intros k Hk. apply moves_nth; assumption. Qed.

  (** the rate of the next move of the sequence *)
  Definition nxt (a : nat) : R := if Nat.ltb a K then gen (at_ a) (at_ (S a)) else 0.
  Definition dl (b a : nat) (v : R) : R := if Nat.eqb b a then v else 0.
  (** positions 0..K, then K+1 after leaving the sequence, then K+2 *)
  Definition up : mat := fun a b =>
    if Nat.leb a K then dl b a (gen (at_ a) (at_ a)) + dl b (S a) (nxt a) + dl b (S K) (- gen (at_ a) (at_ a) - nxt a)
    else if Nat.eqb a (S K) then dl b (S K) (- rb) + dl b (S (S K)) rb
    else 0.
  Lemma dl_sum : forall n a v, (a < n)%nat -> rsum n (fun b => dl b a v) = v.
  Proof. intros n a v H. unfold dl. apply (rsum_delta_r n (fun _ => v) a H). Qed.
  Lemma dl_nonneg : forall b a v, 0 <= v -> 0 <= dl b a v.
  Proof. intros b a v H. unfold dl. destruct (Nat.eqb b a); lra. Qed.

  Lemma row_two : forall x y, (x < dim)%nat -> (y < dim)%nat -> y <> x -> gen x x + gen x y <= 0.
  Proof.
    intros x y Hx Hy Hne. destruct Hgen as [G1 G2]. pose proof (G2 x Hx) as E.
    assert (T0 : (fun j => if Nat.eqb j x then 0 else gen x j) y <= rsum dim (fun j => if Nat.eqb j x then 0 else gen x j)).
    { apply (rsum_term dim (fun j => if Nat.eqb j x then 0 else gen x j) y); [|exact Hy]. intros j Hj. destruct (Nat.eqb_spec j x) as [E'|E']; [lra|]. apply G1; auto. }
    cbn beta in T0. rewrite (proj2 (Nat.eqb_neq y x) Hne) in T0.
    assert (E2 : rsum dim (gen x) = rsum dim (fun j => if Nat.eqb j x then 0 else gen x j) + gen x x).
    { rewrite <- (rsum_delta_r dim (fun j => gen x j) x Hx), <- rsum_plus. apply rsum_ext. intros j _. destruct (Nat.eqb j x); ring. }
    lra.
  Qed.
  Lemma diag_le : forall x, (x < dim)%nat -> gen x x <= 0.
  Proof.
    intros x Hx. destruct Hgen as [G1 G2]. pose proof (G2 x Hx) as E.
    assert (T0 : 0 <= rsum dim (fun j => if Nat.eqb j x then 0 else gen x j)).
    { apply rsum_nonneg. intros j Hj. destruct (Nat.eqb_spec j x) as [E'|E']; [lra|]. apply G1; auto. }
    assert (E2 : rsum dim (gen x) = rsum dim (fun j => if Nat.eqb j x then 0 else gen x j) + gen x x).
    { rewrite <- (rsum_delta_r dim (fun j => gen x j) x Hx), <- rsum_plus. apply rsum_ext. intros j _. destruct (Nat.eqb j x); ring. }
    lra.
  Qed.
  Lemma nxt_nonneg : forall a, 0 <= nxt a.
  Proof.
    intros a. unfold nxt. destruct (Nat.ltb_spec a K) as [H|H]; [|lra]. apply (proj1 Hgen); [apply at_range; lia|apply at_range; lia|].
    intros E. exact (at_moves a H (eq_sym E)).
  Qed.
  Lemma left_nonneg : forall a, (a <= K)%nat -> 0 <= - gen (at_ a) (at_ a) - nxt a.
  Proof.
    intros a Ha. unfold nxt. destruct (Nat.ltb_spec a K) as [H|H].
    - pose proof (row_two (at_ a) (at_ (S a)) (at_range a Ha) (at_range (S a) H) (at_moves a H)). lra.
    - pose proof (diag_le (at_ a) (at_range a Ha)). lra.
  Qed.

  Lemma up_generator : generator D up.
  Proof.
    split.
    - intros a b Ha Hb Hne. unfold up. destruct (Nat.leb_spec a K) as [H|H].
      + pose proof (nxt_nonneg a). pose proof (left_nonneg a H).
        assert (E : dl b a (gen (at_ a) (at_ a)) = 0) by (unfold dl; rewrite (proj2 (Nat.eqb_neq b a)) by congruence; reflexivity).
        rewrite E. pose proof (dl_nonneg b (S a) _ H0). pose proof (dl_nonneg b (S K) _ H1). lra.
      + destruct (Nat.eqb_spec a (S K)) as [E|E]; [|lra]. subst a.
        assert (E : dl b (S K) (- rb) = 0) by (unfold dl; rewrite (proj2 (Nat.eqb_neq b (S K))) by congruence; reflexivity).
        rewrite E. pose proof (dl_nonneg b (S (S K)) rb ltac:(lra)). lra.
    - intros a Ha. destruct (Nat.leb_spec a K) as [H|H].
      + rewrite (rsum_ext D (up a) (fun b => (dl b a (gen (at_ a) (at_ a)) + dl b (S a) (nxt a)) + dl b (S K) (- gen (at_ a) (at_ a) - nxt a))).
        2:{ intros b _. unfold up. rewrite (proj2 (Nat.leb_le a K) H). reflexivity. }
        rewrite rsum_plus, rsum_plus, !dl_sum by lia. ring.
      + destruct (Nat.eq_dec a (S K)) as [E|E].
        * subst a. rewrite (rsum_ext D (up (S K)) (fun b => dl b (S K) (- rb) + dl b (S (S K)) rb)).
          2:{ intros b _. unfold up. rewrite (proj2 (Nat.leb_gt (S K) K)) by lia. rewrite Nat.eqb_refl. reflexivity. }
          rewrite rsum_plus, !dl_sum by lia. ring.
        * apply rsum_0. intros b _. unfold up. rewrite (proj2 (Nat.leb_gt a K)) by lia. rewrite (proj2 (Nat.eqb_neq a (S K)) E). reflexivity.
  Qed.
  Lemma up_diag : forall a, (a <= K)%nat -> up a a = gen (at_ a) (at_ a).
  Proof.
    intros a H. unfold up, dl. rewrite (proj2 (Nat.leb_le a K) H), Nat.eqb_refl, (proj2 (Nat.eqb_neq a (S a))), (proj2 (Nat.eqb_neq a (S K))) by lia. ring.
  Qed.
  Lemma up_next : forall a, (a < K)%nat -> up a (S a) = gen (at_ a) (at_ (S a)).
  Proof.
    intros a H. unfold up, dl. rewrite (proj2 (Nat.leb_le a K)), Nat.eqb_refl, (proj2 (Nat.eqb_neq (S a) a)), (proj2 (Nat.eqb_neq (S a) (S K))) by lia.
    unfold nxt. rewrite (proj2 (Nat.ltb_lt a K) H). ring.
  Qed.
  Lemma up_rate : rate_bound D up = rb.
  Proof.
    apply Rle_antisym.
    - unfold rate_bound at 1.
      assert (B : forall j, (j < D)%nat -> - up j j <= rb).
      { intros j Hj. destruct (Nat.leb_spec j K) as [H|H]; [rewrite up_diag by exact H; apply rate_bound_ge, at_range, H|].
        unfold up. rewrite (proj2 (Nat.leb_gt j K) H). destruct (Nat.eqb_spec j (S K)) as [E|E]; [|lra]. subst j. unfold dl.
        rewrite Nat.eqb_refl, (proj2 (Nat.eqb_neq (S K) (S (S K)))) by lia. lra. }
      destruct (np_min_from_mem (up 0%nat 0%nat) (map (fun i => up i i) (seq 1 (D - 1)))) as [E|E].
      + rewrite E. apply B. lia.
      + apply in_map_iff in E as (j & E & Hj). apply in_seq in Hj. rewrite <- E. apply B. lia.
    - pose proof (rate_bound_ge D up (S K) ltac:(lia)) as B. unfold up in B at 1. rewrite (proj2 (Nat.leb_gt (S K) K)) in B by lia.
      rewrite Nat.eqb_refl in B. unfold dl in B. rewrite Nat.eqb_refl, (proj2 (Nat.eqb_neq (S K) (S (S K)))) in B by lia. lra.
  Qed.
  Lemma up_pos : 0 < rate_bound D up.
  Proof. rewrite up_rate. exact Hrb. Qed.

  (** one step of the position *)
  Definition st (k z : nat) : nat :=
    if Nat.leb k K then if Nat.eqb z (at_ k) then k else if Nat.ltb k K && Nat.eqb z (at_ (S k)) then S k else S K
    else S (S K).
  Lemma st_cases : forall k z, (k <= K)%nat -> (z = at_ k /\ st k z = k) \/ ((k < K)%nat /\ z = at_ (S k) /\ z <> at_ k /\ st k z = S k) \/
    (z <> at_ k /\ ((k < K)%nat -> z <> at_ (S k)) /\ st k z = S K).
  Proof.
    intros k z H. unfold st. rewrite (proj2 (Nat.leb_le k K) H). destruct (Nat.eqb_spec z (at_ k)) as [E|E]; [left; auto|right].
    destruct (Nat.ltb_spec k K) as [L|L]; cbn [andb].
    - destruct (Nat.eqb_spec z (at_ (S k))) as [E2|E2]; [left; auto|right; auto].
    - right. split; [exact E|]. split; [lia|reflexivity].
  Qed.
  Lemma st_dead : forall k z, (K < k)%nat -> st k z = S (S K).
  Proof. intros k z H. unfold st. rewrite (proj2 (Nat.leb_gt k K) H). reflexivity. Qed.
  Lemma st_state : forall k z, (st k z <= K)%nat -> at_ (st k z) = z.
  Proof.
    intros k z H. destruct (Nat.le_gt_cases k K) as [L|L]; [|rewrite st_dead in H by exact L; lia].
    destruct (st_cases k z L) as [[E ->]|[(A & E & _ & ->)|(_ & _ & E)]]; [auto|auto|rewrite E in H; lia].
  Qed.
  Lemma st_last : forall k z, (k <= K)%nat -> st k z = K -> z = f.
  Proof. intros k z _ E. rewrite <- (st_state k z) by lia. rewrite E. reflexivity. Qed.

  (** the positions form a Markov chain with the steps of [up] *)
  Lemma lump : forall (G : nat -> R) k, (k <= K)%nat -> (forall d, (K < d)%nat -> G d = 0) ->
    rsum D (fun b => dtrans D up k b * G b) = rsum dim (fun z => P (at_ k) z * G (st k z)).
  Proof.
    intros G k Hk HG. unfold dtrans. rewrite up_rate.
    assert (A1 : rsum D (fun b => (mident k b + up k b / rb) * G b) = P (at_ k) (at_ k) * G k + (if Nat.ltb k K then P (at_ k) (at_ (S k)) * G (S k) else 0)).
    { rewrite (rsum_ext D _ (fun b => (if Nat.eqb b k then P (at_ k) (at_ k) * G k else 0) + (if Nat.eqb b (S k) then (if Nat.ltb k K then P (at_ k) (at_ (S k)) * G (S k) else 0) else 0))).
      - rewrite rsum_plus, (rsum_delta_r D (fun _ => P (at_ k) (at_ k) * G k) k) by lia.
        rewrite (rsum_delta_r D (fun _ => if Nat.ltb k K then P (at_ k) (at_ (S k)) * G (S k) else 0) (S k)) by lia. reflexivity.
      - intros b Hb. destruct (Nat.eqb_spec b k) as [E|E].
        + subst b. rewrite (proj2 (Nat.eqb_neq k (S k))) by lia. rewrite up_diag by exact Hk. unfold dtrans. rewrite !mident_same. ring.
        + rewrite mident_diff by congruence. destruct (Nat.eqb_spec b (S k)) as [E2|E2].
          * subst b. destruct (Nat.ltb_spec k K) as [L|L].
            -- rewrite up_next by exact L. unfold dtrans. rewrite mident_diff; [ring|]. intros E3. exact (at_moves k L (eq_sym E3)).
            -- rewrite (HG (S k)) by lia. ring.
          * destruct (Nat.le_gt_cases b K) as [L|L]; [|rewrite (HG b L); ring].
            unfold up, dl. rewrite (proj2 (Nat.leb_le k K) Hk), (proj2 (Nat.eqb_neq b k) E), (proj2 (Nat.eqb_neq b (S k)) E2), (proj2 (Nat.eqb_neq b (S K))) by lia.
            unfold Rdiv. ring. }
    rewrite A1. symmetry. fold P.
    rewrite (rsum_ext dim _ (fun z => (if Nat.eqb z (at_ k) then P (at_ k) (at_ k) * G k else 0) + (if Nat.ltb k K then if Nat.eqb z (at_ (S k)) then P (at_ k) (at_ (S k)) * G (S k) else 0 else 0))).
    - rewrite rsum_plus, (rsum_delta_r dim (fun _ => P (at_ k) (at_ k) * G k) (at_ k)) by (apply at_range; exact Hk). f_equal.
      destruct (Nat.ltb_spec k K) as [L|L].
      + apply (rsum_delta_r dim (fun _ => P (at_ k) (at_ (S k)) * G (S k)) (at_ (S k))). apply at_range. lia.
      + apply rsum_0. reflexivity.
    - intros z _. change (mident (at_ k) z + gen (at_ k) z / rb) with (P (at_ k) z).
      destruct (st_cases k z Hk) as [[E ->]|[(L & E & N & ->)|(N & N2 & ->)]].
      + subst z. rewrite Nat.eqb_refl. destruct (Nat.ltb_spec k K) as [L|L]; [|ring].
        rewrite (proj2 (Nat.eqb_neq (at_ k) (at_ (S k)))); [ring|]. intros E. exact (at_moves k L (eq_sym E)).
      + rewrite (proj2 (Nat.eqb_neq z (at_ k)) N), (proj2 (Nat.ltb_lt k K) L). subst z. rewrite Nat.eqb_refl. ring.
      + rewrite (HG (S K)) by lia. rewrite (proj2 (Nat.eqb_neq z (at_ k)) N). destruct (Nat.ltb_spec k K) as [L|L]; [|ring].
        rewrite (proj2 (Nat.eqb_neq z (at_ (S k))) (N2 L)). ring.
  Qed.

  Notation QU := (mpow D (dtrans D up)).
  Lemma dead_step : forall d z, (K < d)%nat -> (z <= K)%nat -> dtrans D up d z = 0.
  Proof.
    intros d z Hd Hz. unfold dtrans. rewrite mident_diff by lia. unfold up, dl. rewrite (proj2 (Nat.leb_gt d K) Hd).
    rewrite (proj2 (Nat.eqb_neq z (S K))), (proj2 (Nat.eqb_neq z (S (S K)))) by lia. destruct (Nat.eqb d (S K)); unfold Rdiv; ring.
  Qed.
  Lemma dead_pow : forall n d y, (K < d)%nat -> (d < D)%nat -> (y <= K)%nat -> QU n d y = 0.
  Proof.
    induction n as [|n IH]; intros d y Hd HD Hy.
    - cbn [mpow]. apply mident_diff. lia.
    - rewrite <- mpow_comm by lia. unfold mmul. apply rsum_0. intros z Hz. destruct (Nat.le_gt_cases z K) as [L|L].
      + rewrite dead_step by assumption. ring.
      + rewrite (IH z y L Hz Hy). ring.
  Qed.
  Definition low (o : list (nat * nat)) : Prop := Forall (fun p => (snd p <= K)%nat) o.
  Lemma low_range : forall o, low o -> Forall (fun p => (snd p < D)%nat) o.
  Proof. intros o H. eapply Forall_impl; [|exact H]. intros p Hp. cbn in *. lia. Qed.
  Lemma dead_weight : forall o n d, (K < d)%nat -> (d < D)%nat -> low o -> weight D up K n d o = 0.
  Proof.
    intros [|[c y] r] n d Hd HD H; cbn [weight].
    - apply dead_pow; lia.
    - inversion H; subst. cbn in *. rewrite dead_pow by assumption. destruct (Nat.leb c n); ring.
  Qed.
  (** outside the positions the weight is 0, also beyond D *)
  Definition wt (n : nat) (o : list (nat * nat)) (d : nat) : R := if Nat.leb d K then weight D up K n d o else 0.
  Lemma wt_in : forall n o d, (d < D)%nat -> low o -> wt n o d = weight D up K n d o.
  Proof. intros n o d Hd H. unfold wt. destruct (Nat.leb_spec d K) as [L|L]; [reflexivity|]. symmetry. apply dead_weight; assumption. Qed.
  Lemma wt_dead : forall n o d, (K < d)%nat -> wt n o d = 0.
  Proof. intros n o d H. unfold wt. rewrite (proj2 (Nat.leb_gt d K) H). reflexivity. Qed.
  Lemma weight_lump : forall n k o, (k <= K)%nat -> low o -> (match o with (0, _) :: _ => False | _ => True end)%nat ->
    weight D up K (S n) k o = rsum dim (fun z => P (at_ k) z * wt n (match o with (S c, y) :: r => (c, y) :: r | _ => o end) (st k z)).
  Proof.
    intros n k o Hk Ho H. rewrite (weight_step D up K ltac:(lia) n k o ltac:(lia) (low_range o Ho) H).
    set (o' := match o with (S c, y) :: r => (c, y) :: r | _ => o end).
    assert (Ho' : low o').
    { unfold o'. destruct o as [|[[|c] y] r]; [exact Ho|exact Ho|]. inversion Ho; subst. apply Forall_cons; assumption. }
    rewrite (rsum_ext D _ (fun b => dtrans D up k b * wt n o' b)) by (intros b Hb; rewrite wt_in by assumption; reflexivity).
    apply (lump (wt n o') k Hk). intros d Hd. apply wt_dead. exact Hd.
  Qed.
  Lemma pow_le : forall n k, (k <= K)%nat -> QU n k K <= Q n (at_ k) f.
  Proof.
    induction n as [|n IH]; intros k Hk.
    - cbn [mpow]. destruct (Nat.eq_dec k K) as [-> |E]; [rewrite !mident_same; lra|]. rewrite (mident_diff k K E).
      unfold mident. destruct (Nat.eqb (at_ k) f); lra.
    - pose proof (weight_lump n k [] Hk (Forall_nil _) Logic.I) as E. cbn [weight] in E. rewrite E. rewrite <- mpow_comm by (apply at_range; lia). unfold mmul.
      apply rsum_le. intros z Hz. apply Rmult_le_compat_l; [apply (dtrans_stochastic dim gen Hgen Hrb); [apply at_range; exact Hk|exact Hz]|].
      unfold wt. destruct (Nat.leb_spec (st k z) K) as [L|L].
      + cbn [weight]. pose proof (IH (st k z) L) as B. rewrite (st_state k z L) in B. exact B.
      + apply (mpow_bounds dim P (dtrans_stochastic dim gen Hgen Hrb)); [exact Hz|apply at_range; lia].
  Qed.

  (** the positions along a list of states *)
  Fixpoint lift (k : nat) (l : list nat) : list nat :=
    match l with [] => [] | z :: r => st k z :: lift (st k z) r end.
  Definition ev (k : nat) (l : list nat) (o : list (nat * nat)) : bool := hits (k :: lift k l) o && Nat.eqb (last (lift k l) k) K.
  Lemma lift_length : forall l k, length (lift k l) = length l.
  Proof. induction l as [|z l IH]; intros k; [reflexivity|]. cbn. rewrite IH. reflexivity. Qed.
  Lemma last_cons : forall (a d : nat) l, last (a :: l) d = last l a.
  Proof. intros a d l. revert a d. induction l as [|b l IH]; intros a d; [reflexivity|]. change (last (a :: b :: l) d) with (last (b :: l) d). rewrite (IH b d), (IH b a). reflexivity. Qed.
  Lemma lift_dead : forall l k, (K < k)%nat -> (K < last (lift k l) k)%nat.
  Proof. induction l as [|z l IH]; intros k H; [exact H|]. cbn [lift]. rewrite last_cons. apply IH. rewrite st_dead by exact H. lia. Qed.
  Lemma ev_dead : forall k l o, (K < k)%nat -> ev k l o = false.
  Proof. intros k l o H. unfold ev. pose proof (lift_dead l k H). rewrite (proj2 (Nat.eqb_neq (last (lift k l) k) K)) by lia. apply andb_false_r. Qed.
  Lemma ev_zero : forall k l y r, ev k l ((0%nat, y) :: r) = (Nat.eqb k y && ev k l r)%bool.
  Proof. intros k l y r. unfold ev. rewrite hits_zero, andb_assoc. reflexivity. Qed.
  Lemma ev_succ : forall k z l c y r, ev k (z :: l) ((S c, y) :: r) = ev (st k z) l ((c, y) :: r).
  Proof. intros k z l c y r. unfold ev. cbn [lift]. rewrite hits_succ, last_cons. reflexivity. Qed.
  Lemma ev_nil : forall k z l, ev k (z :: l) [] = ev (st k z) l [].
  Proof. intros k z l. unfold ev. cbn [lift hits]. rewrite last_cons. reflexivity. Qed.

  Lemma lifted_law : forall steps n k o, (S steps <= n)%nat -> (k <= K)%nat -> 0 < Q (S steps) (at_ k) f -> low o ->
    average (bridge_states dim P (powers dim gen n) f steps (at_ k)) (fun mid => ind (ev k (mid ++ [f]) o))
      (weight D up K (S steps) k o / Q (S steps) (at_ k) f).
  Proof.
    assert (Hf : (f < dim)%nat) by (apply at_range; lia).
    assert (Zero : forall (m : M (list nat)) steps k y r v, 0 < Q (S steps) (at_ k) f ->
      average m (fun mid => ind (ev k (mid ++ [f]) r)) (weight D up K (S steps) k r / Q (S steps) (at_ k) f) ->
      v = weight D up K (S steps) k ((0%nat, y) :: r) / Q (S steps) (at_ k) f ->
      average m (fun mid => ind (ev k (mid ++ [f]) ((0%nat, y) :: r))) v).
    { intros m steps k y r v HQ H ->. rewrite weight_zero_gap. destruct (Nat.eqb_spec k y) as [E|E].
      - refine (average_ext _ _ _ _ _ _ H). intros mid. rewrite ev_zero, <- E, Nat.eqb_refl. reflexivity.
      - refine (average_ext _ _ _ _ _ _ (average_eq _ _ _ _ _ _ (average_scal _ _ _ _ 0 H))).
        + intros mid. rewrite ev_zero. apply Nat.eqb_neq in E. rewrite E. cbn [andb ind]. ring.
        + field. lra. }
    induction steps as [|m IH]; intros n k o Hn Hk HQ HF.
    - cbn [bridge_states].
      assert (E1 : Q 1 (at_ k) f = P (at_ k) f) by (rewrite <- mpow_comm; [cbn [mpow]; apply mident_r; exact Hf|apply at_range; exact Hk|exact Hf]).
      assert (Base : forall o', low o' -> rsum dim (fun z => P (at_ k) z * wt 0 o' (st k z)) = P (at_ k) f * ind (ev (st k f) [] o')).
      { intros o' Ho'. rewrite (rsum_ext dim _ (fun z => if Nat.eqb z f then P (at_ k) f * ind (ev (st k f) [] o') else 0)); [apply (rsum_delta_r dim (fun _ => P (at_ k) f * ind (ev (st k f) [] o')) f Hf)|].
        assert (EW : forall b, wt 0 o' b = ind (ev b [] o')).
        { intros b. destruct (Nat.le_gt_cases b K) as [L|L].
          - unfold wt. rewrite (proj2 (Nat.leb_le b K) L), weight_end. unfold ev. cbn [lift last]. destruct (Nat.eqb_spec b K) as [E|E]; [subst b; rewrite andb_true_r; reflexivity|rewrite andb_false_r; reflexivity].
          - rewrite wt_dead by exact L. rewrite ev_dead by exact L. reflexivity. }
        intros z _. rewrite EW. destruct (Nat.eqb_spec z f) as [E|E]; [subst z; reflexivity|].
        unfold ev. cbn [lift last]. rewrite (proj2 (Nat.eqb_neq (st k z) K)); [rewrite andb_false_r; cbn [ind]; ring|].
        intros E2. exact (E (st_last k z Hk E2)). }
      induction o as [|[[|c] y] r IHr].
      + refine (average_eq _ _ _ _ _ _ (average_ret _ [] _)). cbn [app]. rewrite ev_nil.
        rewrite (weight_lump 0 k [] Hk HF Logic.I), (Base [] HF), E1 in *. field. lra.
      + apply (Zero _ 0%nat k y r); [exact HQ|apply IHr; inversion HF; assumption|reflexivity].
      + refine (average_eq _ _ _ _ _ _ (average_ret _ [] _)). cbn [app]. rewrite ev_succ.
        rewrite (weight_lump 0 k ((S c, y) :: r) Hk HF Logic.I).
        assert (HF' : low ((c, y) :: r)) by (inversion HF; subst; apply Forall_cons; assumption).
        rewrite (Base _ HF'), E1 in *. field. lra.
    - cbn [bridge_states].
      assert (Hc : (at_ k < dim)%nat) by (apply at_range; exact Hk).
      assert (Step : forall o', low o' ->
        average (do y <- choice (bridge_probs dim P (powers dim gen n) (S m) (at_ k) f);
                 do ys <- bridge_states dim P (powers dim gen n) f m y; ret (y :: ys))
          (fun mid => match mid ++ [f] with [] => 0 | z :: l => ind (ev (st k z) l o') end)
          (rsum dim (fun z => P (at_ k) z * wt (S m) o' (st k z)) / Q (S (S m)) (at_ k) f)).
      { intros o' HF'.
        assert (HB : is_prob_vector (bridge_probs dim P (powers dim gen n) (S m) (at_ k) f) = true) by (apply bridge_probs_ok; assumption).
        assert (LB : length (bridge_probs dim P (powers dim gen n) (S m) (at_ k) f) = dim) by (unfold bridge_probs; rewrite map_length, seq_length; reflexivity).
        refine (average_eq _ _ _ _ _ _ (average_choice _ _ _ _ (fun z => wt (S m) o' (st k z) / Q (S m) z f) HB _)).
        - rewrite LB, <- rsum_div. apply rsum_ext. intros z Hz. rewrite bridge_probs_nth by (assumption || lia).
          destruct (Req_dec (Q (S m) z f) 0) as [Z|NZ].
          + assert (W0 : wt (S m) o' (st k z) = 0).
            { destruct (Nat.le_gt_cases (st k z) K) as [L|L]; [|apply wt_dead; exact L]. unfold wt. rewrite (proj2 (Nat.leb_le _ _) L).
              destruct (weight_bounds D up K up_generator up_pos ltac:(lia) o' (S m) (st k z) ltac:(lia) (low_range o' HF')) as [B1 B2].
              pose proof (pow_le (S m) (st k z) L) as B3. rewrite (st_state k z L), Z in B3. lra. }
            rewrite W0, Z. unfold Rdiv. ring.
          + field. split; [lra|exact NZ].
        - intros z Hz Hp. rewrite LB in Hz. rewrite bridge_probs_nth in Hp by (assumption || lia).
          assert (HQz : 0 < Q (S m) z f).
          { pose proof (mpow_bounds dim P (dtrans_stochastic dim gen Hgen Hrb) (S m) z f Hz Hf) as [B1 _].
            destruct B1 as [B1|B1]; [exact B1|]. rewrite <- B1 in Hp. unfold Rdiv in Hp. rewrite Rmult_0_r, Rmult_0_l in Hp. lra. }
          apply (average_bind0 _ _ _ _ _ (fun ys => ind (ev (st k z) (ys ++ [f]) o'))).
          + destruct (Nat.le_gt_cases (st k z) K) as [L|L].
            * unfold wt. rewrite (proj2 (Nat.leb_le _ _) L). pose proof (IH n (st k z) o' ltac:(lia) L) as I0. rewrite (st_state k z L) in I0. exact (I0 HQz HF').
            * rewrite wt_dead by exact L.
              refine (average_ext _ _ _ _ _ _ (average_eq _ _ _ _ _ _ (average_scal _ _ _ _ 0 (states_law dim gen f Hgen Hrb Hf m n z [] ltac:(lia) Hz HQz (Forall_nil _))))).
              -- intros ys. rewrite ev_dead by exact L. cbn [ind]. ring.
              -- unfold Rdiv. ring.
          + intros ys. apply (average_ret _ (z :: ys) (fun mid => match mid ++ [f] with [] => 0 | z :: l => ind (ev (st k z) l o') end)). }
      induction o as [|[[|c] y] r IHr].
      + rewrite (weight_lump (S m) k [] Hk HF Logic.I). refine (average_ext _ _ _ _ _ _ (Step [] HF)). intros [|z mid]; cbn [app]; rewrite ev_nil; reflexivity.
      + apply (Zero _ (S m) k y r); [exact HQ|apply IHr; inversion HF; assumption|reflexivity].
      + rewrite (weight_lump (S m) k ((S c, y) :: r) Hk HF Logic.I).
        refine (average_ext _ _ _ _ _ _ (Step ((c, y) :: r) _)); [intros [|z mid]; cbn [app]; rewrite ev_succ; reflexivity|].
        inversion HF as [|? ? Hy Hr]; subst. apply Forall_cons; assumption.
  Qed.
End Progress.
