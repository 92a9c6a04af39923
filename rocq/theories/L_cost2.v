(** The number of flips of the two-coin factory for coins with an arbitrary law. *)
From Coquelicot Require Import Hierarchy RInt RInt_analysis.
From Coq Require Import Reals List Bool Arith Lia Lra.
From Verif Require Import Base Rng L_rng M_bf SpecBf L_bf SpecLaw SpecFactory SpecCost L_law L_law2 L_law3 L_law4 L_law5 L_law6 L_cost.
Import ListNotations.
Local Open Scope R_scope.

Section Loop.
  Context {A : Type} (c1 c2 : M (bool * A)) (v1 e : R) (esc : A -> A) (p1 p2 : R).
  Hypothesis H1 : chance c1 (fun r => fst r) p1.
  Hypothesis H2 : chance c2 (fun r => fst r) p2.
  Hypothesis N1 : chance c1 (fun r => negb (fst r)) (1 - p1).
  Hypothesis N2 : chance c2 (fun r => negb (fst r)) (1 - p2).
  Let c := clip01 (exp v1).
  Let q := (c * (1 - p1) + (1 - c) * (1 - p2)) * (1 - clip01 e).
  Let loop n s := twocoin_loop (m := M) (@ret) (@bind) o_ulog_lt o_u_lt (counting c1 c2) v1 e esc n s.
  Fixpoint late (f : nat -> R) (n s : nat) : R := match n with O => f s | S n' => (1 - q) * f (S s) + q * late f n' (S s) end.
  Lemma late_law : forall f n s, average (loop n s) (fun r => f (snd r)) (late f n s).
  Proof.
    intros f. induction n as [|n IH]; intros s; unfold loop; cbn [twocoin_loop].
    - apply (average_ret _ (@None (bool * bool * A), s) (fun r => f (snd r))).
    - cbn [late]. set (W := late f n (S s)).
      assert (STEP : forall (first : bool) (cb : M (bool * A)) p, cb = (if first then c1 else c2) ->
        chance cb (fun r => fst r) p -> chance cb (fun r => negb (fst r)) (1 - p) ->
        average (bind (counting c1 c2 first s) (fun r => let '((success, prop), s') := r in
          if success then ret (Some (first, false, prop), s') else bind (o_u_lt e) (fun ee : bool => if ee then ret (Some (false, true, esc prop), s') else
            twocoin_loop (m := M) (@ret) (@bind) o_ulog_lt o_u_lt (counting c1 c2) v1 e esc n s'))) (fun r => f (snd r))
          (p * f (S s) + (1 - p) * (clip01 e * f (S s) + (1 - clip01 e) * W))).
      { intros first cb p Ec Hp Np.
        apply (average_bind0 _ _ _ _ _ (fun r : (bool * A) * nat => let '((success, prop), s') := r in if success then f s' else clip01 e * f s' + (1 - clip01 e) * late f n s') _).
        - unfold counting. rewrite <- Ec. apply (average_map _ _ cb (fun r => (r, S s))).
          pose proof (average_plus _ _ _ _ _ _ (average_scal _ _ _ _ (f (S s)) Hp) (average_scal _ _ _ _ (clip01 e * f (S s) + (1 - clip01 e) * W) Np)) as P.
          refine (average_eq _ _ _ _ _ _ (average_ext _ _ _ _ _ _ P)); [ring|]. intros [[|] prop]; cbn; unfold W; ring.
        - intros [[[|] prop] s'].
          + apply (average_ret _ (Some (first, false, prop), s') (fun r => f (snd r))).
          + apply (average_bind0 _ _ _ _ _ _ _ (u_law e (fun b => if b then f s' else late f n s'))).
            intros [|]; [apply (average_ret _ (Some (false, true, esc prop), s') (fun r => f (snd r)))|apply IH]. }
      apply (average_bind0 _ _ _ _ _ (fun b : bool => if b then p1 * f (S s) + (1 - p1) * (clip01 e * f (S s) + (1 - clip01 e) * W) else p2 * f (S s) + (1 - p2) * (clip01 e * f (S s) + (1 - clip01 e) * W))).
      + refine (average_eq _ _ _ _ _ _ (ulog_law v1 _)). cbv beta iota. fold c. unfold q. ring.
      + intros [|]; [apply (STEP true c1 p1 eq_refl H1 N1)|apply (STEP false c2 p2 eq_refl H2 N2)].
  Qed.
  Lemma late_mean : forall n s, late INR n s = INR s + geo q n.
  Proof. induction n as [|n IH]; intros s; cbn [late geo]; [ring|]. rewrite IH, S_INR. ring. Qed.
  Lemma late_few : forall n s m, (m < s)%nat -> late (fun x => ind (m <? x)%nat) n s = 1.
  Proof.
    induction n as [|n IH]; intros s m H; cbn [late].
    - destruct (Nat.ltb_spec m s); [reflexivity|lia].
    - rewrite IH by lia. destruct (Nat.ltb_spec m (S s)); [|lia]. unfold ind. ring.
  Qed.
  Lemma late_tail : forall n s k, late (fun x => ind (s + k <? x)%nat) n s = if (k <? n)%nat then q ^ k else 0.
  Proof.
    induction n as [|n IH]; intros s k; cbn [late].
    - destruct (Nat.ltb_spec (s + k) s); [lia|]. reflexivity.
    - destruct k as [|k].
      + rewrite late_few by lia. destruct (Nat.ltb_spec (s + 0) (S s)); [|lia]. change (0 <? S n)%nat with true. cbn [pow]. unfold ind. ring.
      + replace (s + S k)%nat with (S s + k)%nat by lia. rewrite IH. destruct (Nat.ltb_spec (S s + k) (S s)); [lia|]. unfold ind.
        change (S k <? S n)%nat with (k <? n)%nat. destruct (k <? n)%nat; cbn [pow]; ring.
  Qed.
End Loop.
Lemma counting_law : forall A (c1 c2 : M (bool * A)) w1 w2 p1 p2 e prop0 n,
  total c1 (fun _ => True) -> total c2 (fun _ => True) -> chance c1 (fun r => fst r) p1 -> chance c2 (fun r => fst r) p2 -> 0 <= e <= 1 ->
  let q := goes_on w1 w2 e p1 p2 in
  (forall k, (k < n)%nat -> chance (counting_twocoin c1 c2 w1 w2 e prop0 n) (fun r => (k <? snd r)%nat) (q ^ k)) /\
  chance (counting_twocoin c1 c2 w1 w2 e prop0 n) (fun r => (n <? snd r)%nat) 0 /\
  exists m, average (counting_twocoin c1 c2 w1 w2 e prop0 n) (fun r => INR (snd r)) m /\ (1 - q) * m = 1 - q ^ n.
Proof.
  intros A c1 c2 w1 w2 p1 p2 e prop0 n T1 T2 P1 P2 He q.
  pose proof (chance_not _ _ _ _ P1 T1) as N1. pose proof (chance_not _ _ _ _ P2 T2) as N2.
  assert (Ee : clip01 e = e) by (unfold clip01; rewrite Rmin_left, Rmax_right by lra; reflexivity).
  pose proof (barker_clip w1 w2) as Ec.
  assert (EQ : (clip01 (exp (w1 - logaddexp w1 w2)) * (1 - p1) + (1 - clip01 (exp (w1 - logaddexp w1 w2))) * (1 - p2)) * (1 - clip01 e) = q).
  { rewrite Ec, Ee. unfold q, goes_on. pose proof (exp_pos w1). pose proof (exp_pos w2). field. lra. }
  pose proof (late_law c1 c2 (w1 - logaddexp w1 w2) e (fun _ => prop0) p1 p2 P1 P2 N1 N2) as L.
  assert (TL : forall k, chance (counting_twocoin c1 c2 w1 w2 e prop0 n) (fun r => (k <? snd r)%nat) (if (k <? n)%nat then q ^ k else 0)).
  { intros k. unfold chance. rewrite <- EQ. rewrite <- (late_tail (w1 - logaddexp w1 w2) e p1 p2 n 0 k). apply (L (fun x => ind (0 + k <? x)%nat) n 0%nat). }
  repeat split.
  - intros k Hk. pose proof (TL k) as X. destruct (Nat.ltb_spec k n); [exact X|lia].
  - pose proof (TL n) as X. rewrite Nat.ltb_irrefl in X. exact X.
  - exists (geo q n). split; [|apply geo_pow]. pose proof (L INR n 0%nat) as X. rewrite late_mean, EQ in X. cbn [INR] in X. rewrite Rplus_0_l in X. exact X.
Qed.
