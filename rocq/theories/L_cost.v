(** Lemmas about the number of flips of the two-coin factories. *)
From Coq Require Import Reals List Bool Arith Lia Lra.
From Verif Require Import Base Rng M_bf SpecBf SpecCost L_rng L_bf L_bf2 L_bf3.
Import ListNotations.
Local Open Scope R_scope.

Section Count.
Context {A : Type} (c1 c2 : dist (bool * A)) (v e : R) (esc : A -> A).
Hypotheses (P1 : proper c1) (P2 : proper c2) (Hv : 0 <= exp v <= 1).
Let loop n s := twocoin_loop (m := dist) (@dret) (@dbind) d_ulog_lt d_u_lt (counted c1 c2) v e esc n s.
Let q := miss c1 c2 v * (1 - clip01 e).

Lemma step_ev n s g : ev (loop (S n) s) g =
  exp v * ev c1 (fun r => if fst r then g (Some (true, false, snd r), S s) else clip01 e * g (Some (false, true, esc (snd r)), S s) + (1 - clip01 e) * ev (loop n (S s)) g) +
  (1 - exp v) * ev c2 (fun r => if fst r then g (Some (false, false, snd r), S s) else clip01 e * g (Some (false, true, esc (snd r)), S s) + (1 - clip01 e) * ev (loop n (S s)) g).
Proof.
  unfold loop at 1. cbn [twocoin_loop]. rewrite ev_dbind. rewrite (ev_flipd (clip01 (exp v)) : forall g, ev (d_ulog_lt v) g = _). rewrite clip_id by exact Hv.
  f_equal; f_equal; rewrite ev_dbind; unfold counted at 1; cbv iota; rewrite ev_dbind; apply ev_ext; intros [su a]; rewrite ev_dret; destruct su; cbn [fst snd];
    try apply ev_dret; rewrite ev_dbind, (ev_flipd (clip01 e) : forall g, ev (d_u_lt e) g = _), ev_dret; reflexivity.
Qed.
Lemma ev_if (c : dist (bool * A)) a b : proper c -> ev c (fun r => if fst r then a else b) = heads c * a + (1 - heads c) * b.
Proof.
  intros P. transitivity (ev c (fun r => ind (fst r) * a + ind (negb (fst r)) * b)).
  - apply ev_ext. intros [su x]. destruct su; cbn; ring.
  - rewrite ev_plus, !ev_scal, <- !pr_ev, pr_compl, (proj2 P). reflexivity.
Qed.
Lemma count_step n s f : ev (loop (S n) s) (fun r => f (snd r)) = (1 - q) * f (S s) + q * ev (loop n (S s)) (fun r => f (snd r)).
Proof.
  rewrite step_ev. cbn [snd]. set (L := ev (loop n (S s)) _). rewrite !ev_if by assumption. unfold q, miss. ring.
Qed.
Lemma count_mean n : forall s, ev (loop n s) (fun r => INR (snd r)) = INR s + geo q n.
Proof.
  induction n as [|n IH]; intros s.
  - unfold loop. cbn [twocoin_loop geo]. rewrite ev_dret. cbn [snd]. ring.
  - rewrite count_step, IH, S_INR. cbn [geo]. ring.
Qed.
Lemma count_few n : forall s m, (m < s)%nat -> pr (loop n s) (fun r => (m <? snd r)%nat) = 1.
Proof.
  induction n as [|n IH]; intros s m H; rewrite pr_ev.
  - unfold loop. cbn [twocoin_loop]. rewrite ev_dret. cbn [snd]. destruct (Nat.ltb_spec m s); [reflexivity|lia].
  - rewrite (count_step n s (fun c => ind (m <? c)%nat)). rewrite <- (pr_ev _ (fun r => (m <? snd r)%nat)), IH by lia.
    unfold ind. destruct (Nat.ltb_spec m (S s)); [|lia]. ring.
Qed.
Lemma count_tail n : forall s k, pr (loop n s) (fun r => (s + k <? snd r)%nat) = if (k <? n)%nat then q ^ k else 0.
Proof.
  induction n as [|n IH]; intros s k.
  - rewrite pr_ev. unfold loop. cbn [twocoin_loop]. rewrite ev_dret. cbn [snd]. destruct (Nat.ltb_spec (s + k) s); [lia|]. reflexivity.
  - destruct k as [|k].
    + rewrite pr_ev, (count_step n s (fun c => ind (s + 0 <? c)%nat)). rewrite <- (pr_ev _ (fun r => (s + 0 <? snd r)%nat)), count_few by lia.
      unfold ind. destruct (Nat.ltb_spec (s + 0) (S s)); [|lia]. cbn [Nat.ltb Nat.leb pow]. ring.
    + rewrite pr_ev, (count_step n s (fun c => ind (s + S k <? c)%nat)). rewrite <- (pr_ev _ (fun r => (s + S k <? snd r)%nat)).
      replace (s + S k)%nat with (S s + k)%nat by lia. rewrite IH. unfold ind.
      destruct (Nat.ltb_spec (S s + k) (S s)); [lia|]. change (S k <? S n)%nat with (k <? n)%nat. destruct (k <? n)%nat; cbn [pow]; ring.
Qed.
(** the outcome does not depend on whether the flips are counted *)
Lemma count_forget n E : forall s, pr (loop n s) (fun r => E (fst r, tt)) =
  pr (twocoin_loop (m := dist) (@dret) (@dbind) d_ulog_lt d_u_lt (iid c1 c2) v e esc n tt) E.
Proof.
  induction n as [|n IH]; intros s.
  - unfold loop. cbn [twocoin_loop]. rewrite !pr_dret. reflexivity.
  - rewrite pr_ev, step_ev. rewrite <- (pr_ev (loop n (S s)) (fun r => E (fst r, tt))), IH.
    cbn [twocoin_loop]. rewrite pr_dbind, (ev_flipd (clip01 (exp v)) : forall g, ev (d_ulog_lt v) g = _), (clip_id (exp v)) by exact Hv.
    f_equal; f_equal; rewrite pr_dbind; unfold iid at 2; cbv iota; rewrite ev_dbind; apply ev_ext; intros [su a]; rewrite ev_dret; destruct su; cbn [fst snd];
      rewrite ?pr_dret; try reflexivity; rewrite pr_dbind, (ev_flipd (clip01 e) : forall g, ev (d_u_lt e) g = _), pr_dret; reflexivity.
Qed.
End Count.

Lemma goes_on_qq {A} (c1 c2 : dist (bool * A)) w1 w2 e : 0 <= e <= 1 ->
  miss c1 c2 (w1 - logaddexp w1 w2) * (1 - clip01 e) = goes_on w1 w2 e (heads c1) (heads c2).
Proof.
  intros He. unfold miss, goes_on. rewrite share, clip_id by exact He. pose proof (exp_pos w1). pose proof (exp_pos w2). field. lra.
Qed.
Lemma goes_on_range {A} (c1 c2 : dist (bool * A)) w1 w2 e : proper c1 -> proper c2 -> 0 <= e <= 1 -> 0 <= goes_on w1 w2 e (heads c1) (heads c2) <= 1 - e.
Proof.
  intros P1 P2 He. pose proof (fl_range c1 c2 w1 w2 P1 P2) as F. unfold fl in F. unfold goes_on. split; [apply Rmult_le_pos; lra|].
  rewrite <- (Rmult_1_r (1 - e)) at 2. apply Rmult_le_compat_l; lra.
Qed.
Lemma share_unit w1 w2 : 0 <= exp (w1 - logaddexp w1 w2) <= 1.
Proof. rewrite share. pose proof (share_range w1 w2). lra. Qed.

Definition flips_claim {A} (d : dist (option (bool * bool * A) * nat)) (q : R) (n : nat) : Prop :=
  (forall k, (k < n)%nat -> pr d (fun r => (k <? snd r)%nat) = q ^ k) /\ pr d (fun r => (n <? snd r)%nat) = 0 /\
  (1 - q) * expect d (fun r => INR (snd r)) = 1 - q ^ n.
Lemma loop_claim {A} (c1 c2 : dist (bool * A)) w1 w2 e esc n : proper c1 -> proper c2 -> 0 <= e <= 1 ->
  flips_claim (twocoin_loop (m := dist) (@dret) (@dbind) d_ulog_lt d_u_lt (counted c1 c2) (w1 - logaddexp w1 w2) e esc n 0%nat) (goes_on w1 w2 e (heads c1) (heads c2)) n.
Proof.
  intros P1 P2 He. pose proof (share_unit w1 w2) as Hv. repeat split.
  - intros k Hk. pose proof (count_tail c1 c2 _ e esc P1 P2 Hv n 0 k) as T. cbn [Nat.add] in T. rewrite T, goes_on_qq by exact He. destruct (Nat.ltb_spec k n); [reflexivity|lia].
  - pose proof (count_tail c1 c2 _ e esc P1 P2 Hv n 0 n) as T. cbn [Nat.add] in T. rewrite T, Nat.ltb_irrefl. reflexivity.
  - change (expect ?d ?f) with (ev d f). rewrite (count_mean c1 c2 _ e esc P1 P2 Hv n 0), goes_on_qq by exact He. rewrite <- geo_pow. cbn [INR]. ring.
Qed.
Lemma twocoin_count : forall A (c1 c2 : dist (bool * A)) w1 w2 e prop0 n, proper c1 -> proper c2 -> 0 <= e <= 1 ->
  let d := twocoin_flips c1 c2 w1 w2 e prop0 n in let q := goes_on w1 w2 e (heads c1) (heads c2) in
  (forall k, (k < n)%nat -> pr d (fun r => (k <? snd r)%nat) = q ^ k) /\ pr d (fun r => (n <? snd r)%nat) = 0 /\
  (1 - q) * expect d (fun r => INR (snd r)) = 1 - q ^ n.
Proof. intros A c1 c2 w1 w2 e prop0 n P1 P2 He. exact (loop_claim c1 c2 w1 w2 e (fun _ => prop0) n P1 P2 He). Qed.
Lemma joint_unfold {A} (c1 c2 : dist (bool * A)) w1 w2 e n f :
  ev (twocoin_joint_flips c1 c2 w1 w2 e n) f = ev (twocoin_loop (m := dist) (@dret) (@dbind) d_ulog_lt d_u_lt (counted c1 c2) (w1 - logaddexp w1 w2) e (fun a => a) n 0%nat) f.
Proof. unfold twocoin_joint_flips, twocoin_joint. rewrite ev_dbind, ev_dret. reflexivity. Qed.
Lemma joint_count : forall A (c1 c2 : dist (bool * A)) w1 w2 e n, proper c1 -> proper c2 -> 0 <= e <= 1 ->
  let d := twocoin_joint_flips c1 c2 w1 w2 e n in let q := goes_on w1 w2 e (heads c1) (heads c2) in
  (forall k, (k < n)%nat -> pr d (fun r => (k <? snd r)%nat) = q ^ k) /\ pr d (fun r => (n <? snd r)%nat) = 0 /\
  (1 - q) * expect d (fun r => INR (snd r)) = 1 - q ^ n.
Proof.
  intros A c1 c2 w1 w2 e n P1 P2 He d q. destruct (loop_claim c1 c2 w1 w2 e (fun a => a) n P1 P2 He) as (T & Z & MN).
  repeat split.
  - intros k Hk. unfold q, d. rewrite <- (T k Hk), !pr_ev. apply joint_unfold.
  - unfold d. rewrite <- Z, !pr_ev. apply joint_unfold.
  - change (expect d ?f) with (ev d f). unfold d. rewrite joint_unfold. exact MN.
Qed.
Lemma counted_law : forall A (c1 c2 : dist (bool * A)) w1 w2 e prop0 n E,
  pr (twocoin_flips c1 c2 w1 w2 e prop0 n) (fun r => E (fst r, tt)) = pr (twocoin_law c1 c2 w1 w2 e prop0 n) E /\
  pr (twocoin_joint_flips c1 c2 w1 w2 e n) (fun r => E (fst r, tt)) = pr (twocoin_joint_law c1 c2 w1 w2 e n) E.
Proof.
  intros A c1 c2 w1 w2 e prop0 n E. pose proof (share_unit w1 w2) as Hv. split.
  - apply (count_forget c1 c2 _ e (fun _ => prop0) Hv n E 0%nat).
  - rewrite law_joint_D, pr_ev, joint_unfold, <- pr_ev. apply (count_forget c1 c2 _ e (fun a => a) Hv n E 0%nat).
Qed.
(** the mean as a limit, and a bound that needs no success *)
Lemma mean_from q n x : 0 <= q < 1 -> (1 - q) * x = 1 - q ^ n -> x <= 1 / (1 - q).
Proof.
  intros Hq E. pose proof (pow_le q n (proj1 Hq)). apply (Rmult_le_reg_l (1 - q)); [lra|]. rewrite E. replace ((1 - q) * (1 / (1 - q))) with 1 by (field; lra). lra.
Qed.
Lemma portkey_bound : forall A (c1 c2 : dist (bool * A)) w1 w2 e prop0 n, proper c1 -> proper c2 -> 0 < e <= 1 ->
  expect (twocoin_flips c1 c2 w1 w2 e prop0 n) (fun r => INR (snd r)) <= 1 / e /\
  expect (twocoin_joint_flips c1 c2 w1 w2 e n) (fun r => INR (snd r)) <= 1 / e.
Proof.
  intros A c1 c2 w1 w2 e prop0 n P1 P2 He. pose proof (goes_on_range c1 c2 w1 w2 e P1 P2 ltac:(lra)) as Q.
  assert (B : 1 / (1 - goes_on w1 w2 e (heads c1) (heads c2)) <= 1 / e).
  { unfold Rdiv. rewrite !Rmult_1_l. apply Rinv_le_contravar; lra. }
  split; (eapply Rle_trans; [|exact B]); eapply mean_from with (n := n); try lra.
  - apply (twocoin_count A c1 c2 w1 w2 e prop0 n P1 P2); lra.
  - apply (joint_count A c1 c2 w1 w2 e n P1 P2); lra.
Qed.
Lemma geo_limit q (x : nat -> R) : 0 <= q < 1 -> (forall n, (1 - q) * x n = 1 - q ^ n) -> Un_cv x (1 / (1 - q)).
Proof.
  intros Hq E eps He. destruct (pow_lt_1_zero q ltac:(rewrite Rabs_right; lra) (eps * (1 - q)) ltac:(apply Rmult_lt_0_compat; lra)) as (N & HN).
  exists N. intros n Hn. specialize (HN n Hn). unfold R_dist.
  assert (X : x n = (1 - q ^ n) / (1 - q)) by (rewrite <- E; field; lra). rewrite X.
  replace ((1 - q ^ n) / (1 - q) - 1 / (1 - q)) with (- (q ^ n / (1 - q))) by (field; lra). rewrite Rabs_Ropp.
  unfold Rdiv. rewrite Rabs_mult, (Rabs_right (/ (1 - q))) by (apply Rle_ge, Rlt_le, Rinv_0_lt_compat; lra).
  apply (Rmult_lt_reg_r (1 - q)); [lra|]. rewrite Rmult_assoc, Rinv_l, Rmult_1_r by lra. exact HN.
Qed.
Lemma goes_on_heads {A} (c1 c2 : dist (bool * A)) w1 w2 : goes_on w1 w2 0 (heads c1) (heads c2) = 1 - (exp w1 * heads c1 + exp w2 * heads c2) / (exp w1 + exp w2).
Proof. unfold goes_on. pose proof (exp_pos w1). pose proof (exp_pos w2). field. lra. Qed.
Lemma flips_limit : forall A (c1 c2 : dist (bool * A)) w1 w2 prop0, proper c1 -> proper c2 -> 0 < heads c1 + heads c2 ->
  Un_cv (fun n => expect (twocoin_flips c1 c2 w1 w2 0 prop0 n) (fun r => INR (snd r))) ((exp w1 + exp w2) / (exp w1 * heads c1 + exp w2 * heads c2)) /\
  Un_cv (fun n => expect (twocoin_joint_flips c1 c2 w1 w2 0 n) (fun r => INR (snd r))) ((exp w1 + exp w2) / (exp w1 * heads c1 + exp w2 * heads c2)).
Proof.
  intros A c1 c2 w1 w2 prop0 P1 P2 HH. pose proof (Hpos c1 c2 w1 w2 P1 P2 HH) as HP. pose proof (exp_pos w1). pose proof (exp_pos w2).
  pose proof (goes_on_range c1 c2 w1 w2 0 P1 P2 ltac:(lra)) as Q.
  assert (L : goes_on w1 w2 0 (heads c1) (heads c2) < 1).
  { rewrite goes_on_heads. assert (0 < (exp w1 * heads c1 + exp w2 * heads c2) / (exp w1 + exp w2)) by (apply Rdiv_lt_0_compat; lra). lra. }
  assert (E : (exp w1 + exp w2) / (exp w1 * heads c1 + exp w2 * heads c2) = 1 / (1 - goes_on w1 w2 0 (heads c1) (heads c2))).
  { rewrite goes_on_heads. field. lra. }
  rewrite E. split; apply geo_limit; try lra; intros n.
  - apply (twocoin_count A c1 c2 w1 w2 0 prop0 n P1 P2); lra.
  - apply (joint_count A c1 c2 w1 w2 0 n P1 P2); lra.
Qed.
(** what the portkey costs *)
Lemma portkey_loss : forall A (c1 c2 : dist (bool * A)) w1 w2 e prop0 n, proper c1 -> proper c2 -> 0 <= e <= 1 -> (0 < n)%nat -> 0 < heads c1 + heads c2 ->
  let m := (exp w1 + exp w2) / (exp w1 * heads c1 + exp w2 * heads c2) in
  let acc e := pr (twocoin_law c1 c2 w1 w2 e prop0 n) says_true / pr (twocoin_law c1 c2 w1 w2 e prop0 n) returned in
  1 <= m /\ acc e = acc 0 / (1 + e * (m - 1)).
Proof.
  intros A c1 c2 w1 w2 e prop0 n P1 P2 He Hn HH m acc. pose proof (Hpos c1 c2 w1 w2 P1 P2 HH) as HP. pose proof (exp_pos w1). pose proof (exp_pos w2).
  pose proof (heads_range c1 P1) as R1. pose proof (heads_range c2 P2) as R2.
  assert (M1 : 1 <= m).
  { unfold m. apply (Rmult_le_reg_r (exp w1 * heads c1 + exp w2 * heads c2)); [exact HP|]. unfold Rdiv. rewrite Rmult_assoc, Rinv_l, Rmult_1_r by lra.
    assert (exp w1 * heads c1 <= exp w1 * 1) by (apply Rmult_le_compat_l; lra). assert (exp w2 * heads c2 <= exp w2 * 1) by (apply Rmult_le_compat_l; lra). lra. }
  split; [exact M1|]. unfold acc. rewrite (accept_value c1 c2 w1 w2 e prop0 n P1 P2 He Hn (or_intror HH)).
  rewrite (accept_value c1 c2 w1 w2 0 prop0 n P1 P2 ltac:(lra) Hn (or_intror HH)).
  assert (EM : e * (exp w1 * (1 - heads c1) + exp w2 * (1 - heads c2)) = e * (m - 1) * (exp w1 * heads c1 + exp w2 * heads c2)) by (unfold m; field; lra).
  rewrite EM. assert (0 <= e * (m - 1)) by (apply Rmult_le_pos; lra). set (HW := exp w1 * heads c1 + exp w2 * heads c2) in *. set (k := e * (m - 1)) in *.
  rewrite Rmult_0_l, Rplus_0_r. replace (HW + k * HW) with (HW * (1 + k)) by ring. field. split; lra.
Qed.
Lemma cost_example : proper (fair 1%nat 2%nat) /\ 0 < heads (fair 1%nat 2%nat) + heads (fair 1%nat 2%nat) /\ goes_on 0 0 (1/2) (1/2) (1/2) = 1/4.
Proof.
  split; [apply fair_proper|]. rewrite fair_heads. split; [lra|]. unfold goes_on. rewrite exp_0. field.
Qed.
