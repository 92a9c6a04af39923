(** Laws and contracts of the Bernoulli factories. *)
From Coq Require Import Reals List Bool Arith Lia Lra.
From Verif Require Import Base Rng M_bf SpecBf L_rng L_bf.
Import ListNotations.
Local Open Scope R_scope.

(** both factories are the same loop *)
Lemma law_D {A} (c1 c2 : dist (bool * A)) w1 w2 e prop0 n :
  twocoin_law c1 c2 w1 w2 e prop0 n = D c1 c2 w1 w2 e (fun _ => prop0) n.
Proof. reflexivity. Qed.
Lemma law_joint_D {A} (c1 c2 : dist (bool * A)) w1 w2 e n E :
  pr (twocoin_joint_law c1 c2 w1 w2 e n) E = pr (D c1 c2 w1 w2 e (fun a => a) n) E.
Proof. unfold twocoin_joint_law, twocoin_joint. rewrite pr_dbind, ev_dret. reflexivity. Qed.

Section Conditional.
Context {A : Type} (c1 c2 : dist (bool * A)) (w1 w2 : R) (esc : A -> A).
Hypotheses (P1 : proper c1) (P2 : proper c2) (HH : 0 < heads c1 + heads c2).
Let H := exp w1 * heads c1 + exp w2 * heads c2.
Lemma Hpos : 0 < H.
Proof.
  pose proof (heads_range c1 P1). pose proof (heads_range c2 P2). pose proof (exp_pos w1). pose proof (exp_pos w2). unfold H.
  destruct (Rle_lt_dec (heads c1) 0).
  - assert (0 < exp w2 * heads c2) by (apply Rmult_lt_0_compat; lra). assert (0 <= exp w1 * heads c1) by (apply Rmult_le_pos; lra). lra.
  - assert (0 < exp w1 * heads c1) by (apply Rmult_lt_0_compat; lra). assert (0 <= exp w2 * heads c2) by (apply Rmult_le_pos; lra). lra.
Qed.
Lemma clip0 : clip01 0 = 0.
Proof. apply clip_id; lra. Qed.
Lemma qq0 : 1 - qq c1 c2 w1 w2 0 = H / (exp w1 + exp w2).
Proof.
  unfold qq, fl. rewrite clip0. pose proof (Wpos w1 w2). unfold H. field. lra.
Qed.
Lemma cond_law n E : (0 < n)%nat ->
  let d := D c1 c2 w1 w2 0 esc n in
  0 < pr d returned /\
  pr d (wins1 E) / pr d returned = exp w1 * heads_with c1 E / (exp w1 * heads c1 + exp w2 * heads c2) /\
  pr d (wins2 E) / pr d returned = exp w2 * heads_with c2 E / (exp w1 * heads c1 + exp w2 * heads c2) /\
  pr d escaped = 0.
Proof.
  intros Hn d. subst d. rewrite D_returned, D_wins1, D_wins2, D_escaped by auto. rewrite clip0, qq0.
  assert (G : 0 < geo (qq c1 c2 w1 w2 0) n) by (apply geo_pos; auto; apply qq_range; auto).
  pose proof Hpos as HP. pose proof (Wpos w1 w2) as W. fold H.
  repeat split.
  - apply Rmult_lt_0_compat; auto. apply Rdiv_lt_0_compat; auto.
  - field. repeat split; lra.
  - field. repeat split; lra.
  - ring.
Qed.
Lemma exhaust_law n : pr (D c1 c2 w1 w2 0 esc n) (fun r => negb (returned r))
  = (1 - (exp w1 * heads c1 + exp w2 * heads c2) / (exp w1 + exp w2)) ^ n.
Proof. rewrite D_exhausted by auto. f_equal. fold H. rewrite <- qq0. ring. Qed.
Lemma exhaust_cv : Un_cv (fun n => pr (D c1 c2 w1 w2 0 esc n) (fun r => negb (returned r))) 0.
Proof.
  assert (B : Rabs (qq c1 c2 w1 w2 0) < 1).
  { pose proof (qq_range c1 c2 w1 w2 0 P1 P2). rewrite Rabs_right by lra.
    assert (0 < 1 - qq c1 c2 w1 w2 0) by (rewrite qq0; apply Rdiv_lt_0_compat; [apply Hpos|apply Wpos]). lra. }
  intros eps He. destruct (pow_lt_1_zero _ B eps He) as (N & HN). exists N. intros n Hn.
  unfold R_dist. rewrite D_exhausted, Rminus_0_r by auto. apply HN; auto.
Qed.
End Conditional.

Lemma twocoin_cond {A} (c1 c2 : dist (bool * A)) w1 w2 prop0 n E : proper c1 -> proper c2 -> 0 < heads c1 + heads c2 -> (0 < n)%nat ->
  let d := twocoin_law c1 c2 w1 w2 0 prop0 n in
  0 < pr d returned /\
  pr d (wins1 E) / pr d returned = exp w1 * heads_with c1 E / (exp w1 * heads c1 + exp w2 * heads c2) /\
  pr d (wins2 E) / pr d returned = exp w2 * heads_with c2 E / (exp w1 * heads c1 + exp w2 * heads c2) /\
  pr d escaped = 0.
Proof. intros P1 P2 HH Hn. cbv zeta. rewrite law_D. apply cond_law; auto. Qed.
Lemma twocoin_joint_cond {A} (c1 c2 : dist (bool * A)) w1 w2 n E : proper c1 -> proper c2 -> 0 < heads c1 + heads c2 -> (0 < n)%nat ->
  let d := twocoin_joint_law c1 c2 w1 w2 0 n in
  0 < pr d returned /\
  pr d (wins1 E) / pr d returned = exp w1 * heads_with c1 E / (exp w1 * heads c1 + exp w2 * heads c2) /\
  pr d (wins2 E) / pr d returned = exp w2 * heads_with c2 E / (exp w1 * heads c1 + exp w2 * heads c2) /\
  pr d escaped = 0.
Proof. intros P1 P2 HH Hn. cbv zeta. rewrite !law_joint_D. apply cond_law; auto. Qed.
Lemma twocoin_exhaust {A} (c1 c2 : dist (bool * A)) w1 w2 prop0 : proper c1 -> proper c2 -> 0 < heads c1 + heads c2 ->
  (forall n, pr (twocoin_law c1 c2 w1 w2 0 prop0 n) (fun r => negb (returned r))
     = (1 - (exp w1 * heads c1 + exp w2 * heads c2) / (exp w1 + exp w2)) ^ n) /\
  Un_cv (fun n => pr (twocoin_law c1 c2 w1 w2 0 prop0 n) (fun r => negb (returned r))) 0.
Proof.
  intros P1 P2 HH. split.
  - intros n. rewrite law_D. apply exhaust_law; auto.
  - intros eps He. destruct (exhaust_cv c1 c2 w1 w2 (fun _ => prop0) P1 P2 HH eps He) as (N & HN). exists N. intros n Hn. rewrite law_D. auto.
Qed.
Lemma exhaust_zero {A} (c1 c2 : dist (bool * A)) w1 w2 e prop0 : pr (twocoin_law c1 c2 w1 w2 e prop0 0) returned = 0.
Proof. unfold twocoin_law, twocoin. cbn [twocoin_loop]. rewrite pr_dret. reflexivity. Qed.

(** ** detailed balance *)
Lemma qq_sym {A} (c1 c2 : dist (bool * A)) w1 w2 e : qq c1 c2 w1 w2 e = qq c2 c1 w2 w1 e.
Proof. unfold qq, fl. pose proof (exp_pos w1). pose proof (exp_pos w2). field. lra. Qed.
Lemma D_balance {A} (c1 c2 : dist (bool * A)) w1 w2 e f g n : proper c1 -> proper c2 ->
  exp w2 * heads c2 * pr (D c1 c2 w1 w2 e f n) says_true = exp w1 * heads c1 * pr (D c2 c1 w2 w1 e g n) says_true /\
  pr (D c1 c2 w1 w2 e f n) returned = pr (D c2 c1 w2 w1 e g n) returned.
Proof.
  intros P1 P2. rewrite !D_says, !D_returned, (qq_sym c2 c1 w2 w1) by auto. split; [|auto].
  pose proof (exp_pos w1). pose proof (exp_pos w2). field. lra.
Qed.
Lemma twocoin_balance {A} (c1 c2 : dist (bool * A)) w1 w2 e a b n : proper c1 -> proper c2 ->
  exp w2 * heads c2 * pr (twocoin_law c1 c2 w1 w2 e a n) says_true = exp w1 * heads c1 * pr (twocoin_law c2 c1 w2 w1 e b n) says_true /\
  pr (twocoin_law c1 c2 w1 w2 e a n) returned = pr (twocoin_law c2 c1 w2 w1 e b n) returned.
Proof. intros; rewrite !law_D; apply D_balance; auto. Qed.
Lemma twocoin_joint_balance {A} (c1 c2 : dist (bool * A)) w1 w2 e n : proper c1 -> proper c2 ->
  exp w2 * heads c2 * pr (twocoin_joint_law c1 c2 w1 w2 e n) says_true = exp w1 * heads c1 * pr (twocoin_joint_law c2 c1 w2 w1 e n) says_true /\
  pr (twocoin_joint_law c1 c2 w1 w2 e n) returned = pr (twocoin_joint_law c2 c1 w2 w1 e n) returned.
Proof. intros; rewrite !law_joint_D; apply D_balance; auto. Qed.

(** with the escape the acceptance probability is explicit *)
Lemma accept_value {A} (c1 c2 : dist (bool * A)) w1 w2 e prop0 n : proper c1 -> proper c2 -> 0 <= e <= 1 -> (0 < n)%nat ->
  0 < e \/ 0 < heads c1 + heads c2 ->
  let d := twocoin_law c1 c2 w1 w2 e prop0 n in
  pr d says_true / pr d returned = exp w1 * heads c1 / (exp w1 * heads c1 + exp w2 * heads c2 + e * (exp w1 * (1 - heads c1) + exp w2 * (1 - heads c2))).
Proof.
  intros P1 P2 He Hn HP. cbv zeta. rewrite law_D, D_says, D_returned by auto.
  assert (G : 0 < geo (qq c1 c2 w1 w2 e) n) by (apply geo_pos; auto; apply qq_range; auto).
  pose proof (Wpos w1 w2) as W. pose proof (exp_pos w1). pose proof (exp_pos w2).
  pose proof (heads_range c1 P1). pose proof (heads_range c2 P2).
  assert (QQ : 1 - qq c1 c2 w1 w2 e = (exp w1 * heads c1 + exp w2 * heads c2 + e * (exp w1 * (1 - heads c1) + exp w2 * (1 - heads c2))) / (exp w1 + exp w2)).
  { unfold qq, fl. rewrite clip_id by auto. field. lra. }
  assert (0 <= exp w1 * heads c1) by (apply Rmult_le_pos; lra). assert (0 <= exp w2 * heads c2) by (apply Rmult_le_pos; lra).
  assert (0 <= exp w1 * (1 - heads c1)) by (apply Rmult_le_pos; lra). assert (0 <= exp w2 * (1 - heads c2)) by (apply Rmult_le_pos; lra).
  assert (POS : 0 < exp w1 * heads c1 + exp w2 * heads c2 + e * (exp w1 * (1 - heads c1) + exp w2 * (1 - heads c2))).
  { destruct HP as [HP|HP].
    - assert (X : 0 <= e * (exp w1 * (1 - heads c1) + exp w2 * (1 - heads c2))) by (apply Rmult_le_pos; lra).
      destruct X as [X|X]; [lra|]. rewrite <- X. symmetry in X. apply Rmult_integral in X. destruct X as [X|X]; [lra|].
      assert (X2 : exp w1 * (1 - heads c1) = 0) by lra. apply Rmult_integral in X2. destruct X2 as [X1|X1]; [lra|]. 
      assert (X3 : heads c1 = 1) by lra. rewrite X3. lra.
    - pose proof (Hpos c1 c2 w1 w2 P1 P2 HP).
      assert (X : 0 <= e * (exp w1 * (1 - heads c1) + exp w2 * (1 - heads c2))) by (apply Rmult_le_pos; lra). lra. }
  rewrite QQ. field. repeat split; lra.
Qed.

(** ** updates with a pre-coin *)
Section Pre.
Context {A : Type} (run : R -> R -> dist (option (bool * bool * A) * unit)).
Lemma step_accepts precoin pw1 pw2 w1 w2 :
  pr (barker_step (m := dist) (@dret) (@dbind) d_ulog_lt run precoin pw1 pw2 w1 w2 tt) accepts
  = if precoin then exp pw1 / (exp pw1 + exp pw2) * pr (run 0 0) says_true else pr (run w1 w2) says_true.
Proof.
  assert (X : forall d : dist (option (bool * bool * A) * unit),
    pr (dbind d (fun r => dret (Some (fst r), snd r))) accepts = pr d says_true).
  { intros d. rewrite pr_dbind, pr_ev. apply ev_ext. intros [r u]. rewrite pr_dret. reflexivity. }
  unfold barker_step. destruct precoin; [|apply X].
  rewrite pr_dbind. unfold barker. rewrite (ev_flipd (clip01 (exp (pw1 - logaddexp pw1 pw2))) : forall g, ev (d_ulog_lt _) g = _).
  rewrite X, pr_dret. rewrite share. rewrite clip_id by (pose proof (share_range pw1 pw2); lra). unfold ind; simpl. ring.
Qed.
End Pre.

Lemma switching_balance {T A} (prior lik : T -> R) (nil prime : T) lf lb precoin (cp cn : dist (bool * A)) e n :
  proper cp -> proper cn ->
  exp (lik nil + prior nil + lf) * heads cn * pr (switching_param_law prior lik nil prime lf lb precoin cp cn e n) accepts
  = exp (lik prime + prior prime + lb) * heads cp * pr (switching_param_law prior lik prime nil lb lf precoin cn cp e n) accepts.
Proof.
  intros P1 P2. unfold switching_param_law, switching_step. rewrite !step_accepts. destruct precoin.
  - rewrite !law_joint_D, !D_says, (qq_sym cn cp) by auto.
    set (a := exp (lik nil + prior nil + lf)). set (b := exp (lik prime + prior prime + lb)).
    assert (0 < a) by apply exp_pos. assert (0 < b) by apply exp_pos. rewrite exp_0. field. lra.
  - apply (proj1 (twocoin_joint_balance cp cn _ _ e n P1 P2)).
Qed.
Lemma hidden_balance {A} precoin (cp cn : dist (bool * A)) wp wn e zp zn n : proper cp -> proper cn ->
  exp wn * heads cn * pr (hidden_law precoin cp cn wp wn e zn n) accepts
  = exp wp * heads cp * pr (hidden_law precoin cn cp wn wp e zp n) accepts.
Proof.
  intros P1 P2. unfold hidden_law, hidden_step. rewrite !step_accepts. destruct precoin.
  - rewrite !law_D, !D_says, (qq_sym cn cp) by auto.
    pose proof (exp_pos wn). pose proof (exp_pos wp). rewrite exp_0. field. lra.
  - apply (proj1 (twocoin_balance cp cn _ _ e zn zp n P1 P2)).
Qed.
Lemma ito_balance_plain {T A} (prior lik : T -> R) (nil prime : T) lf lb (cp cn : dist (bool * A)) e n :
  proper cp -> proper cn ->
  exp (lik nil + prior nil + lf) * heads cn * pr (ito_param_law prior lik nil prime lf lb false cp cn e n) accepts
  = exp (lik prime + prior prime + lb) * heads cp * pr (ito_param_law prior lik prime nil lb lf false cn cp e n) accepts.
Proof. intros P1 P2. apply (switching_balance prior lik nil prime lf lb false cp cn e n P1 P2). Qed.

(** the pre-coin of ito leaves the likelihood out: balance holds exactly when the two
    likelihoods agree *)
Lemma ito_balance_iff {T A} (prior lik : T -> R) (nil prime : T) lf lb (cp cn : dist (bool * A)) e n :
  proper cp -> proper cn -> 0 < heads cp -> 0 < heads cn -> (0 < n)%nat ->
  (exp (lik nil + prior nil + lf) * heads cn * pr (ito_param_law prior lik nil prime lf lb true cp cn e n) accepts
   = exp (lik prime + prior prime + lb) * heads cp * pr (ito_param_law prior lik prime nil lb lf true cn cp e n) accepts)
  <-> lik nil = lik prime.
Proof.
  intros P1 P2 H1 H2 Hn. unfold ito_param_law, ito_step. rewrite !step_accepts, !law_joint_D, !D_says, (qq_sym cn cp) by auto.
  replace (lik nil + prior nil + lf) with (lik nil + (prior nil + lf)) by ring.
  replace (lik prime + prior prime + lb) with (lik prime + (prior prime + lb)) by ring. rewrite !exp_plus.
  set (a := exp (prior nil + lf)). set (b := exp (prior prime + lb)).
  replace (exp (prior nil) * exp lf) with a by (unfold a; rewrite exp_plus; auto).
  replace (exp (prior prime) * exp lb) with b by (unfold b; rewrite exp_plus; auto).
  assert (Ha : 0 < a) by apply exp_pos. assert (Hb : 0 < b) by apply exp_pos. rewrite exp_0.
  set (g := geo (qq cp cn 0 0 e) n). assert (Hg : 0 < g) by (apply geo_pos; auto; apply qq_range; auto).
  set (h1 := heads cp) in *. set (h2 := heads cn) in *.
  set (K := a * b * h1 * h2 * g / ((a + b) * 2)).
  assert (HK : 0 < K) by (unfold K; apply Rdiv_lt_0_compat; [repeat apply Rmult_lt_0_compat; auto|lra]).
  replace (exp (lik nil) * a * h2 * (b / (b + a) * (1 * h1 / (1 + 1) * g))) with (exp (lik nil) * K) by (unfold K; field; lra).
  replace (exp (lik prime) * b * h1 * (a / (a + b) * (1 * h2 / (1 + 1) * g))) with (exp (lik prime) * K) by (unfold K; field; lra).
  split; intros E; [|rewrite E; auto]. apply Rmult_eq_reg_r in E; [|lra]. apply exp_inv; auto.
Qed.
