(** Lemmas on the log priors. *)
From Coquelicot Require Import Hierarchy Derive AutoDerive.
From Coq Require Import Reals List Bool Lra Lia.
From Verif Require Import Base M_prior.
Import ListNotations.
Local Open Scope R_scope.

Lemma xlog_pos : forall x, 0 < x -> xlog x = Some (Fin (ln x)).
Proof. intros x H. unfold xlog. rewrite (proj2 (Rltb_true 0 x) H). reflexivity. Qed.
Lemma xlog_0 : xlog 0 = Some NegInf.
Proof. unfold xlog. rewrite (proj2 (Rltb_false 0 0)) by lra. reflexivity. Qed.
Definition row_value (sb sr bet rho : R) : R := ln bet + ln rho + ln bet ^ 2 / (2 * sb ^ 2) + ln (rho ^ 2) ^ 2 / (2 * sr ^ 2).
Lemma ou_row_pos : forall sb sr bet rho, 0 < bet -> 0 < rho -> ou_row sb sr bet rho = Some (Fin (row_value sb sr bet rho)).
Proof.
  intros sb sr bet rho Hb Hr. unfold ou_row. rewrite (xlog_pos bet Hb), (xlog_pos rho Hr), (xlog_pos (rho ^ 2)) by (apply pow_lt; exact Hr). reflexivity.
Qed.
Lemma ou_row_zero : forall sb sr bet rho, 0 <= bet -> 0 <= rho -> bet = 0 \/ rho = 0 -> ou_row sb sr bet rho = None.
Proof.
  intros sb sr bet rho Hb Hr H. unfold ou_row. destruct H as [-> | ->].
  - rewrite xlog_0. destruct Hr as [Hr|Hr].
    + rewrite (xlog_pos rho Hr). reflexivity.
    + rewrite <- Hr, xlog_0. reflexivity.
  - rewrite xlog_0. replace (0 ^ 2) with 0 by ring. rewrite xlog_0. destruct Hb as [Hb|Hb].
    + rewrite (xlog_pos bet Hb). reflexivity.
    + rewrite <- Hb, xlog_0. reflexivity.
Qed.
Lemma row_value_exp : forall sb sr y w, sb <> 0 -> sr <> 0 ->
  exp (- row_value sb sr (exp y) (exp (w / 2))) * exp y * exp (w / 2) = exp (- (y ^ 2 / (2 * sb ^ 2) + w ^ 2 / (2 * sr ^ 2))).
Proof.
  intros sb sr y w H1 H2. unfold row_value. rewrite !ln_exp. replace (exp (w / 2) ^ 2) with (exp w) by (cbn; rewrite Rmult_1_r, <- exp_plus; f_equal; field).
  rewrite ln_exp. rewrite <- !exp_plus. f_equal. field. split; assumption.
Qed.
Lemma row_value_below : forall sb sr bet rho, 0 < bet -> 0 < rho -> sb <> 0 -> sr <> 0 -> - row_value sb sr bet rho <= sb ^ 2 / 2 + sr ^ 2 / 8.
Proof.
  intros sb sr bet rho Hb Hr H1 H2. unfold row_value.
  assert (E : ln (rho ^ 2) = 2 * ln rho) by (cbn; rewrite Rmult_1_r, ln_mult by assumption; ring). rewrite E.
  set (y := ln bet). set (w := ln rho).
  assert (Q : sb ^ 2 / 2 + sr ^ 2 / 8 - - (y + w + y ^ 2 / (2 * sb ^ 2) + (2 * w) ^ 2 / (2 * sr ^ 2)) = (y / sb + sb) ^ 2 / 2 + (2 * w / sr + sr / 2) ^ 2 / 2) by (field; split; assumption).
  pose proof (pow2_ge_0 (y / sb + sb)). pose proof (pow2_ge_0 (2 * w / sr + sr / 2)). lra.
Qed.

Lemma ou_prior_cases : forall sb sr thi,
  (fst thi < 0 \/ snd thi < 0 -> ou_log_prior sb sr thi = Some NegInf) /\
  (0 <= fst thi -> 0 <= snd thi -> fst thi = 0 \/ snd thi = 0 -> ou_log_prior sb sr thi = None) /\
  (0 < fst thi -> 0 < snd thi -> sb <> 0 -> sr <> 0 -> exists v, ou_log_prior sb sr thi = Some (Fin v) /\ v <= sb ^ 2 / 2 + sr ^ 2 / 8).
Proof.
  intros sb sr [b r]. cbn [fst snd]. unfold ou_log_prior. cbn [fst snd]. split; [|split].
  - intros [H|H]; rewrite (proj2 (Rltb_true _ 0) H); [|rewrite orb_true_r]; reflexivity.
  - intros Hb Hr H. rewrite (proj2 (Rltb_false b 0) Hb), (proj2 (Rltb_false r 0) Hr). cbn [orb]. rewrite (ou_row_zero sb sr b r Hb Hr H). reflexivity.
  - intros Hb Hr H1 H2. rewrite (proj2 (Rltb_false b 0)), (proj2 (Rltb_false r 0)) by lra. cbn [orb]. rewrite (ou_row_pos sb sr b r Hb Hr).
    eexists. split; [reflexivity|]. apply row_value_below; assumption.
Qed.
Lemma ou_prior_normal : forall sb sr y w, sb <> 0 -> sr <> 0 ->
  exists v, ou_log_prior sb sr (exp y, exp (w / 2)) = Some (Fin v) /\
    exp v * exp y * exp (w / 2) = exp (- (y ^ 2 / (2 * sb ^ 2))) * exp (- (w ^ 2 / (2 * sr ^ 2))).
Proof.
  intros sb sr y w H1 H2. pose proof (exp_pos y) as P1. pose proof (exp_pos (w / 2)) as P2. exists (- row_value sb sr (exp y) (exp (w / 2))). split.
  - unfold ou_log_prior. cbn [fst snd]. rewrite (proj2 (Rltb_false _ 0)), (proj2 (Rltb_false _ 0)) by lra. cbn [orb]. rewrite ou_row_pos by assumption. reflexivity.
  - rewrite row_value_exp by assumption. rewrite <- exp_plus. f_equal. ring.
Qed.

(** ** the switching models *)
Lemma xsum_fin : forall l x, fold_left xadd (map xfin l) (xfin x) = xfin (x + fold_right Rplus 0 l).
Proof. induction l as [|a l IH]; intros x; cbn [map fold_left fold_right]; [rewrite Rplus_0_r; reflexivity|]. cbn [xadd xfin]. change (Some (Fin (x + a))) with (xfin (x + a)). rewrite IH. f_equal. ring. Qed.
Lemma xsum_none : forall l, fold_left xadd l None = None.
Proof. induction l as [|a l IH]; [reflexivity|]. cbn [fold_left xadd]. exact IH. Qed.
Lemma xadd_none : forall a, xadd a None = None.
Proof. intros [[]|]; reflexivity. Qed.
Lemma xsum_has_none : forall l a, In None l -> fold_left xadd l a = None.
Proof. induction l as [|b l IH]; intros a H; [contradiction|]. destruct H as [-> |H]; cbn [fold_left]; [rewrite xadd_none; apply xsum_none|apply IH; exact H]. Qed.

Lemma sw_prior_cases : forall sb sr thi,
  (Exists (fun r => fst r < 0 \/ snd r < 0) thi -> sw_log_prior sb sr thi = Some NegInf) /\
  (Forall (fun r => 0 <= fst r /\ 0 <= snd r) thi -> Exists (fun r => fst r = 0 \/ snd r = 0) thi -> sw_log_prior sb sr thi = None) /\
  (Forall (fun r => 0 < fst r /\ 0 < snd r) thi -> exists vs, Forall2 (fun r v => ou_log_prior sb sr r = Some (Fin v)) thi vs /\
     sw_log_prior sb sr thi = Some (Fin (fold_right Rplus 0 vs))).
Proof.
  intros sb sr thi. unfold sw_log_prior. split; [|split].
  - intros H. replace (existsb _ thi) with true; [reflexivity|]. symmetry. apply existsb_exists. apply Exists_exists in H as (r & Hr & H). exists r. split; [exact Hr|].
    destruct H as [H|H]; rewrite (proj2 (Rltb_true _ 0) H); [|rewrite orb_true_r]; reflexivity.
  - intros HF HE. replace (existsb _ thi) with false.
    2:{ symmetry. apply not_true_is_false. intros E. apply existsb_exists in E as (r & Hr & E). rewrite Forall_forall in HF. destruct (HF r Hr) as [A B].
        rewrite (proj2 (Rltb_false _ 0) A), (proj2 (Rltb_false _ 0) B) in E. discriminate. }
    unfold xsum. rewrite xsum_has_none; [reflexivity|]. apply Exists_exists in HE as (r & Hr & H). rewrite Forall_forall in HF. destruct (HF r Hr) as [A B].
    apply in_map_iff. exists r. split; [apply ou_row_zero; assumption|exact Hr].
  - intros HF. exists (map (fun r => - row_value sb sr (fst r) (snd r)) thi). split.
    + induction HF as [|[b r] l [A B] _ IH]; constructor; [|exact IH]. unfold ou_log_prior. cbn [fst snd] in *. rewrite (proj2 (Rltb_false b 0)), (proj2 (Rltb_false r 0)) by lra.
      cbn [orb]. rewrite ou_row_pos by assumption. reflexivity.
    + replace (existsb _ thi) with false.
      2:{ symmetry. apply not_true_is_false. intros E. apply existsb_exists in E as (r & Hr & E). rewrite Forall_forall in HF. destruct (HF r Hr) as [A B].
          rewrite (proj2 (Rltb_false (fst r) 0)), (proj2 (Rltb_false (snd r) 0)) in E by lra. discriminate. }
      assert (E : map (fun r => ou_row sb sr (fst r) (snd r)) thi = map xfin (map (fun r => row_value sb sr (fst r) (snd r)) thi)).
      { rewrite map_map. apply map_ext_in. intros r Hr. rewrite Forall_forall in HF. destruct (HF r Hr) as [A B]. apply ou_row_pos; assumption. }
      unfold xsum. rewrite E, xsum_fin. cbn [xneg xfin]. do 2 f_equal. clear. induction thi as [|r l IH]; cbn [map fold_right]; [ring|]. lra.
Qed.

(** ** the square-root diffusion *)
Lemma cir_prior_cases : forall bet mu sig,
  (bet < 0 \/ mu < 0 \/ sig < 0 -> cir_log_prior bet mu sig = Some NegInf) /\
  (0 <= bet -> 0 <= mu -> sig = 0 -> cir_log_prior bet mu sig = None) /\
  (0 <= bet -> 0 <= mu -> 0 < sig -> exists v, cir_log_prior bet mu sig = Some (Fin v) /\
     exp v = exp (- bet) * exp (- mu) * (exp (- (1 / sig ^ 2)) / sig ^ 3) /\
     is_derive (fun s => exp (- (1 / s ^ 2)) / 2) sig (exp (- (1 / sig ^ 2)) / sig ^ 3)).
Proof.
  intros bet mu sig. unfold cir_log_prior. split; [|split].
  - intros [H|[H|H]]; rewrite (proj2 (Rltb_true _ 0) H); rewrite ?orb_true_r; reflexivity.
  - intros Hb Hm ->. rewrite (proj2 (Rltb_false bet 0) Hb), (proj2 (Rltb_false mu 0) Hm), (proj2 (Rltb_false 0 0)) by lra. cbn [orb].
    rewrite xlog_0. unfold xinv. replace (0 ^ 2) with 0 by ring. rewrite (proj2 (Reqb_true 0 0) eq_refl). reflexivity.
  - intros Hb Hm Hs. rewrite (proj2 (Rltb_false bet 0) Hb), (proj2 (Rltb_false mu 0) Hm), (proj2 (Rltb_false sig 0)) by lra. cbn [orb].
    rewrite (xlog_pos sig Hs). unfold xinv. destruct (Reqb (sig ^ 2) 0) eqn:E; [apply Reqb_true in E; pose proof (pow_lt sig 2 Hs); lra|].
    eexists. split; [reflexivity|]. split.
    + assert (E3 : exp (- (3 * ln sig)) = / sig ^ 3).
      { rewrite exp_Ropp. f_equal. replace (3 * ln sig) with (ln sig + (ln sig + ln sig)) by ring. rewrite !exp_plus, exp_ln by exact Hs. ring. }
      replace (- (bet + mu + / sig ^ 2 + 3 * ln sig)) with (- bet + (- mu + (- (1 / sig ^ 2) + - (3 * ln sig)))) by (field; lra).
      rewrite !exp_plus, E3. field. lra.
    + auto_derive; [apply Rgt_not_eq; nra|]. cbn [pow].
      replace (1 * / (sig * (sig * 1))) with (1 / (sig * (sig * 1))) by (unfold Rdiv; reflexivity). field. lra.
Qed.

Lemma prior_nan : forall sb sr,
  ou_log_prior sb sr (0, 1) = None /\ sw_log_prior sb sr [(1, 1); (1, 0)] = None /\ cir_log_prior 1 1 0 = None.
Proof.
  intros sb sr. split; [|split].
  - apply (proj1 (proj2 (ou_prior_cases sb sr (0, 1)))); cbn; [lra|lra|left; reflexivity].
  - apply (proj1 (proj2 (sw_prior_cases sb sr [(1, 1); (1, 0)]))).
    + constructor; [cbn; lra|constructor; [cbn; lra|constructor]].
    + apply Exists_cons_tl, Exists_cons_hd. right. reflexivity.
  - apply (proj1 (proj2 (cir_prior_cases 1 1 0))); lra.
Qed.
Lemma row_value_1 : row_value 1 1 1 1 = 0.
Proof. unfold row_value. replace (1 ^ 2) with 1 by ring. rewrite ln_1. field. Qed.
Lemma prior_demo : ou_log_prior 1 1 (1, 1) = Some (Fin 0) /\ sw_log_prior 1 1 [(1, 1); (1, 1)] = Some (Fin 0) /\
  sw_log_prior 1 1 [(1, 1); (-1, 1)] = Some NegInf /\ cir_log_prior 1 1 1 = Some (Fin (-3)).
Proof.
  assert (R0 : Rltb 1 0 = false) by (apply Rltb_false; lra). split; [|split; [|split]].
  - unfold ou_log_prior. cbn [fst snd]. rewrite R0. cbn [orb]. rewrite ou_row_pos by lra. rewrite row_value_1. cbn. do 2 f_equal. ring.
  - unfold sw_log_prior. cbn [existsb fst snd map]. rewrite R0. cbn [orb]. rewrite ou_row_pos by lra. rewrite row_value_1. cbn. do 2 f_equal. ring.
  - apply (proj1 (sw_prior_cases 1 1 [(1, 1); (-1, 1)])). apply Exists_cons_tl, Exists_cons_hd. left. cbn. lra.
  - destruct (proj2 (proj2 (cir_prior_cases 1 1 1))) as (v & E & Q & _); [lra|lra|lra|]. rewrite E. do 2 f_equal. apply exp_inv.
    rewrite Q. replace (exp (- (1 / 1 ^ 2)) / 1 ^ 3) with (exp (-(1))) by (replace (- (1 / 1 ^ 2)) with (-(1)) by field; field). rewrite <- !exp_plus. f_equal. ring.
Qed.
