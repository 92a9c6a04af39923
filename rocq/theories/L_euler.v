(** Lemmas on euler_simulate and on the unused gradients. *)
From Coquelicot Require Import Hierarchy Derive AutoDerive.
From Coq Require Import Reals List Bool Arith ZArith Lia Lra.
From Verif Require Import Base Np Rng M_mjp M_models M_euler.
Import ListNotations.
Local Open Scope R_scope.

Lemma floor_spec : forall x, 0 <= x -> INR (floor_nat x) <= x < INR (floor_nat x) + 1.
Proof.
  intros x Hx. unfold floor_nat. pose proof (base_Int_part x) as [H1 H2].
  assert (P : (0 <= Int_part x)%Z). { apply le_IZR. assert (IZR (-1) < IZR (Int_part x)) as Q by lra. apply lt_IZR in Q. apply IZR_le. lia. }
  rewrite INR_IZR_INZ, Z2Nat.id by exact P. lra.
Qed.
Lemma ceil_spec : forall x, 0 <= x -> x <= INR (ceil_nat x) < x + 1.
Proof.
  intros x Hx. unfold ceil_nat. pose proof (base_Int_part (- x)) as [H1 H2].
  assert (P : (0 <= - Int_part (- x))%Z). { assert (IZR (Int_part (- x)) <= 0) as Q by lra. apply le_IZR in Q. lia. }
  rewrite INR_IZR_INZ, Z2Nat.id, opp_IZR by exact P. lra.
Qed.
Lemma floor_ceil : forall x, 0 <= x -> (ceil_nat x = S (floor_nat x) <-> forall m, x <> INR m).
Proof.
  intros x Hx. pose proof (floor_spec x Hx) as F. pose proof (ceil_spec x Hx) as C. split.
  - intros E m ->. rewrite E in C. rewrite S_INR in C. assert (INR m < INR (S (floor_nat (INR m)))) as Q by (rewrite S_INR; lra). apply INR_lt in Q.
    assert (INR (floor_nat (INR m)) < INR m) as Q2 by lra. apply INR_lt in Q2. lia.
  - intros H. assert (INR (floor_nat x) < x) by (destruct (proj1 F) as [Q|Q]; [exact Q|exfalso; apply (H (floor_nat x)); congruence]).
    assert (INR (floor_nat x) < INR (ceil_nat x)) as Q1 by lra. apply INR_lt in Q1.
    assert (INR (ceil_nat x) < INR (S (S (floor_nat x)))) as Q2 by (rewrite !S_INR; lra). apply INR_lt in Q2. lia.
Qed.

(** ** the draws *)
Lemma draw_rs_value : forall ds o k, draw_rs ds o k = (Ok (map (fun p => ora_r o (k + fst p) (snd p)) (combine (seq 0 (length ds)) ds)), (k + length ds)%nat).
Proof.
  induction ds as [|d ds IH]; intros o k; [cbn; rewrite Nat.add_0_r; reflexivity|]. cbn [draw_rs]. unfold bind, draw_r. rewrite IH. cbn [ret length seq combine map fst snd].
  rewrite Nat.add_0_r. unfold ret. rewrite <- seq_shift. replace (combine (map S (seq 0 (length ds))) ds) with (map (fun p : nat * rdist => (S (fst p), snd p)) (combine (seq 0 (length ds)) ds)).
  - rewrite map_map. cbn [fst snd]. f_equal; [|lia]. do 2 f_equal. apply map_ext. intros p. f_equal. lia.
  - generalize (seq 0 (length ds)). clear. induction ds as [|d ds IH]; intros [|a l]; cbn; try reflexivity. f_equal. apply IH.
Qed.
Lemma draw_row_normal : forall m o k, draw_rs (repeat DNormal m) o k = (Ok (map (fun i => ora_r o (k + i) DNormal) (seq 0 m)), (k + m)%nat).
Proof.
  intros m o k. rewrite draw_rs_value, repeat_length. do 2 f_equal. generalize (seq_length m 0). generalize (seq 0 m). clear. induction m as [|m IH]; intros [|a l] H; try discriminate; [reflexivity|].
  cbn. f_equal. apply IH. injection H as H. exact H.
Qed.
Lemma draw_rows_normal : forall n m o k, draw_rows n (repeat DNormal m) o k = (Ok (map (fun j => map (fun i => ora_r o (k + j * m + i) DNormal) (seq 0 m)) (seq 0 n)), (k + n * m)%nat).
Proof.
  induction n as [|n IH]; intros m o k; [cbn; rewrite Nat.add_0_r; reflexivity|]. cbn [draw_rows]. unfold bind at 1. rewrite draw_row_normal. unfold bind. rewrite IH. unfold ret.
  cbn [seq map]. rewrite <- seq_shift, map_map. f_equal; [|lia]. do 2 f_equal; [apply map_ext; intros; f_equal; lia|]. apply map_ext. intros j. apply map_ext. intros i. f_equal. lia.
Qed.

(** ** the recursion *)
Lemma nth_map_combine : forall d v res row e i, (i < length row)%nat -> (i < length e)%nat ->
  nth i (map (fun p => euler_step d v res (fst p) (snd p)) (combine row e)) 0 = euler_step d v res (nth i row 0) (nth i e 0).
Proof.
  intros d v res. induction row as [|x row IH]; intros [|y e] i H1 H2; cbn in H1, H2; try lia. destruct i as [|i]; [reflexivity|]. cbn. apply IH; lia.
Qed.
Lemma rows_spec : forall d v res noise m row, length row = m -> Forall (fun e => length e = m) noise ->
  length (euler_rows d v res row noise) = S (length noise) /\ Forall (fun r => length r = m) (euler_rows d v res row noise) /\ hd [] (euler_rows d v res row noise) = row /\
  forall j i, (j < length noise)%nat -> (i < m)%nat ->
    nth i (nth (S j) (euler_rows d v res row noise) []) 0 = euler_step d v res (nth i (nth j (euler_rows d v res row noise) []) 0) (nth i (nth j noise []) 0).
Proof.
  intros d v res. induction noise as [|e noise IH]; intros m row Hr HF.
  - cbn. split; [reflexivity|]. split; [constructor; [exact Hr|constructor]|]. split; [reflexivity|]. intros j i Hj. lia.
  - inversion HF as [|? ? He HF']; subst. cbn [euler_rows].
    destruct (IH (length row) (map (fun p => euler_step d v res (fst p) (snd p)) (combine row e))) as (A & B & C & D); [rewrite map_length, combine_length; lia|exact HF'|].
    split; [cbn; rewrite A; reflexivity|]. split; [constructor; [reflexivity|exact B]|]. split; [reflexivity|]. intros j i Hj Hi. destruct j as [|j].
    + cbn [nth]. destruct (euler_rows d v res (map (fun p => euler_step d v res (fst p) (snd p)) (combine row e)) noise) as [|r0 rs]; [discriminate|]. cbn in C. subst r0. cbn [nth].
      apply nth_map_combine; lia.
    + cbn [nth]. cbn [length] in Hj. rewrite <- (D j i ltac:(lia) Hi). reflexivity.
Qed.

Lemma euler_spec : forall ndraws fin_t init_x d v res o k, 0 <= fin_t -> 0 < res ->
  exists ts xs n, fst (euler_simulate ndraws fin_t init_x d v res o k) = Ok (ts, xs) /\
    INR n * res <= fin_t < (INR n + 1) * res /\
    (forall j u, nth_error ts j = Some u -> u = INR j * res /\ 0 <= u < fin_t) /\
    length xs = ndraws /\
    forall i x, nth_error xs i = Some x -> length x = S n /\ nth 0 x 0 = init_x /\
      forall j, (j < n)%nat -> nth (S j) x 0 = nth j x 0 + d (nth j x 0) * res + v (nth j x 0) * (sqrt res * ora_r o (k + j * ndraws + i) DNormal).
Proof.
  intros m fin_t init_x d v res o k HT HR. unfold euler_simulate. rewrite (proj2 (Rltb_false fin_t 0) HT).
  assert (RL : Rleb res 0 = false). { destruct (Rleb res 0) eqn:E; [apply Rleb_true in E; lra|reflexivity]. }
  rewrite RL. cbn [orb]. unfold bind. rewrite draw_rows_normal. cbn [ret fst].
  assert (HQ : 0 <= fin_t / res) by (apply Rmult_le_pos; [exact HT|left; apply Rinv_0_lt_compat; exact HR]).
  set (n := floor_nat (fin_t / res)). set (z := map (fun j => map (fun i => ora_r o (k + j * m + i) DNormal) (seq 0 m)) (seq 0 n)).
  set (noise := map (map (Rmult (sqrt res))) z). eexists _, _, n. split; [reflexivity|].
  assert (LN : length noise = n) by (unfold noise, z; rewrite !map_length, seq_length; reflexivity).
  assert (FN : Forall (fun e => length e = m) noise).
  { unfold noise, z. rewrite map_map. apply Forall_forall. intros e He. apply in_map_iff in He as (j & <- & _). rewrite !map_length, seq_length. reflexivity. }
  destruct (rows_spec d v res noise m (repeat init_x m) (repeat_length _ _) FN) as (A & B & C & D). rewrite LN in *.
  split; [|split; [|split; [|]]].
  - pose proof (floor_spec (fin_t / res) HQ) as [F1 F2]. fold n in F1, F2. split.
    + apply (Rmult_le_compat_r res) in F1; [|lra]. replace (fin_t / res * res) with fin_t in F1 by (field; lra). exact F1.
    + apply (Rmult_lt_compat_r res) in F2; [|lra]. replace (fin_t / res * res) with fin_t in F2 by (field; lra). exact F2.
  - intros j u Hu. unfold arange in Hu. rewrite nth_error_map in Hu. destruct (nth_error (seq 0 (ceil_nat (fin_t / res))) j) as [q|] eqn:Eq; [|discriminate].
    assert (Hj : (j < ceil_nat (fin_t / res))%nat) by (rewrite <- (seq_length (ceil_nat (fin_t / res)) 0); apply nth_error_Some; rewrite Eq; discriminate).
    apply (nth_error_nth _ _ 0%nat) in Eq. rewrite seq_nth in Eq by exact Hj. cbn in Eq. subst q. injection Hu as <-. split; [reflexivity|]. split.
    + apply Rmult_le_pos; [apply pos_INR|lra].
    + pose proof (ceil_spec (fin_t / res) HQ) as [_ C2]. assert (INR j + 1 <= INR (ceil_nat (fin_t / res))) by (rewrite <- S_INR; apply le_INR; lia).
      assert (G : INR j < fin_t / res) by lra. apply (Rmult_lt_compat_r res) in G; [|lra]. replace (fin_t / res * res) with fin_t in G by (field; lra). exact G.
  - rewrite map_length, seq_length. reflexivity.
  - intros i x Hx. rewrite nth_error_map in Hx. destruct (nth_error (seq 0 m) i) as [q|] eqn:Eq; [|discriminate].
    assert (Hi : (i < m)%nat) by (rewrite <- (seq_length m 0); apply nth_error_Some; rewrite Eq; discriminate).
    apply (nth_error_nth _ _ 0%nat) in Eq. rewrite seq_nth in Eq by exact Hi. cbn in Eq. subst q. injection Hx as <-.
    set (rows := euler_rows d v res (repeat init_x m) noise) in *.
    assert (NT : forall j, (j < S n)%nat -> nth j (map (fun row => nth i row 0) rows) 0 = nth i (nth j rows []) 0).
    { intros j Hj. rewrite (nth_indep _ 0 ((fun row => nth i row 0) [])) by (rewrite map_length, A; exact Hj). apply (map_nth (fun row => nth i row 0)). }
    split; [rewrite map_length; exact A|]. split.
    + rewrite NT by lia. destruct rows as [|r0 rs]; [discriminate|]. cbn in C. subst r0. cbn [nth]. rewrite (nth_indep _ 0 init_x) by (rewrite repeat_length; exact Hi). apply nth_repeat.
    + intros j Hj. rewrite !NT by lia. rewrite (D j i Hj Hi). unfold euler_step. do 2 f_equal.
      unfold noise. rewrite (nth_indep _ [] (map (Rmult (sqrt res)) [])) by (rewrite map_length; unfold z; rewrite map_length, seq_length; exact Hj). rewrite map_nth.
      unfold z. rewrite (nth_indep _ [] ((fun j => map (fun i => ora_r o (k + j * m + i) DNormal) (seq 0 m)) 0%nat)) by (rewrite map_length, seq_length; exact Hj).
      rewrite (map_nth (fun j => map (fun i => ora_r o (k + j * m + i) DNormal) (seq 0 m))), seq_nth by exact Hj. cbn [plus].
      rewrite map_map. rewrite (nth_indep _ 0 ((fun i => sqrt res * ora_r o (k + j * m + i) DNormal) 0%nat)) by (rewrite map_length, seq_length; exact Hi).
      rewrite (map_nth (fun i => sqrt res * ora_r o (k + j * m + i) DNormal)), seq_nth by exact Hi. reflexivity.
Qed.
(** times and values match exactly when the horizon is not a multiple of the step *)
Lemma euler_lengths : forall ndraws fin_t init_x d v res o k ts xs, 0 <= fin_t -> 0 < res -> (0 < ndraws)%nat ->
  fst (euler_simulate ndraws fin_t init_x d v res o k) = Ok (ts, xs) ->
  (Forall (fun x => length x = length ts) xs <-> forall m, fin_t <> INR m * res).
Proof.
  intros m fin_t init_x d v res o k ts xs HT HR Hm E.
  assert (HQ : 0 <= fin_t / res) by (apply Rmult_le_pos; [exact HT|left; apply Rinv_0_lt_compat; exact HR]).
  assert (LT : length ts = ceil_nat (fin_t / res)).
  { revert E. unfold euler_simulate. destruct (Rltb fin_t 0 || Rleb res 0); [discriminate|]. unfold bind. rewrite draw_rows_normal. cbn [ret fst]. intros [= <- _].
    unfold arange. rewrite map_length, seq_length. reflexivity. }
  destruct (euler_spec m fin_t init_x d v res o k HT HR) as (ts' & xs' & n & E' & HN & _ & LX & HX). rewrite E in E'. injection E' as <- <-.
  assert (N : n = floor_nat (fin_t / res)).
  { pose proof (floor_spec _ HQ) as [F1 F2]. assert (fin_t = fin_t / res * res) as Q by (field; lra). rewrite Q in HN. destruct HN as [N1 N2].
    apply Rmult_le_reg_r in N1; [|exact HR]. apply Rmult_lt_reg_r in N2; [|exact HR]. assert (INR n < INR (floor_nat (fin_t / res)) + 1) as G1 by lra. assert (INR (floor_nat (fin_t / res)) < INR n + 1) as G2 by lra.
    rewrite <- S_INR in G1, G2. apply INR_lt in G1, G2. lia. }
  assert (HM : (forall q, fin_t <> INR q * res) <-> forall q, fin_t / res <> INR q).
  { split; intros H q Q; apply (H q); [rewrite <- Q; field; lra|rewrite Q; field; lra]. }
  rewrite HM, <- (floor_ceil _ HQ), LT, <- N. split.
  - intros HF. destruct xs as [|x xs]; [cbn in LX; lia|]. inversion HF; subst. destruct (HX 0%nat x eq_refl) as [L0 _]. congruence.
  - intros EQ. apply Forall_forall. intros x Hx. apply In_nth_error in Hx as (i & Hi). destruct (HX i x Hi) as [L0 _]. congruence.
Qed.

(** ** gradients *)
(** the discrepancy along the denormalised path with normalised value z at time t *)
Definition ou_along (fin_t init_v fin_v t z bet sig : R) : R :=
  ou_disc [bet; sig] (sqrt fin_t * z + ((1 - t / fin_t) * init_v + t / fin_t * fin_v) / sig).
Lemma ou_grad_sig : forall fin_t init_v fin_v t z bet sig, 0 <= fin_t -> sig <> 0 ->
  is_derive (fun s => ou_along fin_t init_v fin_v t z bet s) sig (snd (ou_eval_grad [bet; sig] fin_t init_v fin_v t z)).
Proof.
  intros fin_t v0 v1 t z bet sig HT Hs. unfold ou_along, ou_disc, ito_disc, ou_drift, ou_dx, ou_eval_grad, par. cbn [nth snd]. set (vt := (1 - t / fin_t) * v0 + t / fin_t * v1).
  auto_derive; [tauto|]. cbn [pow]. field. exact Hs.
Qed.
Lemma ou_grad_bet : forall fin_t init_v fin_v t z bet sig, 0 <= fin_t -> sig <> 0 ->
  is_derive (fun b => ou_along fin_t init_v fin_v t z b sig) bet (fst (ou_eval_grad [bet; sig] fin_t init_v fin_v t z) + 1 / 2).
Proof.
  intros fin_t v0 v1 t z bet sig HT Hs. unfold ou_along, ou_disc, ito_disc, ou_drift, ou_dx, ou_eval_grad, par. cbn [nth fst]. set (vt := (1 - t / fin_t) * v0 + t / fin_t * v1).
  pose proof (sqrt_sqrt fin_t HT) as Q. set (q := sqrt fin_t) in *. clearbody vt. rewrite <- Q. clearbody q. auto_derive; [tauto|]. cbn [pow]. field. exact Hs.
Qed.

(** the true derivative in the first parameter is not what eval_grad returns *)
Lemma ou_grad_bet_refuted : forall fin_t init_v fin_v t z bet sig, 0 <= fin_t -> sig <> 0 ->
  ~ is_derive (fun b => ou_along fin_t init_v fin_v t z b sig) bet (fst (ou_eval_grad [bet; sig] fin_t init_v fin_v t z)).
Proof.
  intros fin_t v0 v1 t z bet sig HT Hs H. pose proof (ou_grad_bet fin_t v0 v1 t z bet sig HT Hs) as G.
  apply is_derive_unique in H. apply is_derive_unique in G. rewrite H in G. lra.
Qed.
Lemma ou_grad_bound_refuted : forall thi thi' fin_t t,
  nth 0 (ou_bounds_grad thi thi' fin_t 0 0 0 0) 0 < Rabs (fst (ou_eval_grad thi fin_t 0 0 t 0)).
Proof.
  intros thi thi' fin_t t. unfold ou_bounds_grad, ou_eval_grad. cbn [nth fst]. rewrite Rabs_R0. unfold Rmax. destruct (Rle_dec 0 0) as [_|N]; [|exfalso; lra].
  unfold Rdiv. rewrite !Rmult_0_r, !Rmult_0_l, !Rplus_0_l. replace (0 * / par thi 1) with 0 by ring. rewrite ?Rmult_0_r, ?Rmult_0_l, ?pow_ne_zero by lia. rewrite ?Rmult_0_r, ?Rplus_0_l, ?Rmult_0_r, ?Rplus_0_l.
  replace (0 - 1) with (-(1)) by ring. rewrite Rabs_Ropp, Rabs_R1. lra.
Qed.
Lemma cir_grad_zero : forall thi fin_t v0 v1 t z, cir_eval_grad thi fin_t v0 v1 t z = (0, 0, 0).
Proof. reflexivity. Qed.
(** two steps of size 1/2 up to time 1: three values but two times *)
Lemma floor_2 : floor_nat (1 / (1 / 2)) = 2%nat /\ ceil_nat (1 / (1 / 2)) = 2%nat.
Proof.
  assert (P : 0 <= 1 / (1 / 2)) by lra. pose proof (floor_spec _ P) as F. pose proof (ceil_spec _ P) as C.
  assert (E : 1 / (1 / 2) = INR 2) by (cbn; lra). rewrite E in *. split.
  - assert (INR (floor_nat (INR 2)) < INR 3) as Q by (cbn in *; lra). apply INR_lt in Q. assert (INR 1 < INR (floor_nat (INR 2))) as Q2 by (cbn in *; lra). apply INR_lt in Q2. lia.
  - assert (INR (ceil_nat (INR 2)) < INR 3) as Q by (cbn in *; lra). apply INR_lt in Q. assert (INR 1 < INR (ceil_nat (INR 2))) as Q2 by (cbn in *; lra). apply INR_lt in Q2. lia.
Qed.
Lemma euler_demo : forall o, exists ts xs, fst (euler_simulate 1 1 0 (fun x => - x) (fun _ => 1) (1 / 2) o 0%nat) = Ok (ts, xs) /\
  ts = [0; 1 / 2] /\ exists x, xs = [x] /\ length x = 3%nat /\ nth 0 x 0 = 0 /\ nth 1 x 0 = sqrt (1 / 2) * ora_r o 0%nat DNormal.
Proof.
  intros o. unfold euler_simulate. rewrite (proj2 (Rltb_false 1 0)) by lra. assert (RL : Rleb (1 / 2) 0 = false). { destruct (Rleb (1 / 2) 0) eqn:E; [apply Rleb_true in E; lra|reflexivity]. }
  rewrite RL. cbn [orb]. unfold bind. rewrite draw_rows_normal. unfold arange. destruct floor_2 as [-> ->]. cbn -[sqrt Rdiv INR].
  eexists _, _. split; [reflexivity|]. split; [cbn; f_equal; [ring|f_equal; lra]|]. eexists. split; [reflexivity|]. split; [reflexivity|]. split; [reflexivity|]. cbn. unfold euler_step. ring.
Qed.
