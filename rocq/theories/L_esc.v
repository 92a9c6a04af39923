(** The law of the escape decisions. *)
From Coquelicot Require Import Hierarchy RInt RInt_analysis.
From Coq Require Import Reals List Bool Arith Lia Lra.
From Verif Require Import Base Np Rng L_rng M_mjp M_hit M_path SpecHit SpecLaw SpecEsc L_hit2 L_hit3 L_hit4 L_hit5 L_hit6 L_hit7 L_hit8 L_hit9 L_heat5 L_can2 L_law L_law2 L_law3 L_law4 L_law5 L_law6.
Import ListNotations.
Local Open Scope R_scope.

(** ** the loop splits the seeds into three intervals *)
Definition answer (T F s : R) : res bool := if Rltb s T then Ok true else if Rltb F s then Ok false else NoFuel.
Definition shape (f : R -> res bool) (p : R) : Prop := exists T F, 0 <= T <= p /\ p <= F <= 1 /\ forall s, 0 <= s <= 1 -> f s = answer T F s.
Lemma shape_none : forall f p, 0 <= p <= 1 -> (forall s, 0 <= s <= 1 -> f s = NoFuel) -> shape f p.
Proof.
  intros f p Hp H. exists 0, 1. split; [lra|]. split; [lra|]. intros s Hs. rewrite H by exact Hs. unfold answer.
  rewrite (proj2 (Rltb_false s 0)), (proj2 (Rltb_false 1 s)) by lra. reflexivity.
Qed.
Lemma esc_shape : forall ser N p, fbrackets ser N p -> 0 <= p <= 1 -> forall fuel i, (N <= i)%nat -> shape (esc_loop ser fuel i) p.
Proof.
  intros ser N p B Hp. induction fuel as [|f IH]; intros i Hi; [apply shape_none; [exact Hp|reflexivity]|].
  destruct (IH (S i) ltac:(lia)) as (T & F & HT & HF & H). clear IH. destruct (Nat.even i) eqn:EV.
  - assert (X : exists x, x <= p /\ forall s, 0 <= s <= 1 -> flt (Some (Fin s)) (ser i) = Rltb s x).
    { assert (BE : forall seed, flt (Some (Fin seed)) (ser i) = true -> seed < p) by (intros seed; exact (proj1 (B i seed Hi) EV)).
      destruct (ser i) as [[|x|]|].
      - exists 0. split; [lra|]. intros s Hs. cbn. symmetry. apply Rltb_false. lra.
      - exists x. split; [|reflexivity]. destruct (Rle_or_lt x p) as [L|L]; [exact L|]. specialize (BE p). cbn in BE. rewrite (proj2 (Rltb_true p x) L) in BE. specialize (BE eq_refl). lra.
      - specialize (BE p eq_refl). lra.
      - exists 0. split; [lra|]. intros s Hs. cbn. symmetry. apply Rltb_false. lra. }
    destruct X as (x & Hx & X). exists (Rmax T x), F. split; [split; [apply Rle_trans with T; [lra|apply Rmax_l]|apply Rmax_lub; lra]|]. split; [exact HF|].
    intros s Hs. cbn [esc_loop]. rewrite <- Nat.negb_even, EV. cbn [negb andb orb]. rewrite orb_false_r, X by exact Hs. unfold answer.
    destruct (Rltb s x) eqn:E1.
    + apply Rltb_true in E1. rewrite (proj2 (Rltb_true s (Rmax T x))) by (apply Rlt_le_trans with x; [exact E1|apply Rmax_r]). reflexivity.
    + apply Rltb_false in E1. rewrite H by exact Hs. unfold answer. unfold Rmax. destruct (Rle_dec T x) as [L|L]; [|reflexivity].
      rewrite (proj2 (Rltb_false s x)) by exact E1. rewrite (proj2 (Rltb_false s T)) by lra. reflexivity.
  - assert (OD : Nat.odd i = true) by (rewrite <- Nat.negb_even, EV; reflexivity).
    assert (X : exists x, p <= x /\ forall s, 0 <= s <= 1 -> flt (ser i) (Some (Fin s)) = Rltb x s).
    { assert (BE : forall seed, flt (ser i) (Some (Fin seed)) = true -> p < seed) by (intros seed; exact (proj2 (B i seed Hi) OD)).
      destruct (ser i) as [[|x|]|].
      - specialize (BE p eq_refl). lra.
      - exists x. split; [|reflexivity]. destruct (Rle_or_lt p x) as [L|L]; [exact L|]. specialize (BE p). cbn in BE. rewrite (proj2 (Rltb_true x p) L) in BE. specialize (BE eq_refl). lra.
      - exists 1. split; [lra|]. intros s Hs. cbn. symmetry. apply Rltb_false. lra.
      - exists 1. split; [lra|]. intros s Hs. cbn. symmetry. apply Rltb_false. lra. }
    destruct X as (x & Hx & X). exists T, (Rmin F x). split; [exact HT|]. split; [split; [apply Rmin_glb; lra|apply Rle_trans with F; [apply Rmin_l|lra]]|].
    intros s Hs. cbn [esc_loop]. rewrite <- Nat.negb_even, EV. cbn [negb andb orb]. rewrite X by exact Hs. unfold answer.
    destruct (Rltb x s) eqn:E1.
    + apply Rltb_true in E1. rewrite (proj2 (Rltb_false s T)) by lra. rewrite (proj2 (Rltb_true (Rmin F x) s)) by (apply Rle_lt_trans with x; [apply Rmin_r|exact E1]). reflexivity.
    + apply Rltb_false in E1. rewrite H by exact Hs. unfold answer. destruct (Rltb s T); [reflexivity|]. unfold Rmin. destruct (Rle_dec F x) as [L|L]; [reflexivity|].
      rewrite (proj2 (Rltb_false x s)) by exact E1. rewrite (proj2 (Rltb_false F s)) by lra. reflexivity.
Qed.

(** ** integrating the seed out *)
Lemma below_integral : forall T, 0 <= T <= 1 -> is_RInt (fun s => ind (Rltb s T)) 0 1 T.
Proof.
  intros T H. apply (rint_split _ 0 T 1 ((T - 0) * 1) ((1 - T) * 0)); [ring| |].
  - refine (is_RInt_ext (fun _ => 1) _ _ _ _ _ (is_RInt_const 0 T 1)). rewrite Rmin_left, Rmax_right by lra. intros x Hx.
    rewrite (proj2 (Rltb_true x T)) by lra. reflexivity.
  - refine (is_RInt_ext (fun _ => 0) _ _ _ _ _ (is_RInt_const T 1 0)). rewrite Rmin_left, Rmax_right by lra. intros x Hx.
    rewrite (proj2 (Rltb_false x T)) by lra. reflexivity.
Qed.
Lemma above_integral : forall F, 0 <= F <= 1 -> is_RInt (fun s => ind (Rltb F s)) 0 1 (1 - F).
Proof.
  intros F H. apply (rint_split _ 0 F 1 ((F - 0) * 0) ((1 - F) * 1)); [ring| |].
  - refine (is_RInt_ext (fun _ => 0) _ _ _ _ _ (is_RInt_const 0 F 0)). rewrite Rmin_left, Rmax_right by lra. intros x Hx.
    rewrite (proj2 (Rltb_false F x)) by lra. reflexivity.
  - refine (is_RInt_ext (fun _ => 1) _ _ _ _ _ (is_RInt_const F 1 1)). rewrite Rmin_left, Rmax_right by lra. intros x Hx.
    rewrite (proj2 (Rltb_true F x)) by lra. reflexivity.
Qed.
Lemma decide_law : forall (m : nat -> R -> M bool) (f : nat -> R -> res bool) p, 0 <= p <= 1 ->
  (forall fuel s, 0 <= s <= 1 -> forall o k, m fuel s o k = (f fuel s, k)) -> (forall fuel, shape (f fuel) p) ->
  (forall s, 0 <= s <= 1 -> s <> p -> exists n0, forall fuel, (n0 <= fuel)%nat -> exists r, f fuel s = Ok r) ->
  settled (fun fuel => do s <- draw_r (DUniform 0 1); m fuel s) p.
Proof.
  intros m f p Hp Hm Hs Ht.
  set (yes := fun fuel s => value (fun r => ind r) (f fuel s)). set (no := fun fuel s => value (fun r => ind (negb r)) (f fuel s)).
  assert (SH : forall fuel, exists T F, 0 <= T <= p /\ p <= F <= 1 /\ RInt (yes fuel) 0 1 = T /\ RInt (no fuel) 0 1 = 1 - F /\ is_RInt (yes fuel) 0 1 T /\ is_RInt (no fuel) 0 1 (1 - F) /\ forall s, 0 <= s <= 1 -> f fuel s = answer T F s).
  { intros fuel. destruct (Hs fuel) as (T & F & HT & HF & H). exists T, F. split; [exact HT|]. split; [exact HF|].
    assert (Y : is_RInt (yes fuel) 0 1 T).
    { refine (is_RInt_ext (fun s => ind (Rltb s T)) _ _ _ _ _ (below_integral T ltac:(lra))). rewrite Rmin_left, Rmax_right by lra. intros s Q. unfold yes. rewrite H by lra. unfold answer.
      destruct (Rltb s T); [reflexivity|]. destruct (Rltb F s); reflexivity. }
    assert (N : is_RInt (no fuel) 0 1 (1 - F)).
    { refine (is_RInt_ext (fun s => ind (Rltb F s)) _ _ _ _ _ (above_integral F ltac:(lra))). rewrite Rmin_left, Rmax_right by lra. intros s Q. unfold no. rewrite H by lra. unfold answer.
      destruct (Rltb s T) eqn:E; [apply Rltb_true in E; rewrite (proj2 (Rltb_false F s)) by lra; reflexivity|]. destruct (Rltb F s); reflexivity. }
    split; [exact (is_RInt_unique _ _ _ _ Y)|]. split; [exact (is_RInt_unique _ _ _ _ N)|]. split; [exact Y|]. split; [exact N|exact H]. }
  exists (fun fuel => RInt (yes fuel) 0 1), (fun fuel => RInt (no fuel) 0 1). split; [|split].
  - intros fuel. destruct (SH fuel) as (T & F & HT & HF & -> & -> & Y & N & _). split.
    + apply (average_r _ (DUniform 0 1) (m fuel) _ (yes fuel)); [split; [lra|]; rewrite Rminus_0_r, Rmult_1_l; exact Y|].
      intros s (w & Hw & ->). apply (mean_done (value (fun r => ind r)) _ (f fuel (0 + (1 - 0) * w))). intros o k _. apply Hm. lra.
    + apply (average_r _ (DUniform 0 1) (m fuel) _ (no fuel)); [split; [lra|]; rewrite Rminus_0_r, Rmult_1_l; exact N|].
      intros s (w & Hw & ->). apply (mean_done (value (fun r => ind (negb r))) _ (f fuel (0 + (1 - 0) * w))). intros o k _. apply Hm. lra.
  - intros eps He. destruct (Rle_or_lt (p - eps / 2) 0) as [L|L].
    + exists 0%nat. intros fuel _. destruct (SH fuel) as (T & F & HT & HF & E & _). cbv beta. rewrite E. unfold R_dist. rewrite Rabs_left1 by lra. lra.
    + destruct (Ht (p - eps / 2)) as (n0 & H0); [lra|lra|]. exists n0. intros fuel Hf. destruct (H0 fuel Hf) as (r & Er). destruct (SH fuel) as (T & F & HT & HF & E & _ & _ & _ & H). cbv beta. rewrite E.
      rewrite H in Er by lra. unfold answer in Er. destruct (Rltb (p - eps / 2) T) eqn:E1.
      * apply Rltb_true in E1. unfold R_dist. rewrite Rabs_left1 by lra. lra.
      * destruct (Rltb F (p - eps / 2)) eqn:E2; [apply Rltb_true in E2; lra|discriminate].
  - intros eps He. destruct (Rle_or_lt 1 (p + eps / 2)) as [L|L].
    + exists 0%nat. intros fuel _. destruct (SH fuel) as (T & F & HT & HF & _ & E & _). cbv beta. rewrite E. unfold R_dist. rewrite Rabs_left1 by lra. lra.
    + destruct (Ht (p + eps / 2)) as (n0 & H0); [lra|lra|]. exists n0. intros fuel Hf. destruct (H0 fuel Hf) as (r & Er). destruct (SH fuel) as (T & F & HT & HF & _ & E & _ & _ & H). cbv beta. rewrite E.
      rewrite H in Er by lra. unfold answer in Er. destruct (Rltb (p + eps / 2) T) eqn:E1; [apply Rltb_true in E1; lra|].
      destruct (Rltb F (p + eps / 2)) eqn:E2; [|discriminate]. apply Rltb_true in E2. unfold R_dist. rewrite Rabs_left1 by lra. lra.
Qed.
