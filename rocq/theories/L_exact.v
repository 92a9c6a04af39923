(** The Poisson coin on a known path, batch by batch. *)
From Coquelicot Require Import Rcomplements Hierarchy Rbar Lim_seq Continuity Derive RInt RInt_analysis Series.
From Coq Require Import Reals List Bool Arith ZArith Lra Lia Psatz Permutation.
From Verif Require Import Base Np Rng L_list L_rng M_mjp M_path M_skel SpecLaw SpecCoin L_law L_law2 L_law3 L_law4 L_law5.
Import ListNotations.
Local Open Scope R_scope.

Ltac req := match goal with |- ?x = ?y => change (@eq R x y) end.

(** ** sums *)
Definition rs (n : nat) (f : nat -> R) : R := fold_right Rplus 0 (map f (seq 0 n)).
Lemma rs_S : forall n f, rs (S n) f = rs n f + f n.
Proof.
  intros n f. unfold rs. rewrite seq_S, map_app, fold_right_app. cbn [map fold_right Nat.add].
  generalize (map f (seq 0 n)). intros l. rewrite Rplus_0_r. induction l as [|a l IH]; cbn [fold_right]; [ring|rewrite IH; ring].
Qed.
(** ** an integral by levels *)
Definition cnt (d : R) (n : nat) (x : R) : R := rs n (fun i => ind (Rltb (INR i * d) x)).
Lemma cnt_bounds : forall d n x, 0 < d -> 0 <= x -> Rmin x (INR n * d) <= d * cnt d n x <= Rmin (x + d) (INR n * d).
Proof.
  intros d n x Hd Hx. induction n as [|n IH].
  - unfold cnt, rs. cbn. rewrite Rmult_0_l, Rmult_0_r, !Rmin_right by lra. lra.
  - unfold cnt. rewrite rs_S. fold (cnt d n x). rewrite S_INR. destruct (Rltb_dec (INR n * d) x) as [[E ->]|[E ->]]; cbn [ind].
    + rewrite (Rmin_right x) in IH by lra. rewrite (Rmin_right (x + d) (INR n * d)) in IH by lra.
      assert (EQ : d * (cnt d n x + 1) = (INR n + 1) * d) by (assert (d * cnt d n x = INR n * d) by lra; nra). rewrite EQ.
      rewrite (Rmin_right (x + d)) by nra. split; [apply Rmin_r|lra].
    + apply Rnot_lt_le in E || idtac. assert (Hn : x <= INR n * d) by lra. rewrite (Rmin_left x (INR n * d)) in IH by lra. rewrite (Rmin_left x) by nra.
      replace (d * (cnt d n x + 0)) with (d * cnt d n x) by ring. split; [lra|].
      apply Rmin_glb; [apply Rle_trans with (2 := Rmin_l (x + d) (INR n * d)); lra|]. pose proof (Rmin_r (x + d) (INR n * d)). nra.
Qed.
Section Levels.
Context (f G : R -> R) (T b v : R) (HT : 0 < T) (Hb : 0 < b) (Hf : forall u, 0 <= u <= T -> 0 <= f u <= b) (Hv : is_RInt f 0 T v)
  (HG : forall h, continuous G h) (HL : forall h, 0 <= h -> is_RInt (fun u => ind (negb (Rltb h (f u)))) 0 T (T * G h)).
Lemma ind_le1 : forall c, 0 <= ind c <= 1.
Proof. intros []; cbn; lra. Qed.
Lemma G_mono : forall x y, 0 <= x <= y -> G x <= G y.
Proof using HT HL.
  clear Hb Hf Hv HG. intros x y E. apply (Rmult_le_reg_l T); [lra|]. refine (is_RInt_le _ _ 0 T _ _ _ (HL x ltac:(lra)) (HL y ltac:(lra)) _); [lra|]. intros u _.
  destruct (Rltb_dec x (f u)) as [[A ->]|[A ->]], (Rltb_dec y (f u)) as [[B ->]|[B ->]]; cbn; lra.
Qed.
Lemma G_range : forall h, 0 <= h -> 0 <= G h <= 1.
Proof using HT HL.
  clear Hb Hf Hv HG. intros h Hh. split; apply (Rmult_le_reg_l T); try lra.
  - rewrite Rmult_0_r. replace 0 with ((T - 0) * 0) by ring. refine (is_RInt_le _ _ 0 T _ _ _ (is_RInt_const 0 T 0) (HL h Hh) _); [lra|]. intros; apply ind_le1.
  - replace (T * 1) with ((T - 0) * 1) by ring. refine (is_RInt_le _ _ 0 T _ _ _ (HL h Hh) (is_RInt_const 0 T 1) _); [lra|]. intros; apply ind_le1.
Qed.
Lemma G_high : forall h, b <= h -> G h = 1.
Proof using HT Hb Hf HL.
  clear Hv HG. intros h Hh. apply (Rmult_eq_reg_l T); [|lra]. refine (is_RInt_uniq _ 0 T _ _ (HL h ltac:(lra)) _). replace (T * 1) with ((T - 0) * 1) by ring.
  refine (is_RInt_ext (fun _ => 1) _ _ _ _ _ (is_RInt_const 0 T 1)). rewrite Rmin_left, Rmax_right by lra. intros u Hu.
  destruct (Rltb_dec h (f u)) as [[A _]|[A ->]]; [|reflexivity]. specialize (Hf u ltac:(lra)). lra.
Qed.
Lemma cnt_integral : forall d n, 0 <= d -> is_RInt (fun u => cnt d n (f u)) 0 T (rs n (fun i => T * (1 - G (INR i * d)))).
Proof using HL.
  clear HT Hb Hf Hv HG. intros d n Hd. induction n as [|n IH].
  - unfold cnt, rs; cbn [map seq fold_right]. enough (E : is_RInt (fun _ : R => 0) 0 T ((T - 0) * 0)) by (replace ((T - 0) * 0) with 0 in E by ring; exact E). apply (is_RInt_const 0 T 0).
  - rewrite rs_S. apply (is_RInt_ext (fun u => cnt d n (f u) + ind (Rltb (INR n * d) (f u)))).
    { intros u _. unfold cnt. rewrite rs_S. reflexivity. }
    apply (is_RInt_plus (V := R_NormedModule)); [exact IH|].
    replace (T * (1 - G (INR n * d))) with (minus ((T - 0) * 1) (T * G (INR n * d))) by (unfold minus, plus, opp; cbn; ring).
    refine (is_RInt_ext _ _ _ _ _ _ (is_RInt_minus (V := R_NormedModule) _ _ _ _ _ _ (is_RInt_const 0 T 1) (HL (INR n * d) (Rmult_le_pos _ _ (pos_INR n) Hd)))).
    intros u _. destruct (Rltb (INR n * d) (f u)); unfold minus, plus, opp; cbn; ring.
Qed.
Lemma G_int : forall x y, ex_RInt G x y.
Proof using HG. clear HL Hf Hv. intros x y. apply (ex_RInt_continuous (V := R_CompleteNormedModule)). intros; apply HG. Qed.
Lemma G_sums : forall d n, 0 < d -> d * rs n (fun i => G (INR i * d)) <= RInt G 0 (INR n * d) <= d * rs n (fun i => G (INR i * d)) + d * (G (INR n * d) - G 0).
Proof using HT HL HG.
  clear Hf Hv Hb. intros d n Hd. induction n as [|n IH].
  - unfold rs; cbn [map seq fold_right INR]. rewrite !Rmult_0_l, RInt_point. unfold zero; cbn. lra.
  - rewrite rs_S. rewrite S_INR. pose proof (Rmult_le_pos _ _ (pos_INR n) (Rlt_le _ _ Hd)) as Pn.
    assert (CH : RInt G 0 ((INR n + 1) * d) = RInt G 0 (INR n * d) + RInt G (INR n * d) ((INR n + 1) * d)).
    { symmetry. apply (RInt_Chasles (V := R_CompleteNormedModule)); apply G_int. }
    assert (LO : d * G (INR n * d) <= RInt G (INR n * d) ((INR n + 1) * d)).
    { replace (d * G (INR n * d)) with (RInt (fun _ => G (INR n * d)) (INR n * d) ((INR n + 1) * d)) by (rewrite RInt_const; unfold scal; cbn; unfold mult; cbn; ring).
      apply RInt_le; [nra|apply ex_RInt_const|apply G_int|]. intros x Hx. apply G_mono. lra. }
    assert (HI : RInt G (INR n * d) ((INR n + 1) * d) <= d * G ((INR n + 1) * d)).
    { replace (d * G ((INR n + 1) * d)) with (RInt (fun _ => G ((INR n + 1) * d)) (INR n * d) ((INR n + 1) * d)) by (rewrite RInt_const; unfold scal; cbn; unfold mult; cbn; ring).
      apply RInt_le; [nra|apply G_int|apply ex_RInt_const|]. intros x Hx. apply G_mono. lra. }
    nra.
Qed.
Lemma rs_scal : forall n c g, rs n (fun i => c * g i) = c * rs n g.
Proof. intros n c g. induction n as [|n IH]; [unfold rs; cbn; ring|]. rewrite !rs_S, IH. ring. Qed.
Lemma rs_one_minus : forall n g, rs n (fun i => 1 - g i) = INR n - rs n g.
Proof. intros n g. induction n as [|n IH]; [unfold rs; cbn; ring|]. rewrite !rs_S, IH, S_INR. ring. Qed.
Lemma close : forall x c, (forall n, (0 < n)%nat -> Rabs x <= c / INR n) -> x = 0.
Proof.
  intros x c H. destruct (Req_dec x 0) as [E|E]; [exact E|exfalso]. pose proof (Rabs_pos_lt x E) as P.
  destruct (Rle_lt_dec c 0) as [Hc|Hc]. { specialize (H 1%nat ltac:(lia)). cbn in H. lra. }
  destruct (nfloor_ex (c / Rabs x)) as [n [_ Hn]]. { apply Rlt_le, Rdiv_lt_0_compat; lra. }
  specialize (H (S n) ltac:(lia)). rewrite S_INR in H. pose proof (pos_INR n).
  apply (Rmult_lt_compat_r (Rabs x)) in Hn; [|exact P]. replace (c / Rabs x * Rabs x) with c in Hn by (field; lra).
  apply (Rmult_le_compat_r (INR n + 1)) in H; [|lra]. replace (c / (INR n + 1) * (INR n + 1)) with c in H by (field; lra). lra.
Qed.
Lemma levels : T * RInt G 0 b = T * b - v.
Proof using HT Hb Hf Hv HG HL.
  enough (E : T * RInt G 0 b - (T * b - v) = 0) by lra. apply (close _ (b * T)). intros n Hn.
  assert (Pn : 0 < INR n) by (apply lt_0_INR; lia). set (d := b / INR n). assert (Hd : 0 < d) by (apply Rdiv_lt_0_compat; lra).
  assert (Eb : INR n * d = b) by (unfold d; field; lra).
  pose proof (G_sums d n Hd) as GS. rewrite Eb in GS. set (g := rs n (fun i => G (INR i * d))) in *.
  assert (CI : is_RInt (fun u => d * cnt d n (f u)) 0 T (d * (T * (INR n - g)))).
  { pose proof (cnt_integral d n (Rlt_le _ _ Hd)) as P. rewrite rs_scal, rs_one_minus in P. apply (is_RInt_scal (V := R_NormedModule) _ _ _ d _ P). }
  assert (L1 : v <= d * (T * (INR n - g))).
  { refine (is_RInt_le _ _ 0 T _ _ _ Hv CI _); [lra|]. intros u Hu. pose proof (Hf u ltac:(lra)) as Fu. pose proof (proj1 (cnt_bounds d n (f u) Hd ltac:(lra))) as P. rewrite Eb, Rmin_left in P by lra. exact P. }
  assert (L2 : d * (T * (INR n - g)) <= v + (T - 0) * d).
  { refine (is_RInt_le _ _ 0 T _ _ _ CI (is_RInt_plus (V := R_NormedModule) _ _ _ _ _ _ Hv (is_RInt_const 0 T d)) _); [lra|].
    intros u Hu. pose proof (Hf u ltac:(lra)) as Fu. pose proof (proj2 (cnt_bounds d n (f u) Hd ltac:(lra))) as P. pose proof (Rmin_l (f u + d) (INR n * d)). unfold plus; cbn. lra. }
  replace (d * (T * (INR n - g))) with (T * (INR n * d) - T * (d * g)) in L1, L2 by ring. rewrite Eb in L1, L2.
  pose proof (G_range 0 ltac:(lra)) as R0. pose proof (G_range b ltac:(lra)) as Rb.
  replace (b * T / INR n) with (T * d) by (unfold d; field; lra). apply Rabs_le. nra.
Qed.
End Levels.
