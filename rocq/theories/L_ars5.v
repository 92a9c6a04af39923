(** Integrals over the quantiles of an envelope. *)
From Coq Require Import Reals List ZArith Bool Arith Lia Lra Sorted Classical.
From Coquelicot Require Import Rbar Hierarchy Continuity Derive AutoDerive RInt RInt_gen RInt_analysis.
From Verif Require Import Base.
Local Open Scope R_scope.

Lemma zero_int a b : is_RInt (V := R_NormedModule) (fun _ : R => 0) a b 0.
Proof. pose proof (is_RInt_const (V := R_NormedModule) a b 0) as H. unfold scal in H. cbn in H. unfold mult in H. cbn in H. rewrite Rmult_0_r in H. exact H. Qed.
Lemma classic_lub (S0 : R -> Prop) l eps : 0 < eps -> is_upper_bound S0 l -> (forall b, is_upper_bound S0 b -> l <= b) -> exists x, S0 x /\ l - eps < x.
Proof.
  intros He U L. apply NNPP. intros C. assert (l <= l - eps); [|lra]. apply L. intros x Hx. apply Rnot_lt_le. intros Q. apply C. exists x. split; [exact Hx|lra].
Qed.
Section Change.
  Context (E W h Q : R -> R) (Z : R) (D : R -> Prop).
  Hypothesis HE : forall v, continuous E v.
  Hypothesis EP : forall v, 0 < E v.
  Hypothesis HW : forall v, is_derive W v (E v).
  Hypothesis ZP : 0 < Z.
  Hypothesis CONV : forall a b c, D a -> D c -> a <= b <= c -> D b.
  Hypothesis OPEN : forall v, D v -> exists d, 0 < d /\ D (v - d) /\ D (v + d).
  Hypothesis IN : forall v, D v -> 0 < W v < Z.
  Hypothesis HQ : forall z, 0 < z < 1 -> D (Q z) /\ W (Q z) = z * Z.
  Hypothesis Hh : forall v, D v -> continuous h v.

  Lemma W_incr s r : s < r -> W s < W r.
  Proof.
    intros H. destruct (MVT_gen W s r E) as (c & _ & Ec).
    - intros v _. apply HW.
    - intros v _. apply derivable_continuous_pt. exists (E v). apply is_derive_Reals. apply HW.
    - pose proof (EP c). nra.
  Qed.
  Lemma W_le s r : s <= r -> W s <= W r.
  Proof. intros [H|<-]; [left; apply W_incr; exact H|lra]. Qed.
  Lemma W_inj s r : W s = W r -> s = r.
  Proof. intros H. destruct (Rtotal_order s r) as [L|[L|L]]; [|exact L|]; apply W_incr in L; lra. Qed.
  Definition G (v : R) : R := W v / Z.
  Lemma G_in v : D v -> 0 < G v < 1.
  Proof.
    intros H. destruct (IN v H) as (A & B). unfold G. split; [apply Rdiv_lt_0_compat; lra|]. apply (Rmult_lt_reg_r Z); [exact ZP|]. unfold Rdiv. rewrite Rmult_assoc, Rinv_l by lra. lra.
  Qed.
  Lemma G_W v : G v * Z = W v.
  Proof. unfold G. field. lra. Qed.
  Lemma Q_G v : D v -> Q (G v) = v.
  Proof. intros H. apply W_inj. rewrite (proj2 (HQ (G v) (G_in v H))). apply G_W. Qed.
  Lemma Q_lt z v : 0 < z < 1 -> (Q z < v <-> z < G v).
  Proof.
    intros Hz. pose proof (proj2 (HQ z Hz)) as E1. pose proof (G_W v) as E2. split; intros H.
    - apply W_incr in H. nra.
    - apply Rnot_le_lt. intros C. apply W_le in C. nra.
  Qed.
  Lemma Q_gt z v : 0 < z < 1 -> (v < Q z <-> G v < z).
  Proof.
    intros Hz. pose proof (proj2 (HQ z Hz)) as E1. pose proof (G_W v) as E2. split; intros H.
    - apply W_incr in H. nra.
    - apply Rnot_le_lt. intros C. apply W_le in C. nra.
  Qed.
  Lemma Q_cont v : D v -> continuity_pt Q (G v).
  Proof.
    intros Hv eps He. destruct (OPEN v Hv) as (d0 & P0 & D1 & D2). set (d := Rmin d0 (eps / 2)).
    assert (P : 0 < d <= d0) by (unfold d; split; [apply Rmin_glb_lt; lra|apply Rmin_l]). assert (P2 : d < eps) by (unfold d; pose proof (Rmin_r d0 (eps / 2)); lra).
    assert (DA : D (v - d)) by (apply (CONV (v - d0) _ v); [exact D1|exact Hv|lra]). assert (DB : D (v + d)) by (apply (CONV v _ (v + d0)); [exact Hv|exact D2|lra]).
    pose proof (G_in _ DA) as GA. pose proof (G_in _ DB) as GB. pose proof (G_in _ Hv) as GV.
    assert (L1 : G (v - d) < G v) by (unfold G; apply Rmult_lt_compat_r; [apply Rinv_0_lt_compat; lra|apply W_incr; lra]).
    assert (L2 : G v < G (v + d)) by (unfold G; apply Rmult_lt_compat_r; [apply Rinv_0_lt_compat; lra|apply W_incr; lra]).
    exists (Rmin (G v - G (v - d)) (G (v + d) - G v)). split; [apply Rmin_glb_lt; lra|]. intros z (_ & Hz). unfold dist in *. simpl in *. unfold R_dist in *.
    pose proof (Rmin_l (G v - G (v - d)) (G (v + d) - G v)). pose proof (Rmin_r (G v - G (v - d)) (G (v + d) - G v)). apply Rabs_def2 in Hz.
    assert (Z0 : 0 < z < 1) by lra. rewrite (Q_G v Hv). pose proof (proj2 (Q_lt z (v + d) Z0) ltac:(lra)). pose proof (proj2 (Q_gt z (v - d) Z0) ltac:(lra)). apply Rabs_def1; lra.
  Qed.
  Lemma hQ_cont v : D v -> continuous (fun z => h (Q z)) (G v).
  Proof.
    intros Hv. apply (continuous_comp Q h); [apply continuity_pt_filterlim, Q_cont; exact Hv|]. rewrite (Q_G v Hv). apply Hh. exact Hv.
  Qed.
  (** the substitution between two points of the domain *)
  Lemma change s r (m : R) : D s -> D r -> s <= r -> is_RInt (V := R_NormedModule) (fun v => E v * h v) s r m -> is_RInt (V := R_NormedModule) (fun z => h (Q z)) (G s) (G r) (m / Z).
  Proof.
    intros Ds Dr Hsr Hm.
    assert (BT : forall v, Rmin s r <= v <= Rmax s r -> D v) by (intros v; rewrite Rmin_left, Rmax_right by lra; intros Hv; apply (CONV s v r); assumption).
    pose proof (is_RInt_comp (V := R_CompleteNormedModule) (fun z => h (Q z)) G (fun v => E v / Z) s r) as C.
    assert (C1 : is_RInt (V := R_NormedModule) (fun y => E y / Z * h (Q (G y))) s r (RInt (V := R_CompleteNormedModule) (fun z => h (Q z)) (G s) (G r))).
    { apply C.
      - intros v Hv. apply hQ_cont. apply BT. exact Hv.
      - intros v Hv. split.
        + unfold G. pose proof (is_derive_scal W v (/ Z) (E v) (HW v)) as S0. apply (is_derive_ext (fun v => / Z * W v)); [intros t; unfold Rdiv; apply Rmult_comm|].
          replace (E v / Z) with (/ Z * E v) by (unfold Rdiv; apply Rmult_comm). exact S0.
        + apply (continuous_mult (K := R_AbsRing) E (fun _ => / Z)); [apply HE|apply continuous_const]. }
    assert (C2 : is_RInt (V := R_NormedModule) (fun y => E y / Z * h (Q (G y))) s r (m / Z)).
    { pose proof (is_RInt_scal (V := R_NormedModule) _ s r (/ Z) m Hm) as S0. replace (m / Z) with (scal (/ Z) m) by (unfold scal; cbn; unfold mult; cbn; unfold Rdiv; ring).
      refine (is_RInt_ext (V := R_NormedModule) _ _ _ _ _ _ S0). intros v Hv. rewrite (Q_G v) by (apply BT; lra). unfold scal. cbn. unfold mult. cbn. unfold Rdiv. ring. }
    assert (EX : ex_RInt (V := R_CompleteNormedModule) (fun z => h (Q z)) (G s) (G r)).
    { apply (ex_RInt_continuous (V := R_CompleteNormedModule)). intros z Hz. pose proof (G_in s Ds) as GS. pose proof (G_in r Dr) as GR.
      assert (LG : G s <= G r) by (unfold G; apply Rmult_le_compat_r; [left; apply Rinv_0_lt_compat; lra|apply W_le; exact Hsr]).
      rewrite Rmin_left, Rmax_right in Hz by exact LG. assert (Z0 : 0 < z < 1) by lra. destruct (HQ z Z0) as (DQ & EQ).
      replace z with (G (Q z)) by (unfold G; rewrite EQ; field; lra). apply hQ_cont. exact DQ. }
    apply (RInt_correct (V := R_CompleteNormedModule)) in EX.
    rewrite <- (is_RInt_unique (V := R_CompleteNormedModule) _ _ _ _ C2). rewrite (is_RInt_unique (V := R_CompleteNormedModule) _ _ _ _ C1). exact EX.
  Qed.
  Lemma change_window s r (m : R) : D s -> D r -> s <= r -> is_RInt (V := R_NormedModule) (fun v => E v * h v) s r m ->
    is_RInt (V := R_NormedModule) (fun z => if Rltb s (Q z) && Rleb (Q z) r then h (Q z) else 0) 0 1 (m / Z).
  Proof.
    intros Ds Dr Hsr Hm. pose proof (G_in s Ds) as GS. pose proof (G_in r Dr) as GR.
    assert (LG : G s <= G r) by (unfold G; apply Rmult_le_compat_r; [left; apply Rinv_0_lt_compat; lra|apply W_le; exact Hsr]).
    pose proof (zero_int 0 (G s)) as Z1. pose proof (zero_int (G r) 1) as Z2.
    replace (m / Z) with (plus (0 : R_NormedModule) (plus (m / Z) (0 : R_NormedModule))) by (unfold plus; cbn; ring).
    apply (is_RInt_Chasles (V := R_NormedModule) _ 0 (G s) 1); [|apply (is_RInt_Chasles (V := R_NormedModule) _ (G s) (G r) 1)].
    - refine (is_RInt_ext (V := R_NormedModule) _ _ _ _ _ _ Z1). rewrite Rmin_left, Rmax_right by lra. intros z Hz. pose proof (proj2 (Q_lt z s ltac:(lra)) ltac:(lra)). rewrite (proj2 (Rltb_false s (Q z))) by lra. reflexivity.
    - refine (is_RInt_ext (V := R_NormedModule) _ _ _ _ _ _ (change s r m Ds Dr Hsr Hm)). rewrite Rmin_left, Rmax_right by lra. intros z Hz. pose proof (proj2 (Q_lt z r ltac:(lra)) ltac:(lra)). pose proof (proj2 (Q_gt z s ltac:(lra)) ltac:(lra)).
      rewrite (proj2 (Rltb_true s (Q z))) by lra. rewrite (proj2 (Rleb_true (Q z) r)) by lra. reflexivity.
    - refine (is_RInt_ext (V := R_NormedModule) _ _ _ _ _ _ Z2). rewrite Rmin_left, Rmax_right by lra. intros z Hz. pose proof (proj2 (Q_gt z r ltac:(lra)) ltac:(lra)).
      destruct (Rleb (Q z) r) eqn:EL; [apply Rleb_true in EL; lra|]. rewrite andb_false_r. reflexivity.
  Qed.

  (** the whole range *)
  Hypothesis H01 : forall v, D v -> 0 <= h v <= 1.
  Hypothesis INC : exists v1, D v1 /\ forall u v, D u -> u <= v <= v1 -> h u <= h v.
  Hypothesis DEC : exists v2, D v2 /\ forall u v, D v -> v2 <= u <= v -> h v <= h u.
  Lemma G_Q z : 0 < z < 1 -> G (Q z) = z.
  Proof. intros Hz. unfold G. rewrite (proj2 (HQ z Hz)). field. lra. Qed.
  Lemma low_end : exists l0, 0 <= l0 /\ (exists d, 0 < d < 1 /\ forall z, 0 < z < d -> l0 <= h (Q z)) /\ forall eps, 0 < eps -> exists d, 0 < d < 1 /\ forall z, 0 < z < d -> Rabs (h (Q z) - l0) < eps.
  Proof.
    destruct INC as (v1 & D1 & M1). set (S0 := fun x => exists v, D v /\ v <= v1 /\ x = - h v).
    assert (B : bound S0) by (exists 0; intros x (v & Dv & _ & ->); pose proof (H01 v Dv); lra).
    destruct (completeness S0 B ltac:(exists (- h v1); exists v1; split; [exact D1|]; split; [lra|reflexivity])) as (l & U & L).
    assert (LB : forall v, D v -> v <= v1 -> - l <= h v) by (intros v Dv Hv; assert (- h v <= l) by (apply U; exists v; auto); lra).
    pose proof (G_in v1 D1) as G1.
    assert (Q1 : forall z, 0 < z < G v1 -> D (Q z) /\ Q z <= v1).
    { intros z Hz. split; [apply HQ; lra|]. left. apply Q_lt; lra. }
    exists (- l). split; [|split].
    - assert (l <= 0); [|lra]. apply L. intros x (v & Dv & _ & ->). pose proof (H01 v Dv). lra.
    - exists (G v1). split; [exact G1|]. intros z Hz. destruct (Q1 z Hz). apply LB; assumption.
    - intros eps He. destruct (classic_lub S0 l eps He U L) as (x & (v & Dv & Hv & ->) & Hx). pose proof (G_in v Dv) as GV.
      assert (GL : G v <= G v1) by (unfold G; apply Rmult_le_compat_r; [left; apply Rinv_0_lt_compat; lra|apply W_le; exact Hv]).
      exists (G v). split; [exact GV|]. intros z Hz. destruct (Q1 z ltac:(lra)) as (DQ & HQ1). pose proof (LB _ DQ HQ1). assert (Q z < v) by (apply Q_lt; lra).
      pose proof (M1 (Q z) v DQ ltac:(lra)). apply Rabs_def1; lra.
  Qed.
  Lemma high_end : exists l1, 0 <= l1 /\ forall eps, 0 < eps -> exists d, 0 < d < 1 /\ forall z, d < z < 1 -> Rabs (h (Q z) - l1) < eps.
  Proof.
    destruct DEC as (v2 & D2 & M2). set (S0 := fun x => exists v, D v /\ v2 <= v /\ x = - h v).
    assert (B : bound S0) by (exists 0; intros x (v & Dv & _ & ->); pose proof (H01 v Dv); lra).
    destruct (completeness S0 B ltac:(exists (- h v2); exists v2; split; [exact D2|]; split; [lra|reflexivity])) as (l & U & L).
    assert (LB : forall v, D v -> v2 <= v -> - l <= h v) by (intros v Dv Hv; assert (- h v <= l) by (apply U; exists v; auto); lra).
    pose proof (G_in v2 D2) as G2.
    assert (Q1 : forall z, G v2 < z < 1 -> D (Q z) /\ v2 <= Q z).
    { intros z Hz. split; [apply HQ; lra|]. left. apply Q_gt; lra. }
    exists (- l). split.
    - assert (l <= 0); [|lra]. apply L. intros x (v & Dv & _ & ->). pose proof (H01 v Dv). lra.
    - intros eps He. destruct (classic_lub S0 l eps He U L) as (x & (v & Dv & Hv & ->) & Hx). pose proof (G_in v Dv) as GV.
      assert (GL : G v2 <= G v) by (unfold G; apply Rmult_le_compat_r; [left; apply Rinv_0_lt_compat; lra|apply W_le; exact Hv]).
      exists (G v). split; [exact GV|]. intros z Hz. destruct (Q1 z ltac:(lra)) as (DQ & HQ1). pose proof (LB _ DQ HQ1). assert (v < Q z) by (apply Q_gt; lra).
      pose proof (M2 v (Q z) DQ ltac:(lra)). apply Rabs_def1; lra.
  Qed.
  Lemma whole : exists I, is_RInt (V := R_NormedModule) (fun z => h (Q z)) 0 1 I /\ 0 <= I <= 1 /\
    is_lub (fun m => exists s r, D s /\ D r /\ s <= r /\ is_RInt (V := R_NormedModule) (fun v => E v * h v) s r m) (I * Z).
  Proof.
    destruct low_end as (l0 & L0 & _ & C0). destruct high_end as (l1 & L1 & C1).
    set (k := fun z => if Rle_dec z 0 then l0 else if Rle_dec 1 z then l1 else h (Q z)).
    assert (KI : forall z, 0 < z < 1 -> k z = h (Q z)) by (intros z Hz; unfold k; destruct (Rle_dec z 0), (Rle_dec 1 z); try lra; reflexivity).
    assert (KC : forall z, 0 <= z <= 1 -> continuous k z).
    { intros z Hz. apply continuity_pt_filterlim. destruct (Req_dec z 0) as [->|N0]; [|destruct (Req_dec z 1) as [->|N1]].
      - intros eps He. destruct (C0 eps He) as (d & Pd & Hd). exists d. split; [lra|]. intros y (_ & Hy). unfold dist in *. simpl in *. unfold R_dist in *. apply Rabs_def2 in Hy.
        unfold k at 2. destruct (Rle_dec 0 0); [|lra]. unfold k. destruct (Rle_dec y 0); [rewrite Rminus_eq_0, Rabs_R0; lra|]. destruct (Rle_dec 1 y); [lra|]. apply Hd. lra.
      - intros eps He. destruct (C1 eps He) as (d & Pd & Hd). exists (1 - d). split; [lra|]. intros y (_ & Hy). unfold dist in *. simpl in *. unfold R_dist in *. apply Rabs_def2 in Hy.
        unfold k at 2. destruct (Rle_dec 1 0); [lra|]. destruct (Rle_dec 1 1); [|lra]. unfold k. destruct (Rle_dec y 0); [lra|]. destruct (Rle_dec 1 y); [rewrite Rminus_eq_0, Rabs_R0; lra|]. apply Hd. lra.
      - assert (Z0 : 0 < z < 1) by lra. apply continuity_pt_filterlim. apply (continuous_ext_loc k (fun z => h (Q z))).
        + assert (PD : 0 < Rmin z (1 - z)) by (apply Rmin_glb_lt; lra). exists (mkposreal _ PD). intros y Hy. unfold ball in Hy. simpl in Hy. unfold AbsRing_ball, abs, minus, plus, opp in Hy. simpl in Hy.
          apply Rabs_def2 in Hy. pose proof (Rmin_l z (1 - z)). pose proof (Rmin_r z (1 - z)). symmetry. apply KI. lra.
        + rewrite <- (G_Q z Z0). apply hQ_cont. apply HQ. exact Z0. }
    assert (EX : forall a b, 0 <= a -> a <= b -> b <= 1 -> is_RInt (V := R_NormedModule) k a b (RInt (V := R_CompleteNormedModule) k a b)).
    { intros a b Ha Hab Hb. apply (RInt_correct (V := R_CompleteNormedModule)). apply (ex_RInt_continuous (V := R_CompleteNormedModule)). intros z Hz. rewrite Rmin_left, Rmax_right in Hz by lra. apply KC. lra. }
    assert (K01 : forall z, 0 < z < 1 -> 0 <= k z <= 1) by (intros z Hz; rewrite KI by exact Hz; apply H01; apply HQ; exact Hz).
    set (J := fun a b => RInt (V := R_CompleteNormedModule) k a b).
    assert (JB : forall a b, 0 <= a -> a <= b -> b <= 1 -> 0 <= J a b <= b - a).
    { intros a b Ha Hab Hb. pose proof (EX a b Ha Hab Hb) as Ej. fold (J a b) in Ej. split.
      - apply (is_RInt_le (fun _ => 0) k a b 0 (J a b) Hab (zero_int a b) Ej). intros z Hz. apply K01. lra.
      - assert (O : is_RInt (V := R_NormedModule) (fun _ : R => 1) a b (b - a)).
        { pose proof (is_RInt_const (V := R_NormedModule) a b 1) as H. unfold scal in H. cbn in H. unfold mult in H. cbn in H. rewrite Rmult_1_r in H. exact H. }
        apply (is_RInt_le k (fun _ => 1) a b (J a b) (b - a) Hab Ej O). intros z Hz. apply K01. lra. }
    assert (JC : forall a b, 0 <= a -> a <= b -> b <= 1 -> J 0 1 = J 0 a + J a b + J b 1).
    { intros a b Ha Hab Hb. apply (is_RInt_unique (V := R_CompleteNormedModule)).
      replace (J 0 a + J a b + J b 1) with (plus (J 0 a) (plus (J a b) (J b 1))) by (unfold plus; cbn; ring).
      apply (is_RInt_Chasles (V := R_NormedModule) _ 0 a 1); [apply EX; lra|]. apply (is_RInt_Chasles (V := R_NormedModule) _ a b 1); apply EX; lra. }
    assert (SUB : forall s r (m : R), D s -> D r -> s <= r -> is_RInt (V := R_NormedModule) (fun v => E v * h v) s r m -> m = J (G s) (G r) * Z).
    { intros s r m Ds Dr Hsr Hm. pose proof (change s r m Ds Dr Hsr Hm) as C. pose proof (G_in s Ds). pose proof (G_in r Dr).
      assert (LG : G s <= G r) by (unfold G; apply Rmult_le_compat_r; [left; apply Rinv_0_lt_compat; lra|apply W_le; exact Hsr]).
      assert (C' : is_RInt (V := R_NormedModule) k (G s) (G r) (m / Z)).
      { refine (is_RInt_ext (V := R_NormedModule) _ _ _ _ _ _ C). rewrite Rmin_left, Rmax_right by lra. intros z Hz. symmetry. apply KI. lra. }
      unfold J. rewrite (is_RInt_unique (V := R_CompleteNormedModule) _ _ _ _ C'). field. lra. }
    exists (J 0 1). split; [|split; [|split]].
    - refine (is_RInt_ext (V := R_NormedModule) _ _ _ _ _ _ (EX 0 1 ltac:(lra) ltac:(lra) ltac:(lra))). rewrite Rmin_left, Rmax_right by lra. intros z Hz. apply KI. exact Hz.
    - pose proof (JB 0 1 ltac:(lra) ltac:(lra) ltac:(lra)). lra.
    - intros m (s & r & Ds & Dr & Hsr & Hm). rewrite (SUB s r m Ds Dr Hsr Hm). pose proof (G_in s Ds). pose proof (G_in r Dr).
      assert (LG : G s <= G r) by (unfold G; apply Rmult_le_compat_r; [left; apply Rinv_0_lt_compat; lra|apply W_le; exact Hsr]).
      apply Rmult_le_compat_r; [lra|]. rewrite (JC (G s) (G r)) by lra. pose proof (JB 0 (G s) ltac:(lra) ltac:(lra) ltac:(lra)). pose proof (JB (G r) 1 ltac:(lra) ltac:(lra) ltac:(lra)). lra.
    - intros B UB. apply Rnot_lt_le. intros C. set (e := J 0 1 - B / Z). assert (He : 0 < e).
      { unfold e. assert (B / Z < J 0 1); [|lra]. apply (Rmult_lt_reg_r Z); [exact ZP|]. unfold Rdiv. rewrite Rmult_assoc, Rinv_l by lra. lra. }
      set (d := Rmin (1 / 3) (e / 3)). assert (Hd : 0 < d <= 1 / 3) by (unfold d; split; [apply Rmin_glb_lt; lra|apply Rmin_l]). assert (Hd2 : d <= e / 3) by apply Rmin_r.
      destruct (HQ d ltac:(lra)) as (Ds & Es). destruct (HQ (1 - d) ltac:(lra)) as (Dr & Er). set (s := Q d) in *. set (r := Q (1 - d)) in *.
      assert (Gs : G s = d) by (unfold G; rewrite Es; field; lra). assert (Gr : G r = 1 - d) by (unfold G; rewrite Er; field; lra).
      assert (Hsr : s <= r). { left. unfold s. apply Q_lt; [lra|]. rewrite Gr. lra. }
      assert (X : ex_RInt (V := R_CompleteNormedModule) (fun v => E v * h v) s r).
      { apply (ex_RInt_continuous (V := R_CompleteNormedModule)). intros v Hv. rewrite Rmin_left, Rmax_right in Hv by lra.
        apply (continuous_mult (K := R_AbsRing) E h); [apply HE|apply Hh]. apply (CONV s v r); assumption. }
      destruct X as (m & Hm). pose proof (SUB s r m Ds Dr Hsr Hm) as Em. assert (M : m <= B) by (apply UB; exists s, r; auto). rewrite Gs, Gr in Em.
      pose proof (JC d (1 - d) ltac:(lra) ltac:(lra) ltac:(lra)) as S1. pose proof (JB 0 d ltac:(lra) ltac:(lra) ltac:(lra)). pose proof (JB (1 - d) 1 ltac:(lra) ltac:(lra) ltac:(lra)).
      assert (B1 : B / Z * Z = B) by (field; lra). assert (J 0 1 - 2 * d <= J d (1 - d)) by lra. assert (J d (1 - d) <= B / Z). { apply (Rmult_le_reg_r Z); [exact ZP|]. lra. }
      unfold e in *. lra.
  Qed.
End Change.
