(** The probability that the Poisson coin succeeds on a known path: it exists, whatever the batches. *)
From Coquelicot Require Import Rcomplements Hierarchy Rbar Lim_seq Continuity Derive RInt RInt_analysis Series.
From Coq Require Import Reals List Bool Arith ZArith Lra Lia Psatz Permutation Rtopology.
From Verif Require Import Base Np Rng L_list L_rng M_mjp M_path M_skel SpecLaw SpecCoin L_ppp L_law L_law2 L_law3 L_law4 L_law5 L_exact.
Import ListNotations.
Local Open Scope R_scope.

Definition ucont (f : R -> R) : Prop := forall e, 0 < e -> exists d, 0 < d /\ forall x y, Rabs (x - y) < d -> Rabs (f x - f y) <= e.
Definition ucont2 (F : R -> R -> R) : Prop := forall e, 0 < e -> exists d, 0 < d /\ forall u u' x x', Rabs (u - u') < d -> Rabs (x - x') < d -> Rabs (F u x - F u' x') <= e.
Definition unit1 (f : R -> R) : Prop := forall x, 0 <= f x <= 1.
Definition unit2 (F : R -> R -> R) : Prop := forall u x, 0 <= F u x <= 1.

Lemma mult_close : forall a a' c c' e e', 0 <= a <= 1 -> 0 <= c' <= 1 -> Rabs (a - a') <= e -> Rabs (c - c') <= e' -> Rabs (a * c - a' * c') <= e + e'.
Proof.
  intros a a' c c' e e' Ha Hc' H1 H2. replace (a * c - a' * c') with (a * (c - c') + (a - a') * c') by ring.
  eapply Rle_trans; [apply Rabs_triang|]. rewrite !Rabs_mult. rewrite (Rabs_pos_eq a), (Rabs_pos_eq c') by lra. pose proof (Rabs_pos (a - a')). pose proof (Rabs_pos (c - c')). nra.
Qed.
Lemma unit2_mult : forall F F', unit2 F -> unit2 F' -> unit2 (fun u x => F u x * F' u x).
Proof. intros F F' H H' u x. specialize (H u x). specialize (H' u x). nra. Qed.
Lemma ucont2_mult : forall F F', unit2 F -> unit2 F' -> ucont2 F -> ucont2 F' -> ucont2 (fun u x => F u x * F' u x).
Proof.
  intros F F' H H' C C' e He. destruct (C (e / 2) ltac:(lra)) as (d & Hd & D). destruct (C' (e / 2) ltac:(lra)) as (d' & Hd' & D').
  exists (Rmin d d'). split; [apply Rmin_pos; assumption|]. intros u u' x x' Hu Hx. pose proof (Rmin_l d d'). pose proof (Rmin_r d d').
  replace e with (e / 2 + e / 2) by lra. apply mult_close; [apply H|apply H'|apply D; lra|apply D'; lra].
Qed.
Lemma unit2_pow : forall F n, unit2 F -> unit2 (fun u x => F u x ^ n).
Proof. intros F n H. induction n as [|n IH]; intros u x; cbn [pow]; [lra|]. apply (unit2_mult F _ H IH). Qed.
Lemma ucont2_pow : forall F n, unit2 F -> ucont2 F -> ucont2 (fun u x => F u x ^ n).
Proof.
  intros F n H C. induction n as [|n IH].
  - intros e He. exists 1. split; [lra|]. intros. cbn. rewrite Rminus_diag_eq by reflexivity. rewrite Rabs_R0. lra.
  - cbn [pow]. apply (ucont2_mult F (fun u x => F u x ^ n)); [exact H|apply unit2_pow; exact H|exact C|exact IH].
Qed.
Lemma ucont2_cont : forall F u x, ucont2 F -> continuous (F u) x.
Proof.
  intros F u x C. apply continuity_pt_filterlim. intros e He. destruct (C (e / 2) ltac:(lra)) as (d & Hd & D). exists d. split; [exact Hd|].
  intros y [_ Hy]. cbn in *. unfold R_dist in *. eapply Rle_lt_trans; [apply D; [rewrite Rminus_diag_eq by reflexivity; rewrite Rabs_R0; exact Hd|exact Hy]|lra].
Qed.
Lemma ucont_cont : forall f x, ucont f -> continuous f x.
Proof.
  intros f x C. apply (ucont2_cont (fun _ y => f y) 0 x). intros e He. destruct (C e He) as (d & Hd & D). exists d. split; [exact Hd|]. intros; apply D; assumption.
Qed.
Lemma lin_close : forall b d u u' x x' s, 0 < b -> 0 < d -> Rabs (u - u') < d / (1 + b) -> Rabs (x - x') < d / (1 + b) -> 0 <= s <= 1 -> Rabs (u + b * x * s - (u' + b * x' * s)) < d.
Proof.
  intros b d u u' x x' s Hb Hd Hu Hx Hs. replace (u + b * x * s - (u' + b * x' * s)) with ((u - u') + b * s * (x - x')) by ring.
  eapply Rle_lt_trans; [apply Rabs_triang|]. rewrite Rabs_mult, (Rabs_pos_eq (b * s)) by nra.
  assert (E : d / (1 + b) * (1 + b) = d) by (field; lra). pose proof (Rabs_pos (x - x')) as P0. set (q := d / (1 + b)) in *.
  assert (b * s * Rabs (x - x') <= b * Rabs (x - x')) by (apply Rmult_le_compat_r; [exact P0|nra]). assert (b * Rabs (x - x') <= b * q) by (apply Rmult_le_compat_l; lra). lra.
Qed.
Lemma ucont_shift : forall f b, 0 < b -> ucont f -> ucont2 (fun u x => f (u + b * x)).
Proof.
  intros f b Hb C e He. destruct (C e He) as (d & Hd & D). exists (d / (1 + b)). split; [apply Rdiv_lt_0_compat; lra|]. intros u u' x x' Hu Hx.
  apply D. pose proof (lin_close b d u u' x x' 1 Hb Hd Hu Hx ltac:(lra)) as P. rewrite !Rmult_1_r in P. exact P.
Qed.
(** ** the average of G over [u, u + y] *)
Definition aver (G : R -> R) (u y : R) : R := RInt (fun s => G (u + y * s)) 0 1.
Lemma lin_cont : forall u y s, continuous (fun s : R => u + y * s) s.
Proof. intros u y s. apply continuity_pt_filterlim. reg. Qed.
Lemma aver_ex : forall (G : R -> R) u y, (forall h, continuous G h) -> ex_RInt (fun s => G (u + y * s)) 0 1.
Proof. intros G u y H. apply (ex_RInt_continuous (V := R_CompleteNormedModule)). intros s _. apply (continuous_comp (fun s : R => u + y * s) G); [apply lin_cont|apply H]. Qed.
Lemma aver_correct : forall (G : R -> R) u y, (forall h, continuous G h) -> is_RInt G u (u + y) ((u + y - u) * aver G u y).
Proof.
  intros G u y H. assert (E : ex_RInt G u (u + y)) by (apply (ex_RInt_continuous (V := R_CompleteNormedModule)); intros; apply H).
  pose proof (RInt_correct (V := R_CompleteNormedModule) G u (u + y) E) as P.
  assert (Q : is_RInt (fun s => y * G (u + y * s)) 0 1 (RInt G u (u + y))).
  { pose proof (is_RInt_comp_lin (V := R_NormedModule) G y u 0 1 (RInt G u (u + y))) as L. replace (y * 0 + u) with u in L by ring. replace (y * 1 + u) with (u + y) in L by ring.
    refine (is_RInt_ext _ _ _ _ _ _ (L P)). intros s _. unfold scal; cbn; unfold mult; cbn. rewrite (Rplus_comm (y * s)). reflexivity. }
  pose proof (RInt_correct (V := R_CompleteNormedModule) _ _ _ (aver_ex G u y H)) as A. fold (aver G u y) in A.
  assert (EQ : RInt G u (u + y) = y * aver G u y) by (exact (is_RInt_uniq _ 0 1 _ _ Q (is_RInt_scal (V := R_NormedModule) _ _ _ y _ A))).
  replace ((u + y - u) * aver G u y) with (y * aver G u y) by ring. rewrite <- EQ. exact P.
Qed.
Lemma rint_const : forall c : R, is_RInt (fun _ : R => c) 0 1 c.
Proof. intros c. pose proof (is_RInt_const (V := R_NormedModule) 0 1 c) as P. unfold scal in P; cbn in P; unfold mult in P; cbn in P. replace ((1 - 0) * c) with c in P by ring. exact P. Qed.
Lemma aver_unit : forall (G : R -> R) b, (forall h, continuous G h) -> unit1 G -> unit2 (fun u x => aver G u (b * x)).
Proof.
  intros G b H U u x. pose proof (RInt_correct (V := R_CompleteNormedModule) _ _ _ (aver_ex G u (b * x) H)) as A. split.
  - refine (is_RInt_le _ _ 0 1 _ _ _ (rint_const 0) A _); [lra|]. intros; apply U.
  - refine (is_RInt_le _ _ 0 1 _ _ _ A (rint_const 1) _); [lra|]. intros; apply U.
Qed.
Lemma int_close : forall (f g : R -> R) (a b e : R), is_RInt f 0 1 a -> is_RInt g 0 1 b -> (forall s, 0 < s < 1 -> Rabs (f s - g s) <= e) -> Rabs (a - b) <= e.
Proof.
  intros f g a b e Ha Hb H. pose proof (rint_const e) as E.
  assert (X : a <= b + e). { refine (is_RInt_le _ _ 0 1 _ _ _ Ha (is_RInt_plus (V := R_NormedModule) _ _ _ _ _ _ Hb E) _); [lra|]. intros s Hs. pose proof (Rabs_le_between (f s - g s) e) as [P _]. specialize (P (H s Hs)). unfold plus; cbn. lra. }
  assert (Y : b <= a + e). { refine (is_RInt_le _ _ 0 1 _ _ _ Hb (is_RInt_plus (V := R_NormedModule) _ _ _ _ _ _ Ha E) _); [lra|]. intros s Hs. pose proof (Rabs_le_between (f s - g s) e) as [P _]. specialize (P (H s Hs)). unfold plus; cbn. lra. }
  apply Rabs_le. lra.
Qed.
Lemma aver_ucont : forall (G : R -> R) b, 0 < b -> (forall h, continuous G h) -> ucont G -> ucont2 (fun u x => aver G u (b * x)).
Proof.
  intros G b Hb H C e He. destruct (C e He) as (d & Hd & D). exists (d / (1 + b)). split; [apply Rdiv_lt_0_compat; lra|]. intros u u' x x' Hu Hx.
  refine (int_close _ _ _ _ e (RInt_correct (V := R_CompleteNormedModule) _ _ _ (aver_ex G u (b * x) H)) (RInt_correct (V := R_CompleteNormedModule) _ _ _ (aver_ex G u' (b * x') H)) _).
  intros s Hs. apply D. apply lin_close; auto; lra.
Qed.
(** ** integrals against a beta density *)
Lemma beta_cont : forall i j x, continuous (beta_density i j) x.
Proof.
  intros i j x. unfold beta_density. apply (continuous_scal_r (K := R_AbsRing) (V := R_NormedModule) (INR (fact (i + j + 1)) / (INR (fact i) * INR (fact j))) (fun x : R => x ^ i * (1 - x) ^ j)).
  apply (continuous_mult (fun x : R => x ^ i) (fun x : R => (1 - x) ^ j)); apply continuity_pt_filterlim; reg.
Qed.
Lemma beta_pos : forall i j x, 0 <= x <= 1 -> 0 <= beta_density i j x.
Proof.
  intros i j x Hx. unfold beta_density. apply Rmult_le_pos.
  - apply Rlt_le, Rdiv_lt_0_compat; [apply INR_fact_lt_0|]. apply Rmult_lt_0_compat; apply INR_fact_lt_0.
  - apply Rmult_le_pos; apply pow_le; lra.
Qed.
Definition blend (i j : nat) (F : R -> R -> R) (u : R) : R := RInt (fun x => beta_density i j x * F u x) 0 1.
Lemma blend_correct : forall i j F u, ucont2 F -> is_RInt (fun x => beta_density i j x * F u x) 0 1 (blend i j F u).
Proof.
  intros i j F u C. apply (RInt_correct (V := R_CompleteNormedModule)). apply (ex_RInt_continuous (V := R_CompleteNormedModule)). intros x _.
  apply (continuous_mult (beta_density i j) (F u)); [apply beta_cont|apply ucont2_cont; exact C].
Qed.
Lemma blend_unit : forall i j F, ucont2 F -> unit2 F -> unit1 (blend i j F).
Proof.
  intros i j F C U u. pose proof (blend_correct i j F u C) as B. split.
  - refine (is_RInt_le _ _ 0 1 _ _ _ (rint_const 0) B _); [lra|]. intros x Hx. pose proof (beta_pos i j x ltac:(lra)). specialize (U u x). nra.
  - refine (is_RInt_le _ _ 0 1 _ _ _ B (beta_density_total i j) _); [lra|]. intros x Hx. pose proof (beta_pos i j x ltac:(lra)). specialize (U u x). nra.
Qed.
Lemma blend_ucont : forall i j F, ucont2 F -> ucont (blend i j F).
Proof.
  intros i j F C e He. destruct (C e He) as (d & Hd & D). exists d. split; [exact Hd|]. intros u u' Hu.
  assert (ONE : forall u u', Rabs (u - u') < d -> blend i j F u <= blend i j F u' + e).
  { intros a a' Ha.
    assert (B : is_RInt (fun x => beta_density i j x * F a' x + e * beta_density i j x) 0 1 (blend i j F a' + e * 1)).
    { apply (is_RInt_plus (V := R_NormedModule)); [apply blend_correct; exact C|]. apply (is_RInt_scal (V := R_NormedModule) (beta_density i j) 0 1 e 1). apply beta_density_total. }
    replace (blend i j F a' + e) with (blend i j F a' + e * 1) by ring. refine (is_RInt_le _ _ 0 1 _ _ _ (blend_correct i j F a C) B _); [lra|]. intros x Hx.
    assert (P : Rabs (F a x - F a' x) <= e) by (apply D; [exact Ha|rewrite Rminus_diag_eq by reflexivity; rewrite Rabs_R0; exact Hd]).
    apply Rabs_le_between in P. pose proof (beta_pos i j x ltac:(lra)). nra. }
  pose proof (ONE u u' Hu). pose proof (ONE u' u ltac:(rewrite Rabs_minus_sym; exact Hu)). apply Rabs_le. lra.
Qed.
(** ** G *)
Lemma G_ucont : forall (G : R -> R) b, 0 < b -> (forall h, continuous G h) -> (forall h, h < 0 -> G h = G 0) -> (forall h, b <= h -> G h = 1) -> ucont G.
Proof.
  intros G b Hb H L U e He. destruct (Heine G (fun c => -1 <= c <= b + 1) (compact_P3 (-1) (b + 1))) with (eps := mkposreal e He) as [[d Hd] D].
  { intros x _. apply continuity_pt_filterlim. apply H. }
  exists (Rmin d 1). split; [apply Rmin_pos; lra|]. intros x y Hxy. pose proof (Rmin_l d 1). pose proof (Rmin_r d 1). assert (HH : Rabs (x - y) < 1) by lra. apply Rabs_def2 in HH.
  assert (Z : forall a, Rabs (a - a) <= e) by (intros a; rewrite Rminus_diag_eq by reflexivity; rewrite Rabs_R0; lra).
  destruct (Rlt_le_dec x (-1)) as [A|A]; [rewrite (L x), (L y) by lra; apply Z|].
  destruct (Rlt_le_dec y (-1)) as [B|B]; [rewrite (L x), (L y) by lra; apply Z|].
  destruct (Rlt_le_dec (b + 1) x) as [A'|A']; [rewrite (U x), (U y) by lra; apply Z|].
  destruct (Rlt_le_dec (b + 1) y) as [B'|B']; [rewrite (U x), (U y) by lra; apply Z|].
  apply Rlt_le. apply (D x y); cbn; lra.
Qed.
(** ** the value of a coin from a given state of the generator *)
Section Value.
Context (G : R -> R) (b : R) (Hb : 0 < b) (HG : forall h, continuous G h) (UG : unit1 G) (CG : ucont G).
Fixpoint value_of (m : nat) (sizes : list nat) (u : R) : R :=
  match sizes with
  | [] => 1
  | i :: rest => blend (i - 1) (m - i) (fun u x => G (u + b * x) * aver G u (b * x) ^ (i - 1) * value_of m rest (u + b * x)) u
  end.
Lemma value_facts : forall m sizes, unit1 (value_of m sizes) /\ ucont (value_of m sizes).
Proof.
  intros m sizes. induction sizes as [|i rest [IU IC]].
  - split; [intros u; cbn; lra|]. intros e He. exists 1. split; [lra|]. intros. cbn. rewrite Rminus_diag_eq by reflexivity. rewrite Rabs_R0. lra.
  - assert (U1 : unit2 (fun u x => G (u + b * x))) by (intros u x; apply UG).
    assert (U2 : unit2 (fun u x => aver G u (b * x) ^ (i - 1))) by (apply (unit2_pow (fun u x => aver G u (b * x))), aver_unit; assumption).
    assert (U3 : unit2 (fun u x => value_of m rest (u + b * x))) by (intros u x; apply IU).
    assert (C : ucont2 (fun u x => G (u + b * x) * aver G u (b * x) ^ (i - 1) * value_of m rest (u + b * x))).
    { apply (ucont2_mult (fun u x => G (u + b * x) * aver G u (b * x) ^ (i - 1)) (fun u x => value_of m rest (u + b * x))); [apply unit2_mult; assumption|exact U3| |apply ucont_shift; assumption].
      apply (ucont2_mult (fun u x => G (u + b * x)) (fun u x => aver G u (b * x) ^ (i - 1))); [exact U1|exact U2|apply ucont_shift; assumption|].
      apply (ucont2_pow (fun u x => aver G u (b * x))); [apply aver_unit; assumption|apply aver_ucont; assumption]. }
    cbn [value_of]. split; [apply blend_unit; [exact C|]; apply (unit2_mult _ _ (unit2_mult _ _ U1 U2) U3)|apply blend_ucont; exact C].
Qed.
Lemma value_blend : forall m i rest u, is_RInt (fun x => beta_density (i - 1) (m - i) x * (G (u + b * x) * aver G u (b * x) ^ (i - 1) * value_of m rest (u + b * x))) 0 1 (value_of m (i :: rest) u).
Proof.
  intros m i rest u. cbn [value_of]. destruct (value_facts m rest) as [IU IC].
  apply (blend_correct (i - 1) (m - i) (fun u x => G (u + b * x) * aver G u (b * x) ^ (i - 1) * value_of m rest (u + b * x)) u).
  assert (U1 : unit2 (fun u x => G (u + b * x))) by (intros a x; apply UG).
  assert (U2 : unit2 (fun u x => aver G u (b * x) ^ (i - 1))) by (apply (unit2_pow (fun u x => aver G u (b * x))), aver_unit; assumption).
  apply (ucont2_mult (fun u x => G (u + b * x) * aver G u (b * x) ^ (i - 1)) (fun u x => value_of m rest (u + b * x))); [apply unit2_mult; assumption|intros a x; apply IU| |apply ucont_shift; assumption].
  apply (ucont2_mult (fun u x => G (u + b * x)) (fun u x => aver G u (b * x) ^ (i - 1))); [exact U1|exact U2|apply ucont_shift; assumption|].
  apply (ucont2_pow (fun u x => aver G u (b * x))); [apply aver_unit; assumption|apply aver_ucont; assumption].
Qed.
Lemma next_law : forall T (g : R -> R -> R) m i rest u, 0 < T -> (forall h, is_RInt (g h) 0 T (T * G h)) -> (1 <= i <= m)%nat ->
  average (ppp_next [b; T] (mk_ppp m (i :: rest) u))
    (fun r => match r with Some (batch, p') => product (fun r => g (nth 0 r 0) (nth 1 r 0)) batch * value_of m (pp_sizes p') (pp_ub p') | None => 0 end)
    (value_of m (i :: rest) u).
Proof.
  intros T g m i rest u HT Hg Hi.
  unfold ppp_next. cbn [pp_sizes pp_n pp_ub hd tl].
  apply (average_r _ _ _ _ (fun x => G (u + b * x) * aver G u (b * x) ^ (i - 1) * value_of m rest (u + b * x))).
  - cbn [expect_r]. exists (i - 1)%nat, (m - i)%nat. split; [rewrite minus_INR by lia; cbn; ring|]. split; [rewrite minus_INR by lia; ring|]. apply value_blend.
  - intros x Hx. cbn [rsupport] in Hx.
    assert (Hx' : 0 < x < 1). { apply Hx; [apply lt_0_INR; lia|]. assert (INR i <= INR m) by (apply le_INR; lia). lra. }
    set (y := b * x). assert (Hy : 0 < y) by (unfold y; apply Rmult_lt_0_compat; lra).
    apply (average_bind _ _ _ _ _ (fun u0 => prod1 G u0 * value_of m rest (u + y)) (fun u0 => length u0 = i)).
    + destruct (Nat.eqb_spec i 1) as [E|E].
      * subst i. refine (average_eq _ _ _ _ _ _ (average_ret _ _ _)). unfold prod1; cbn. ring.
      * apply (average_map _ _ (draw_rs (repeat (DUniform u (u + y)) (i - 1))) (fun us => np_sort us ++ [u + y])).
        apply (average_ext _ _ (fun us => G (u + y) * value_of m rest (u + y) * prod1 G us)).
        { intros us. rewrite prod1_app. rewrite (prod1_perm G (np_sort us) us) by (apply np_sort_perm). unfold prod1 at 3; cbn. ring. }
        refine (average_eq _ _ _ _ _ _ (average_scal _ _ _ _ (G (u + y) * value_of m rest (u + y)) (average_iid (DUniform u (u + y)) G (aver G u y) _ (i - 1)))); [ring|].
        split; [lra|]. apply aver_correct. exact HG.
    + destruct (Nat.eqb_spec i 1) as [E|E].
      * intros o k _. cbn [ret fst length]. lia.
      * intros o k Ho. unfold bind. rewrite draw_rs_repeat. cbn [ret fst].
        rewrite app_length, (Permutation_length (np_sort_perm _)), map_length, seq_length. cbn. lia.
    + intros u0 HL. rewrite <- HL.
      apply (average_map _ _ (draw_rows (length u0) (map (DUniform 0) [T])) (fun u1 => Some (map (fun p => fst p :: snd p) (combine u0 u1), mk_ppp m rest (u + y)))).
      cbn [pp_sizes pp_ub].
      refine (average_ext _ _ _ _ _ _ (average_eq _ _ _ _ _ _ (average_scal _ _ _ _ (value_of m rest (u + y)) (average_times T g G u0 HT _)))); [intros a; apply Rmult_comm|apply Rmult_comm|].
      apply Forall_forall. intros h _. apply Hg.
Qed.
Lemma coin_value : forall w disc cent T, 0 < T -> (forall h, G (Rmax 0 h) = G h) -> (forall h, 0 <= h -> is_RInt (fun u => ind (negb (Rltb h (disc (w u) - cent)))) 0 T (T * G h)) ->
  forall sizes m u, 0 <= u -> Forall (fun i => (1 <= i <= m)%nat) sizes ->
  chance (coin_with (frozen w) (S (length sizes)) disc [b; T] cent (mk_ppp m sizes u) tt) fst (value_of m sizes u).
Proof.
  intros w disc cent T HT GM HL sizes. induction sizes as [|i rest IH]; intros m u HU F.
  - apply coin_end.
  - inversion F as [|? ? Fi Fr]; subst. unfold chance.
    assert (NX : returns (ppp_next [b; T] (mk_ppp m (i :: rest) u)) (fun r => exists batch u', r = Some (batch, mk_ppp m rest u') /\ 0 <= u' /\ Forall (fun r => 0 <= nth 0 r 0) batch)).
    { intros o k V. pose proof (ppp_next_ok b [T] Hb ltac:(constructor; [exact HT|constructor]) (fun _ => True) (mk_ppp m (i :: rest) u) i rest eq_refl Fi HU o k V Logic.I) as N.
      destruct (fst (ppp_next [b; T] (mk_ppp m (i :: rest) u) o k)) as [r|x|]; try exact Logic.I. destruct N as (bt & [m' sz u'] & -> & N1 & N2 & N3 & _ & _ & _ & N7). cbn [pp_n pp_sizes pp_ub] in *. subst m' sz.
      exists bt, u'. split; [reflexivity|]. split; [lra|]. apply Forall_forall. intros r Hr. rewrite Forall_forall in N7. specialize (N7 (hd 0 r) (in_map _ _ _ Hr)). destruct r; cbn in *; lra. }
    apply (coin_round w disc [b; T] cent (length (i :: rest)) _ _ (fun p' => value_of m (pp_sizes p') (pp_ub p')) _ (fun p' => exists u', p' = mk_ppp m rest u' /\ 0 <= u')).
    + refine (average_swap _ _ _ _ _ _ (next_law T (fun h u => ind (negb (Rltb (Rmax 0 h) (disc (w u) - cent)))) m i rest u HT _ Fi)).
      * apply (returns_weaken' _ _ _ _ NX). intros r (batch & u' & -> & _ & FB). set (p' := mk_ppp m rest _).
        assert (EP : product (fun r => ind (negb (Rltb (Rmax 0 (nth 0 r 0)) (disc (w (nth 1 r 0)) - cent)))) batch = product (fun r => ind (above (fun u => disc (w u) - cent) r)) batch).
        { clear -FB. induction FB as [|r l Hr FB IHF]; [reflexivity|]. unfold product in *. cbn [map fold_right]. rewrite IHF, Rmax_right by exact Hr. reflexivity. }
        rewrite EP, product_all. destruct (forallb _ batch); cbn; ring.
      * intros h. rewrite <- GM. apply HL, Rmax_l.
    + apply (returns_weaken' _ _ _ _ NX). intros r (batch & u' & -> & HU' & _). eauto.
    + intros p' [u' [-> HU']]. cbn [pp_sizes pp_ub]. apply (IH m u' HU' Fr).
Qed.
End Value.
