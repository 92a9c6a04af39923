(** Lemmas: the dual coin. *)
From Coq Require Import Reals List Bool Arith ZArith Lia Lra Psatz Sorted Permutation.
From Verif Require Import Base Np Rng L_list L_rng L_sim L_bridge L_ars L_prop M_mjp L_ppp M_hit SpecHit M_path SpecPath L_sde2 L_sde3 M_skel SpecSkel L_skel2 L_skel3 L_skel4 L_skel5 L_skel6 L_skel7 M_seed SpecSeed L_seed L_seed2 L_seed3.
Import ListNotations.
Local Open Scope R_scope.

Lemma dual_pts (f : R -> R -> R) rows vn vp :
  existsb (fun c => Rltb (snd c) (fst c)) (combine (map (fun c => f (fst c) (snd c)) (combine vn vp)) (map (fun r : list R => nth 0 r 0) rows)) =
  existsb (fun c => Rltb (fst (fst c)) (f (fst (snd c)) (snd (snd c)))) (combine (map (fun r => (nth 0 r 0, nth 1 r 0)) rows) (combine vn vp)).
Proof. generalize (combine vn vp). clear. intros l. revert l. induction rows as [|r rows IH]; intros [|v l]; cbn; auto. now rewrite IH. Qed.
(** when the coin returns, the version without the assertion returns the same *)
Lemma dual_loop_ok fuel mp n nn dn np dp f g up c T m : forall p s o k r,
  fst (dual_loop fuel mp n m nn dn np dp f g up c T p s o k) = Ok r ->
  exists log, fst (logged (dual_step fuel mp n nn dn np dp) (fun _ v => dual_gap up (f (fst v)) (g (snd v))) [c; T] m p s o k) = Ok (r, log).
Proof.
  induction m as [|m IH]; intros p s o k r; cbn [dual_loop logged]; [discriminate|].
  unfold bind, ret, dual_step. destruct (ppp_next [c; T] p o k) as [[[[batch p']|]|e|] k1]; try discriminate. 2:{ cbn. intros [= <-]. eauto. }
  unfold bind, ret. destruct (interpolate_seed fuel mp n nn dn s _ o k1) as [[[s1 vn]|e|] k2]; try discriminate. cbn [fst snd].
  destruct (interpolate_seed fuel mp n np dp s1 _ o k2) as [[[s2 vp]|e|] k3]; try discriminate. cbn [fst snd].
  unfold assert_. destruct (negb _); [|discriminate]. unfold ret.
  rewrite (dual_pts (fun a b => dual_gap up (f a) (g b))). destruct (existsb _ _).
  - cbn. intros [= <-]. eauto.
  - intros H. apply IH in H as (log & H). destruct (logged _ _ _ m p' s2 o k3) as [[z|e|] k4]; try discriminate. cbn in *. injection H as ->. eauto.
Qed.
Lemma dual_coin_ok fuel mp n s c nn dn f np dp g up m o k r : fst (flip_dual_coin fuel mp n s c nn dn f np dp g up m o k) = Ok r ->
  exists log, fst (logged_dual_coin fuel mp n s c nn dn f np dp g up m o k) = Ok (r, log).
Proof.
  unfold flip_dual_coin, logged_dual_coin, bind. destruct (lift_opt ValueError _ o k) as [[fin|e|] k1]; try discriminate.
  destruct (ppp_start 1 _ m o k1) as [[p|e|] k2]; try discriminate. apply dual_loop_ok.
Qed.
Section Ops.
Context (nn dn np dp : normop) (T c x0 x1 c' y0 y1 : R) (ON : operators nn dn T c x0 x1) (OP : operators np dp T c' y0 y1) (HT : 0 < T).
Lemma at_combine s u z w : well_formed s -> at_time s u z -> at_time s u w -> z = w.
Proof. apply value_unique. Qed.
Lemma dual_step_returns fuel mp n s new : standard s -> StronglySorted Rlt new ->
  returns_if generic (dual_step fuel mp n nn dn np dp s new) (fun q => standard (fst q) /\ extends s (fst q) /\ Forall2 (dual_at T c x0 x1 c' y0 y1 (fst q)) new (snd q)).
Proof.
  intros ST SN o k V G. unfold dual_step, bind, ret.
  assert (H := seed_request nn dn T c x0 x1 ON HT fuel mp n s new ST SN o k V I).
  destruct (interpolate_seed fuel mp n nn dn s new o k) as [[[s1 vn]|e|] k1]; auto. cbn [fst snd] in *. destruct H as (A & B & C & _).
  assert (H := seed_request np dp T c' y0 y1 OP HT fuel mp n s1 new A SN o k1 V I).
  destruct (interpolate_seed fuel mp n np dp s1 new o k1) as [[[s2 vp]|e|] k2]; auto. cbn [fst snd] in *. destruct H as (A2 & B2 & C2 & _).
  split; auto. split; [eapply extends_trans; eauto|].
  assert (C3 : Forall2 (seed_at T c x0 x1 s2) new vn). { clear -C B2. induction C; constructor; auto. eapply seed_at_extends; eauto. }
  clear -C3 C2 A2. revert vn C3. induction C2 as [|u v new vp (z & Z1 & Z2) C2 IH]; intros vn C3; inversion C3 as [|? w ? ? (z' & Z1' & Z2')]; subst; cbn; constructor; auto.
  exists z. cbn. split; auto. split; auto. now rewrite (at_combine s2 _ z' z (proj1 A2) Z1' Z1).
Qed.
(** flags after a round *)
Lemma dual_step_flags fuel mp n s new : standard s -> StronglySorted Rlt new -> new <> [] ->
  returns_if generic (dual_step fuel mp n nn dn np dp s new) (fun q => k_hit_i (fst q) = None).
Proof.
  intros ST SN NE o k V G. unfold dual_step, bind, ret.
  assert (H := seed_request nn dn T c x0 x1 ON HT fuel mp n s new ST SN o k V I).
  destruct (interpolate_seed fuel mp n nn dn s new o k) as [[[s1 vn]|e|] k1]; auto. cbn [fst snd] in *. destruct H as (A & _ & _ & IN & _).
  rewrite (interpolate_seed_run np dp T c' y0 y1 OP).
  destruct (stored_request fuel mp n s1 (map (fun u => u / T) new) o k1) as (vs & -> & _); auto.
  - apply A.
  - now apply times_sorted.
  - destruct new; easy.
  - intros u Hu. apply in_map_iff in Hu as (v & <- & Hv). apply IN. right. replace (v / T * T) with v by (field; lra). auto.
  - reflexivity.
Qed.
Lemma dual_gap_lt (up : bool) (a b h : R) : 0 <= h -> (h < dual_gap up a b <-> h < if up then b - a else a - b).
Proof.
  intros H. unfold dual_gap. destruct up; [destruct (Rltb_dec a b) as [[L ->]|[L ->]]|destruct (Rltb_dec b a) as [[L ->]|[L ->]]]; split; lra.
Qed.
Lemma dual_gap_le (up : bool) (a b h : R) : 0 <= h -> (if up then b - a else a - b) <= h -> dual_gap up a b <= h.
Proof. intros H H1. apply Rnot_lt_le. intros H2. apply dual_gap_lt in H2; auto. lra. Qed.
Lemma dual_start fuel mp n s C f g up m o k : logged_dual_coin fuel mp n s C nn dn f np dp g up m o k =
  match ppp_start 1 [C; T] m o k with
  | (Ok p, k') => logged (dual_step fuel mp n nn dn np dp) (fun _ v => dual_gap up (f (fst v)) (g (snd v))) [C; T] (S (length (pp_sizes p))) p s o k'
  | (Raise e, k') => (Raise e, k')
  | (NoFuel, k') => (NoFuel, k')
  end.
Proof.
  unfold logged_dual_coin. rewrite (op_denorm_none _ _ _ _ _ _ ON). cbn [map fst hd_error]. erewrite run_bind by reflexivity. replace (1 * T) with T by ring. reflexivity.
Qed.
Lemma dual_statement fuel mp n s C f g up m o k acc s' : standard s -> valid o -> generic o ->
  fst (flip_dual_coin fuel mp n s C nn dn f np dp g up m o k) = Ok (acc, s') ->
  exists log, fst (logged_dual_coin fuel mp n s C nn dn f np dp g up m o k) = Ok (acc, s', log) /\ 0 < C /\ standard s' /\ extends s s' /\
    Forall (fun q => let '(h, u, v) := q in 0 <= h /\ 0 < u < T /\ dual_at T c x0 x1 c' y0 y1 s' u v) log /\
    (acc = false <-> Exists (fun q => let '(h, u, v) := q in h < if up then g (snd v) - f (fst v) else f (fst v) - g (snd v)) log) /\
    (acc = true -> length log = ora_n o k (DPoisson (C * T))).
Proof.
  intros ST V G H. destruct (dual_coin_ok _ _ _ _ _ _ _ _ _ _ _ _ _ _ _ _ H) as (log & E). exists log. split; auto.
  rewrite dual_start in E. assert (SR := start_run C T m o k).
  destruct (ppp_start 1 _ m o k) as [[p|e|] k2]; try discriminate. destruct SR as (_ & B0 & BT & EN & SZ & TOT & UB).
  assert (L := logged_returns (dual_step fuel mp n nn dn np dp) (fun _ v => dual_gap up (f (fst v)) (g (snd v))) C T (fun q => standard q /\ extends s q) extends
     (dual_at T c x0 x1 c' y0 y1) extends_refl extends_trans).
  assert (MO : forall a b u v, extends a b -> dual_at T c x0 x1 c' y0 y1 a u v -> dual_at T c x0 x1 c' y0 y1 b u v).
  { intros a b u v (_ & _ & _ & _ & _ & _ & X) (z & Z1 & Z2). exists z. split; auto. now apply X. }
  specialize (L MO).
  assert (STP : forall q new, standard q /\ extends s q -> StronglySorted Rlt new -> Forall (fun u => 0 < u < T) new ->
     returns_if generic (dual_step fuel mp n nn dn np dp q new) (fun z => (standard (fst z) /\ extends s (fst z)) /\ extends q (fst z) /\ Forall2 (dual_at T c x0 x1 c' y0 y1 (fst z)) new (snd z))).
  { intros q new [Q1 Q2] SN F. eapply returns_weaken; [apply dual_step_returns; auto|]. intros z (Z1 & Z2 & Z3). split; auto. split; auto. eapply extends_trans; eauto. }
  specialize (L STP (S (length (pp_sizes p))) p s B0 BT (conj ST (extends_refl s)) SZ ltac:(lra) o k2 V G). rewrite E in L.
  destruct L as ((W' & X) & _ & F & D & N1 & N2). split; auto. split; auto. split; auto. split; auto. split.
  - rewrite D. rewrite Forall_forall in F. split; intros Q; apply Exists_exists in Q as ([[h u] v] & H1 & H2); apply Exists_exists; exists (h, u, v); split; auto;
      specialize (F _ H1); cbn in F; apply dual_gap_lt in H2; auto; tauto.
  - intros A. rewrite (N1 A), TOT; auto.
Qed.

(** ** the assertion *)
Lemma dual_loop_total fuel mp n f g up C s0 m : dominated c x0 x1 c' y0 y1 s0 f g up C -> forall p s o k, 0 < C -> valid o -> generic o -> standard s -> extends s0 s -> sizes_ok (pp_n p) (pp_sizes p) -> 0 <= pp_ub p ->
  dual_loop fuel mp n m nn dn np dp f g up C T p s o k =
  (do r <- logged (dual_step fuel mp n nn dn np dp) (fun _ v => dual_gap up (f (fst v)) (g (snd v))) [C; T] m p s; ret (fst r)) o k.
Proof.
  intros DO. induction m as [|m IH]; intros p s o k HC V G ST X SZ UB; cbn [dual_loop logged]; auto.
  destruct (pp_sizes p) as [|i rest] eqn:ES.
  { assert (E : ppp_next [C; T] p = ret None) by (unfold ppp_next; now rewrite ES). rewrite E. reflexivity. }
  inversion SZ as [|? ? Hi SZ']; subst. assert (BR := batch_returns C T p i rest HC HT ES Hi UB o k V G). unfold bind, ret.
  destruct (ppp_next [C; T] p o k) as [[r|e|] k1]; try contradiction. cbn [fst] in BR. destruct BR as (b & p' & -> & E1 & E2 & E3 & FB & ND). rewrite ES in E2. injection E2 as Ei Er.
  set (rows := col1_sort b). assert (PM := col1_sort_perm b). fold rows in PM.
  assert (FR : Forall (fun r => 0 <= nth 0 r 0 /\ 0 < nth 1 r 0 < T) rows). { rewrite Forall_forall in *. intros r Hr. apply FB. now apply (Permutation_in r PM). }
  assert (SN : StronglySorted Rlt (map (fun r => nth 1 r 0) rows)).
  { apply NoDup_sorted_lt; [|apply col1_sort_sorted]. eapply Permutation_NoDup; [|exact ND]. apply Permutation_map. now apply Permutation_sym. }
  assert (DS := dual_step_returns fuel mp n s _ ST SN o k1 V G). unfold dual_step, bind, ret in *.
  destruct (interpolate_seed fuel mp n nn dn s _ o k1) as [[[s1 vn]|e|] k2]; auto. cbn [fst snd] in *.
  destruct (interpolate_seed fuel mp n np dp s1 _ o k2) as [[[s2 vp]|e|] k3]; auto. cbn [fst snd] in *. destruct DS as (A & B & F).
  assert (AS : existsb (fun g0 => Rltb C g0) (map (fun c0 => dual_gap up (f (fst c0)) (g (snd c0))) (combine vn vp)) = false).
  { apply not_true_is_false. intros H. apply existsb_exists in H as (q & H1 & H2). apply Rltb_true in H2. apply in_map_iff in H1 as (v & <- & H1).
    assert (exists u, dual_at T c x0 x1 c' y0 y1 s2 u v) as (u & z & Z1 & Z2 & Z3).
    { clear -F H1. induction F; cbn in H1; [easy|]. destruct H1 as [<-|H1]; eauto. }
    destruct A as [A HZ]. destruct (value_bounds s2 _ z A Z1) as [R1 R2]. rewrite HZ in R1.
    destruct (extends_trans _ _ _ X B) as (X1 & X2 & _). rewrite X1, X2 in R2. specialize (DO _ z R1 R2). rewrite <- Z2, <- Z3 in DO.
    apply dual_gap_le in DO; lra. }
  unfold assert_. rewrite AS. cbn [negb fst snd]. unfold ret. rewrite (dual_pts (fun a b => dual_gap up (f a) (g b))). match goal with |- (if ?b then _ else _) _ _ = _ => destruct b end; auto.
  rewrite IH; auto; [|eapply extends_trans; eauto|now rewrite E1, <- Er]. unfold bind, ret. destruct (logged _ _ _ m p' s2 o k3) as [[z|e|] k4]; auto.
Qed.
Lemma dual_never_asserts fuel mp n s C f g up m o k : standard s -> dominated c x0 x1 c' y0 y1 s f g up C -> valid o -> generic o ->
  flip_dual_coin fuel mp n s C nn dn f np dp g up m o k = (do r <- logged_dual_coin fuel mp n s C nn dn f np dp g up m; ret (fst r)) o k.
Proof.
  intros ST DO V G. unfold bind at 1. rewrite dual_start. unfold flip_dual_coin. rewrite (op_denorm_none _ _ _ _ _ _ ON). cbn [map fst hd_error]. erewrite run_bind by reflexivity.
  replace (1 * T) with T by ring. assert (SR := start_run C T m o k). unfold bind at 1.
  destruct (ppp_start 1 _ m o k) as [[p|e|] k2]; auto. destruct SR as (_ & B0 & BT & EN & SZ & TOT & UB).
  rewrite (dual_loop_total fuel mp n f g up C s); auto; [apply extends_refl|lra].
Qed.
End Ops.
