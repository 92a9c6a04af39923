(** Law of the Bernoulli factories for coins with an arbitrary law. *)
From Coquelicot Require Import Hierarchy RInt RInt_analysis.
From Coq Require Import Reals List Bool Arith Lia Lra.
From Verif Require Import Base Rng L_rng M_bf SpecBf L_bf SpecLaw SpecFactory L_law L_law2 L_law3 L_law4 L_law5.
Import ListNotations.
Local Open Scope R_scope.

Lemma threshold_law : forall (b : R -> bool) c (h : bool -> R), 0 <= c <= 1 -> (forall u, 0 <= u < 1 -> b u = true <-> u < c) ->
  average (do u <- draw_r (DUniform 0 1); ret (b u)) h (c * h true + (1 - c) * h false).
Proof.
  intros b c h Hc Hb. apply (average_map _ _ (draw_r (DUniform 0 1)) b). apply average_draw_r. split; [lra|].
  apply (rint_split _ 0 c 1 ((c - 0) * h true) ((1 - c) * h false)); [ring| |].
  - refine (is_RInt_ext (fun _ => h true) _ _ _ _ _ (is_RInt_const 0 c (h true))). rewrite Rmin_left, Rmax_right by lra. intros x Hx.
    replace (b x) with true; [reflexivity|]. symmetry. apply Hb; lra.
  - refine (is_RInt_ext (fun _ => h false) _ _ _ _ _ (is_RInt_const c 1 (h false))). rewrite Rmin_left, Rmax_right by lra. intros x Hx.
    destruct (b x) eqn:E; [|reflexivity]. apply Hb in E; lra.
Qed.
Lemma clip_range : forall p, 0 <= clip01 p <= 1.
Proof. intros p. unfold clip01. split; [apply Rmax_l|]. apply Rmax_lub; [lra|apply Rmin_r]. Qed.
Lemma ulog_law : forall v h, average (o_ulog_lt v) h (clip01 (exp v) * h true + (1 - clip01 (exp v)) * h false).
Proof. intros v h. apply (threshold_law (fun u => log_lt u v)); [apply clip_range|]. intros u Hu. apply log_lt_interval. exact Hu. Qed.
Lemma u_law : forall p h, average (o_u_lt p) h (clip01 p * h true + (1 - clip01 p) * h false).
Proof. intros p h. apply (threshold_law (fun u => Rltb u p)); [apply clip_range|]. intros u Hu. apply u_lt_interval. exact Hu. Qed.
Lemma barker_clip : forall w1 w2, clip01 (exp (w1 - logaddexp w1 w2)) = exp w1 / (exp w1 + exp w2).
Proof.
  intros w1 w2. pose proof (exp_pos w1). pose proof (exp_pos w2). unfold logaddexp, Rminus. rewrite exp_plus, exp_Ropp, exp_ln by lra.
  unfold clip01. assert (0 < exp w1 * / (exp w1 + exp w2) < 1).
  { split; [apply Rmult_lt_0_compat; [lra|apply Rinv_0_lt_compat; lra]|].
    apply (Rmult_lt_reg_r (exp w1 + exp w2)); [lra|]. rewrite Rmult_assoc, Rinv_l by lra. lra. }
  rewrite Rmin_left by lra. rewrite Rmax_right by lra. reflexivity.
Qed.
Lemma barker_law : forall w1 w2, chance (barker (m := M) o_ulog_lt w1 w2) (fun b => b) (exp w1 / (exp w1 + exp w2)).
Proof.
  intros w1 w2. unfold chance, barker. rewrite <- barker_clip.
  refine (average_eq _ _ _ _ _ _ (ulog_law _ _)). cbn. ring.
Qed.

Fixpoint geometric (q : R) (n : nat) : R := match n with O => 0 | S n' => 1 + q * geometric q n' end.

Section Loop.
  Context {A : Type} (c1 c2 : M (bool * A)) (v1 e : R) (esc : A -> A).
  (** what is asked of the answer: on success of the first coin, of the second, on escape *)
  Context (f1 f2 f3 f4 : A -> R) (none : R).
  Definition score (r : option (bool * bool * A) * unit) : R :=
    match fst r with
    | Some (true, false, a) => f1 a | Some (false, false, a) => f2 a | Some (false, true, a) => f3 a | Some (true, true, a) => f4 a | None => none
    end.
  Context (s1 s2 x1 x2 p1 p2 : R).
  Hypothesis H1 : average c1 (fun r => if fst r then f1 (snd r) else 0) s1.
  Hypothesis H2 : average c2 (fun r => if fst r then f2 (snd r) else 0) s2.
  Hypothesis X1 : average c1 (fun r => if fst r then 0 else f3 (esc (snd r))) x1.
  Hypothesis X2 : average c2 (fun r => if fst r then 0 else f3 (esc (snd r))) x2.
  Hypothesis P1 : chance c1 (fun r => negb (fst r)) (1 - p1).
  Hypothesis P2 : chance c2 (fun r => negb (fst r)) (1 - p2).

  Let c := clip01 (exp v1).
  Let q := (c * (1 - p1) + (1 - c) * (1 - p2)) * (1 - clip01 e).
  Let gain := c * (s1 + clip01 e * x1) + (1 - c) * (s2 + clip01 e * x2).
  Lemma loop_law : forall n,
    average (twocoin_loop (m := M) (@ret) (@bind) o_ulog_lt o_u_lt (memoryless c1 c2) v1 e esc n tt) score
      (gain * geometric q n + q ^ n * none).
  Proof.
    induction n as [|n IH]; cbn [twocoin_loop].
    - refine (average_eq _ _ _ _ _ _ (average_ret _ _ _)). cbn. ring.
    - set (W := gain * geometric q n + q ^ n * none) in *.
      assert (REST : forall (first : bool) prop, average
        (bind (o_u_lt e) (fun ee : bool => if ee then ret (Some (false, true, esc prop), tt) else
           twocoin_loop (m := M) (@ret) (@bind) o_ulog_lt o_u_lt (memoryless c1 c2) v1 e esc n tt)) score
        (clip01 e * f3 (esc prop) + (1 - clip01 e) * W)).
      { intros first prop. apply (average_bind0 _ _ _ _ _ _ _ (u_law e (fun b => if b then f3 (esc prop) else W))).
        intros [|]; [apply (average_ret _ (Some (false, true, esc prop), tt) score)|exact IH]. }
      apply (average_bind0 _ _ _ _ _ (fun b : bool => if b then s1 + clip01 e * x1 + (1 - clip01 e) * W * (1 - p1) else s2 + clip01 e * x2 + (1 - clip01 e) * W * (1 - p2))).
      + refine (average_eq _ _ _ _ _ _ (ulog_law v1 _)). cbv beta iota. fold c. unfold W. cbn [geometric pow]. generalize (geometric q n) (q ^ n). intros G Q. unfold q, gain. ring.
      + assert (STEP : forall (first : bool) (cb : M (bool * A)) s x p fb, cb = (if first then c1 else c2) -> fb = (if first then f1 else f2) ->
          average cb (fun r => if fst r then fb (snd r) else 0) s -> average cb (fun r => if fst r then 0 else f3 (esc (snd r))) x ->
          chance cb (fun r => negb (fst r)) (1 - p) ->
          average (bind (memoryless c1 c2 first tt) (fun r => let '((success, prop), s') := r in
            if success then ret (Some (first, false, prop), s') else bind (o_u_lt e) (fun ee : bool => if ee then ret (Some (false, true, esc prop), s') else
             twocoin_loop (m := M) (@ret) (@bind) o_ulog_lt o_u_lt (memoryless c1 c2) v1 e esc n s'))) score
            (s + clip01 e * x + (1 - clip01 e) * W * (1 - p))).
        { intros first cb s x p fb Ec Ef HS HX HP.
          apply (average_bind0 _ _ _ _ _ (fun r : (bool * A) * unit => let '((success, prop), s') := r in if success then fb prop else clip01 e * f3 (esc prop) + (1 - clip01 e) * W)).
          - unfold memoryless. rewrite <- Ec. apply (average_map _ _ cb (fun r => (r, tt))).
            pose proof (average_plus _ _ _ _ _ _ (average_plus _ _ _ _ _ _ HS (average_scal _ _ _ _ (clip01 e) HX)) (average_scal _ _ _ _ ((1 - clip01 e) * W) HP)) as P.
            refine (average_ext _ _ _ _ _ _ P). intros [[|] prop]; cbn; ring.
          - intros [[[|] prop] []].
            + apply (average_eq _ _ _ (score (Some (first, false, prop), tt))); [subst fb; destruct first; reflexivity|].
              apply (average_ret _ (Some (first, false, prop), tt) score).
            + apply (REST first prop). }
        intros [|].
        * apply (STEP true c1 s1 x1 p1 f1); auto.
        * apply (STEP false c2 s2 x2 p2 f2); auto.
  Qed.
End Loop.

Lemma heads_chance : forall A (c : M (bool * A)) (E : A -> bool) s, chance c (fun r => fst r && E (snd r)) s ->
  average c (fun r => if fst r then ind (E (snd r)) else 0) s.
Proof. intros A c E s H. refine (average_ext _ _ _ _ _ _ H). intros [[|] a]; reflexivity. Qed.
Lemma zero_average : forall A (c : M A) f v g, average c f v -> (forall a, g a = 0) -> average c g 0.
Proof.
  intros A c f v g H HG. pose proof (average_scal _ _ _ _ 0 H) as P. rewrite Rmult_0_l in P.
  refine (average_ext _ _ _ _ _ _ P). intros a. rewrite HG. ring.
Qed.

Section Factory.
  Context {A : Type} (c1 c2 : M (bool * A)) (E : A -> bool) (w1 w2 h1 h2 p1 p2 : R).
  Hypothesis T1 : total c1 (fun _ => True).
  Hypothesis T2 : total c2 (fun _ => True).
  Hypothesis P1 : chance c1 (fun r => fst r) p1.
  Hypothesis P2 : chance c2 (fun r => fst r) p2.
  Hypothesis H1 : chance c1 (fun r => fst r && E (snd r)) h1.
  Hypothesis H2 : chance c2 (fun r => fst r && E (snd r)) h2.
  Let c := exp w1 / (exp w1 + exp w2).
  Definition stay (e : R) : R := (c * (1 - p1) + (1 - c) * (1 - p2)) * (1 - e).

  Lemma strip : forall (m : M (option (bool * bool * A) * unit)) (g : (bool * bool * A) * unit -> R) v,
    average m (fun r => match r with (Some x, s') => g (x, s') | (None, _) => 0 end) v ->
    average (do r <- m; match r with (Some x, s') => ret (x, s') | (None, _) => raise BudgetConstraintError end) g v.
  Proof.
    intros m g v H. apply (average_bind0 _ _ _ _ _ _ _ H). intros [[x|] s'].
    - apply (average_ret _ (x, s') g).
    - apply average_raise.
  Qed.

  Lemma factory_laws : forall e prop0 n, 0 <= e <= 1 ->
    chance (sample_twocoin (memoryless c1 c2) w1 w2 e prop0 n tt) (won true E) (c * h1 * geometric (stay e) n) /\
    chance (sample_twocoin (memoryless c1 c2) w1 w2 e prop0 n tt) (won false E) ((1 - c) * h2 * geometric (stay e) n) /\
    chance (sample_twocoin (memoryless c1 c2) w1 w2 e prop0 n tt) total_mass (1 - stay e ^ n).
  Proof.
    intros e prop0 n He.
    pose proof (chance_not _ _ _ _ P1 T1) as N1. pose proof (chance_not _ _ _ _ P2 T2) as N2.
    assert (Ee : clip01 e = e) by (unfold clip01; rewrite Rmin_left, Rmax_right by lra; reflexivity).
    assert (Z1 : average c1 (fun r => if fst r then 0 else 0) 0) by (apply (zero_average _ _ _ _ _ P1); intros [[|] a]; reflexivity).
    assert (Z2 : average c2 (fun r => if fst r then 0 else 0) 0) by (apply (zero_average _ _ _ _ _ P2); intros [[|] a]; reflexivity).
    assert (Ec : clip01 (exp (w1 - logaddexp w1 w2)) = c) by apply barker_clip.
    split; [|split].
    - unfold chance, sample_twocoin, twocoin. apply strip.
      pose proof (loop_law c1 c2 (w1 - logaddexp w1 w2) e (fun _ => prop0) (fun a => ind (E a)) (fun _ => 0) (fun _ => 0) (fun _ => 0) 0 h1 0 0 0 p1 p2
        (heads_chance _ _ _ _ H1) Z2 Z1 Z2 N1 N2 n) as L. rewrite Ec, Ee in L.
      refine (average_ext _ _ _ _ _ _ (average_eq _ _ _ _ _ _ L)); [|unfold stay; ring].
      intros [[[[[|] [|]] a]|] []]; reflexivity.
    - unfold chance, sample_twocoin, twocoin. apply strip.
      pose proof (loop_law c1 c2 (w1 - logaddexp w1 w2) e (fun _ => prop0) (fun _ => 0) (fun a => ind (E a)) (fun _ => 0) (fun _ => 0) 0 0 h2 0 0 p1 p2
        Z1 (heads_chance _ _ _ _ H2) Z1 Z2 N1 N2 n) as L. rewrite Ec, Ee in L.
      refine (average_ext _ _ _ _ _ _ (average_eq _ _ _ _ _ _ L)); [|unfold stay; ring].
      intros [[[[[|] [|]] a]|] []]; reflexivity.
    - unfold chance, sample_twocoin, twocoin. apply strip.
      assert (S1 : average c1 (fun r => if fst r then 1 else 0) p1) by (refine (average_ext _ _ _ _ _ _ P1); intros [[|] a]; reflexivity).
      assert (S2 : average c2 (fun r => if fst r then 1 else 0) p2) by (refine (average_ext _ _ _ _ _ _ P2); intros [[|] a]; reflexivity).
      assert (Y1 : average c1 (fun r => if fst r then 0 else 1) (1 - p1)) by (refine (average_ext _ _ _ _ _ _ N1); intros [[|] a]; reflexivity).
      assert (Y2 : average c2 (fun r => if fst r then 0 else 1) (1 - p2)) by (refine (average_ext _ _ _ _ _ _ N2); intros [[|] a]; reflexivity).
      pose proof (loop_law c1 c2 (w1 - logaddexp w1 w2) e (fun _ => prop0) (fun _ => 1) (fun _ => 1) (fun _ => 1) (fun _ => 1) 0 p1 p2 (1 - p1) (1 - p2) p1 p2
        S1 S2 Y1 Y2 N1 N2 n) as L. rewrite Ec, Ee in L.
      refine (average_ext _ _ _ _ _ _ (average_eq _ _ _ _ _ _ L)).
      + intros [[[[[|] [|]] a]|] []]; reflexivity.
      + fold (stay e). assert (G : (1 - stay e) * geometric (stay e) n = 1 - stay e ^ n).
        { clear. induction n as [|n IH]; cbn [geometric pow]; [ring|]. replace (1 - stay e * stay e ^ n) with (1 - stay e + stay e * (1 - stay e ^ n)) by ring. rewrite <- IH. ring. }
        rewrite <- G. generalize (geometric (stay e) n). intros g. unfold stay. ring.
  Qed.
End Factory.

Lemma geo_pos : forall q n, 0 <= q -> (0 < n)%nat -> 0 < geometric q n.
Proof.
  intros q n Hq Hn. destruct n as [|n]; [lia|]. cbn. assert (0 <= geometric q n); [|pose proof (Rmult_le_pos q _ Hq H); lra].
  clear Hn. induction n as [|n IH]; cbn; [lra|]. pose proof (Rmult_le_pos q _ Hq IH). lra.
Qed.
Lemma geo_sum : forall q n, (1 - q) * geometric q n = 1 - q ^ n.
Proof.
  intros q. induction n as [|n IH]; cbn [geometric pow]; [ring|].
  replace (1 - q * q ^ n) with (1 - q + q * (1 - q ^ n)) by ring. rewrite <- IH. ring.
Qed.
Lemma barker_range : forall w1 w2, 0 < exp w1 / (exp w1 + exp w2) < 1.
Proof.
  intros w1 w2. pose proof (exp_pos w1). pose proof (exp_pos w2).
  split; [apply Rmult_lt_0_compat; [lra|apply Rinv_0_lt_compat; lra]|].
  apply (Rmult_lt_reg_r (exp w1 + exp w2)); [lra|]. unfold Rdiv. rewrite Rmult_assoc, Rinv_l by lra. lra.
Qed.

Lemma sampler_law : forall A (c1 c2 : M (bool * A)) E w1 w2 h1 h2 p1 p2 prop0 n,
  total c1 (fun _ => True) -> total c2 (fun _ => True) ->
  chance c1 (fun r => fst r) p1 -> chance c2 (fun r => fst r) p2 ->
  chance c1 (fun r => fst r && E (snd r)) h1 -> chance c2 (fun r => fst r && E (snd r)) h2 ->
  0 < p1 + p2 -> (0 < n)%nat ->
  exists v1 v2 v, let m := sample_twocoin (memoryless c1 c2) w1 w2 0 prop0 n tt in
    chance m (won true E) v1 /\ chance m (won false E) v2 /\ chance m total_mass v /\ 0 < v /\
    v1 / v = exp w1 * h1 / (exp w1 * p1 + exp w2 * p2) /\ v2 / v = exp w2 * h2 / (exp w1 * p1 + exp w2 * p2) /\
    v = 1 - (1 - (exp w1 * p1 + exp w2 * p2) / (exp w1 + exp w2)) ^ n.
Proof.
  intros A c1 c2 E w1 w2 h1 h2 p1 p2 prop0 n T1 T2 P1 P2 H1 H2 HP Hn.
  destruct (factory_laws c1 c2 E w1 w2 h1 h2 p1 p2 T1 T2 P1 P2 H1 H2 0 prop0 n ltac:(lra)) as (L1 & L2 & L3).
  pose proof (chance_range _ _ _ _ P1) as R1. pose proof (chance_range _ _ _ _ P2) as R2.
  pose proof (exp_pos w1) as E1. pose proof (exp_pos w2) as E2.
  assert (SQ : stay w1 w2 p1 p2 0 = 1 - (exp w1 * p1 + exp w2 * p2) / (exp w1 + exp w2)) by (unfold stay; field; lra).
  assert (D : 0 < exp w1 * p1 + exp w2 * p2).
  { assert (0 <= exp w1 * p1) by (apply Rmult_le_pos; lra). assert (0 <= exp w2 * p2) by (apply Rmult_le_pos; lra).
    destruct (Rle_lt_dec p1 0); [assert (0 < exp w2 * p2) by (apply Rmult_lt_0_compat; lra); lra|assert (0 < exp w1 * p1) by (apply Rmult_lt_0_compat; lra); lra]. }
  assert (SP : 0 <= stay w1 w2 p1 p2 0).
  { unfold stay. pose proof (barker_range w1 w2). apply Rmult_le_pos; [|lra]. apply Rplus_le_le_0_compat; apply Rmult_le_pos; lra. }
  pose proof (geo_pos _ n SP Hn) as GP. pose proof (geo_sum (stay w1 w2 p1 p2 0) n) as GS.
  eexists _, _, _. split; [exact L1|]. split; [exact L2|]. split; [exact L3|]. rewrite <- GS.
  set (g := geometric _ n) in *.
  assert (S1 : 1 - stay w1 w2 p1 p2 0 = (exp w1 * p1 + exp w2 * p2) / (exp w1 + exp w2)) by (rewrite SQ; ring).
  rewrite S1. assert (0 < (exp w1 * p1 + exp w2 * p2) / (exp w1 + exp w2)) by (apply Rmult_lt_0_compat; [lra|apply Rinv_0_lt_compat; lra]).
  split; [apply Rmult_lt_0_compat; assumption|]. split; [field; repeat split; lra|]. split; [field; repeat split; lra|].
  rewrite <- SQ, <- S1. exact GS.
Qed.
Lemma sampler_balance : forall A (c1 c2 : M (bool * A)) w1 w2 p1 p2 e a b n,
  total c1 (fun _ => True) -> total c2 (fun _ => True) -> chance c1 (fun r => fst r) p1 -> chance c2 (fun r => fst r) p2 -> 0 <= e <= 1 ->
  exists u v, chance (sample_twocoin (memoryless c1 c2) w1 w2 e a n tt) (won true (fun _ => true)) u /\
    chance (sample_twocoin (memoryless c2 c1) w2 w1 e b n tt) (won true (fun _ => true)) v /\
    exp w2 * p2 * u = exp w1 * p1 * v.
Proof.
  intros A c1 c2 w1 w2 p1 p2 e a b n T1 T2 P1 P2 He.
  assert (H1 : chance c1 (fun r => fst r && true) p1) by (refine (average_ext _ _ _ _ _ _ P1); intros [[|] x]; reflexivity).
  assert (H2 : chance c2 (fun r => fst r && true) p2) by (refine (average_ext _ _ _ _ _ _ P2); intros [[|] x]; reflexivity).
  destruct (factory_laws c1 c2 (fun _ => true) w1 w2 p1 p2 p1 p2 T1 T2 P1 P2 H1 H2 e a n He) as (L1 & _ & _).
  destruct (factory_laws c2 c1 (fun _ => true) w2 w1 p2 p1 p2 p1 T2 T1 P2 P1 H2 H1 e b n He) as (L2 & _ & _).
  eexists _, _. split; [exact L1|]. split; [exact L2|].
  pose proof (exp_pos w1) as E1. pose proof (exp_pos w2) as E2.
  assert (EQ : stay w2 w1 p2 p1 e = stay w1 w2 p1 p2 e) by (unfold stay; field; lra). rewrite EQ.
  generalize (geometric (stay w1 w2 p1 p2 e) n). intros g. field. lra.
Qed.
