(** Minimum of a Brownian bridge: distribution function, quantile function and sampler. *)
From Coq Require Import Reals List Bool Arith Lia Lra Psatz.
From Verif Require Import Base Rng L_rng M_hit.
Import ListNotations.
Local Open Scope R_scope.

Section Core.
  Variables (t a b : R).
  Hypothesis Ht : 0 < t.
  Notation mn := (Rmin a b).
  Local Notation "'pm' m" := (pm_brownbr m t a b) (at level 10, m at level 9).
  Definition quad (m : R) : R := (a - m) * (b - m).
  Definition qinv (q : R) : R := (b + a - sqrt ((b - a) ^ 2 - 2 * t * ln q)) / 2.

  Lemma quad_nonneg m : m <= mn -> 0 <= quad m.
  Proof. unfold quad. intros. pose proof (Rmin_l a b). pose proof (Rmin_r a b). nra. Qed.
  Lemma quad_min : quad mn = 0.
  Proof. unfold quad, Rmin. destruct (Rle_dec a b); ring. Qed.
  Lemma quad_decr m m' : m < m' -> m' <= mn -> quad m' < quad m.
  Proof. unfold quad. intros. pose proof (Rmin_l a b). pose proof (Rmin_r a b). nra. Qed.

  Lemma pm_exp m : m <= mn -> pm (Fin m) = exp (-2 * quad m / t).
  Proof.
    intros H. simpl. destruct (Rltb_dec m mn) as [[L ->]|[L ->]].
    - f_equal. unfold quad, Rdiv. ring.
    - replace m with mn by lra. rewrite quad_min. replace (-2 * 0 / t) with 0 by (field; lra). now rewrite exp_0.
  Qed.
  Lemma pm_pos m : 0 < pm (Fin m).
  Proof. simpl. destruct (Rltb m mn); [apply exp_pos|lra]. Qed.
  Lemma pm_ge m : mn <= m -> pm (Fin m) = 1.
  Proof. intros H. simpl. destruct (Rltb_dec m mn) as [[L ->]|[L ->]]; [lra|auto]. Qed.
  Lemma pm_mono m m' : m < m' -> m' <= mn -> pm (Fin m) < pm (Fin m').
  Proof.
    intros L H. rewrite !pm_exp by lra. apply exp_increasing.
    pose proof (quad_decr m m' L H). unfold Rdiv. apply Rmult_lt_compat_r; [now apply Rinv_0_lt_compat|lra].
  Qed.
  Lemma pm_le1 m : pm (Fin m) <= 1.
  Proof.
    destruct (Rle_lt_dec mn m); [rewrite pm_ge; lra|].
    left. rewrite <- (pm_ge mn) by lra. apply pm_mono; lra.
  Qed.

  Lemma qinv_spec q : 0 < q <= 1 -> qinv q <= mn /\ pm (Fin (qinv q)) = q.
  Proof.
    intros Q. assert (L : ln q <= 0).
    { destruct (Req_dec q 1); [subst; rewrite ln_1; lra|]. left. rewrite <- ln_1. apply ln_increasing; [lra|]. destruct Q; lra. }
    assert (D : 0 <= (b - a) ^ 2 - 2 * t * ln q). { pose proof (pow2_ge_0 (b - a)). assert (0 <= t * - ln q) by (apply Rmult_le_pos; lra). lra. }
    assert (B : qinv q <= mn).
    { unfold qinv. assert (Rabs (b - a) <= sqrt ((b - a) ^ 2 - 2 * t * ln q)).
      { rewrite <- sqrt_Rsqr_abs. assert (0 <= t * - ln q) by (apply Rmult_le_pos; lra). apply sqrt_le_1; [apply Rle_0_sqr|exact D|unfold Rsqr; lra]. }
      revert H. unfold Rabs, Rmin. destruct (Rcase_abs (b - a)); destruct (Rle_dec a b); lra. }
    split; auto. rewrite pm_exp by auto.
    assert (E : quad (qinv q) = - t * ln q / 2).
    { pose proof (sqrt_sqrt _ D) as SS. unfold quad, qinv.
      set (s := sqrt ((b - a) ^ 2 - 2 * t * ln q)) in *. replace (_ * _) with (((b + a) ^ 2 - 2 * (b + a) * (b + a) + s * s) / 4 + a * b) by field. rewrite SS. field. }
    rewrite E. replace (-2 * (- t * ln q / 2) / t) with (ln q) by (field; lra). apply exp_ln. lra.
  Qed.
  Lemma qinv_pm m : m <= mn -> qinv (pm (Fin m)) = m.
  Proof.
    intros H. destruct (qinv_spec (pm (Fin m))) as [L E].
    { split; [apply pm_pos|apply pm_le1]. }
    destruct (Rtotal_order (qinv (pm (Fin m))) m) as [C|[C|C]]; auto; exfalso.
    - pose proof (pm_mono _ _ C H). lra.
    - pose proof (pm_mono _ _ C L). lra.
  Qed.

  (** extended arguments *)
  Lemma pm_emono x y : elt x y -> ele y (Fin mn) -> pm x < pm y.
  Proof.
    destruct x, y; try contradiction; intros L H.
    - apply pm_pos.
    - now apply pm_mono.
  Qed.
  Lemma pm_ele x y : ele x y -> ele y (Fin mn) -> pm x <= pm y.
  Proof.
    intros L H. destruct x, y; try contradiction; try (simpl; lra).
    - left. apply pm_pos.
    - destruct (Req_dec r r0); [subst; lra|]. left. apply pm_mono; [simpl in L; lra|exact H].
  Qed.
End Core.

Lemma ele_trans a b c : ele a b -> ele b c -> ele a c.
Proof. destruct a, b, c; simpl; try tauto; lra. Qed.
Lemma elt_le a b : elt a b -> ele a b.
Proof. destruct a, b; simpl; try tauto; lra. Qed.
Lemma elt_le_trans a b c : elt a b -> ele b c -> elt a c.
Proof. destruct a, b, c; simpl; try tauto; lra. Qed.
Lemma ele_lt_trans a b c : ele a b -> elt b c -> elt a c.
Proof. destruct a, b, c; simpl; try tauto; lra. Qed.
Lemma ele_cases a b : ele a b -> a = b \/ elt a b.
Proof. destruct a, b; simpl; try tauto. intros. destruct (Req_dec r r0); [left; now subst|right; lra]. Qed.
Lemma ele_refl a : ele a a.
Proof. destruct a; simpl; auto; lra. Qed.

Section Bounded.
  Variables (t a b : R) (lbo : option ext) (ubo : option R).
  Notation lb := (lb_default lbo).
  Notation ub := (ub_default ubo a b).
  Hypothesis (Ht : 0 < t) (Hlu : elt lb (Fin ub)) (Hu : ub <= Rmin a b).
  Local Notation "'pm' m" := (pm_brownbr m t a b) (at level 10, m at level 9).
  Notation cl := (pm lb).
  Notation cu := (pm (Fin ub)).

  Lemma bounds_ok_true : bounds_ok lb ub a b = true.
  Proof. unfold bounds_ok. rewrite (proj2 (eltb_true _ _) Hlu). now apply Rleb_true. Qed.
  Lemma cl_cu : cl < cu.
  Proof. apply pm_emono; auto. Qed.
  Lemma cl_nonneg : 0 <= cl.
  Proof. destruct lb; simpl; try lra. fold (pm_brownbr (Fin r) t a b). left; apply (pm_pos t a b r). Qed.
  Lemma cu_le1 : cu <= 1.
  Proof. now apply pm_le1. Qed.
  Lemma unb_spec : unbounded_min lb ub a b = true -> lb = NegInf /\ ub = Rmin a b.
  Proof.
    unfold unbounded_min. intros E. apply andb_prop in E as [E1 E2]. apply Reqb_true in E2.
    destruct lb; simpl in *; try discriminate; try contradiction. auto.
  Qed.

  (** the affine renormalisation, with or without bounds *)
  Lemma cdf_value m : cdf_brownbr_min m t a b lbo ubo = Ok ((pm m - cl) / (cu - cl)).
  Proof.
    unfold cdf_brownbr_min. rewrite (proj2 (Rltb_true _ _) Ht), bounds_ok_true. simpl negb. cbv iota.
    destruct (unbounded_min _ _ _ _) eqn:E; auto. apply unb_spec in E as [-> ->].
    rewrite (pm_ge t a b (Rmin a b)) by lra. simpl (pm_brownbr NegInf t a b). f_equal. field.
  Qed.
  Definition ppf_pm (p : R) : R := p * (cu - cl) + cl.
  Definition ppf_val (q : R) : ext := if Reqb q 0 then NegInf else Fin (qinv t a b q).
  Lemma ppf_value p : 0 <= p <= 1 -> ppf_brownbr_min p t a b lbo ubo = Ok (ppf_val (ppf_pm p)).
  Proof.
    intros P. unfold ppf_brownbr_min. rewrite (proj2 (Rleb_true _ _) (proj1 P)), (proj2 (Rleb_true _ _) (proj2 P)).
    rewrite (proj2 (Rltb_true _ _) Ht), bounds_ok_true. simpl negb. cbv iota.
    unfold ppf_val, ppf_pm, qinv.
    destruct (unbounded_min _ _ _ _) eqn:E.
    - apply unb_spec in E as [-> ->]. rewrite (pm_ge t a b (Rmin a b)) by lra. simpl (pm_brownbr NegInf t a b).
      replace (p * (1 - 0) + 0) with p by ring. destruct (Reqb p 0); auto.
    - destruct (Reqb _ 0); auto.
  Qed.
  Lemma ppf_pm_range p : 0 <= p <= 1 -> 0 <= ppf_pm p <= 1 /\ cl <= ppf_pm p <= cu.
  Proof. intros P. unfold ppf_pm. pose proof cl_cu. pose proof cl_nonneg. pose proof cu_le1. nra. Qed.
  Lemma ppf_val_spec q : cl <= q <= cu -> ele lb (ppf_val q) /\ ele (ppf_val q) (Fin ub) /\ pm (ppf_val q) = q.
  Proof.
    intros Q. pose proof cl_cu. pose proof cl_nonneg. pose proof cu_le1. unfold ppf_val.
    destruct (Reqb_dec q 0) as [[-> ->]|[N ->]].
    - split; [|split; simpl; auto]. destruct lb; simpl; auto; try contradiction.
      pose proof (pm_pos t a b r). simpl in Q. simpl in H2. lra.
    - destruct (qinv_spec t a b Ht q ltac:(lra)) as [L E]. split; [|split; auto].
      + destruct lb; simpl; auto; try contradiction. destruct (Rle_lt_dec r (qinv t a b q)) as [C|C]; auto.
        pose proof (pm_mono t a b Ht _ _ C ltac:(simpl in Hlu; lra)) as D. simpl in Q, D. unfold pm_brownbr in E. lra.
      + simpl. destruct (Rle_lt_dec (qinv t a b q) ub) as [C|C]; auto.
        pose proof (pm_mono t a b Ht _ _ C L). simpl in Q, H2, E. lra.
  Qed.

  Lemma cdf_range m : ele lb m -> ele m (Fin ub) -> cl <= pm m <= cu.
  Proof. intros L U. split; apply pm_ele; auto. eapply ele_trans; [exact U|exact Hu]. Qed.
End Bounded.

(** ** Statements *)
Section Statements.
  Variables (t a b : R) (lbo : option ext) (ubo : option R).
  Notation lb := (lb_default lbo).
  Notation ub := (ub_default ubo a b).
  Hypothesis (Ht : 0 < t) (Hlu : elt lb (Fin ub)) (Hu : ub <= Rmin a b).
  Local Notation "'cdf' m" := (cdf_brownbr_min m t a b lbo ubo) (at level 10, m at level 9).
  Local Notation "'ppf' m" := (ppf_brownbr_min m t a b lbo ubo) (at level 10, m at level 9).

  Lemma cdf_statement :
    (forall m, ele lb m -> ele m (Fin ub) -> exists p, cdf m = Ok p /\ 0 <= p <= 1) /\
    cdf lb = Ok 0 /\ cdf (Fin ub) = Ok 1 /\
    (forall m m' p p', ele lb m -> elt m m' -> ele m' (Fin ub) -> cdf m = Ok p -> cdf m' = Ok p' -> p < p').
  Proof.
    pose proof (cl_cu t a b lbo ubo Ht Hlu Hu) as CC. split; [|split; [|split]].
    - intros m L U. rewrite cdf_value by auto. eexists; split; [reflexivity|].
      pose proof (cdf_range t a b lbo ubo Ht Hu m L U) as C.
      split; [apply Rmult_le_pos; [lra|left; apply Rinv_0_lt_compat; lra]|].
      apply (Rmult_le_reg_r (pm_brownbr (Fin ub) t a b - pm_brownbr lb t a b)); [lra|].
      unfold Rdiv. rewrite Rmult_assoc, Rinv_l by lra. lra.
    - rewrite cdf_value by auto. f_equal. unfold Rdiv. replace (_ - _) with 0 by ring. ring.
    - rewrite cdf_value by auto. f_equal. field. lra.
    - intros m m' p p' L LT U E E'. rewrite cdf_value in E, E' by auto. injection E as <-. injection E' as <-.
      assert (pm_brownbr m t a b < pm_brownbr m' t a b).
      { apply pm_emono; auto. eapply ele_trans; [exact U|exact Hu]. }
      unfold Rdiv. apply Rmult_lt_compat_r; [apply Rinv_0_lt_compat; now apply Rlt_Rminus|lra].
  Qed.

  Lemma ppf_statement : forall p, 0 <= p <= 1 ->
    exists m, ppf p = Ok m /\ ele lb m /\ ele m (Fin ub) /\ cdf m = Ok p /\ (0 < p -> elt lb m) /\ (p < 1 -> elt m (Fin ub)).
  Proof.
    intros p P. pose proof (cl_cu t a b lbo ubo Ht Hlu Hu) as CC.
    destruct (ppf_pm_range t a b lbo ubo Ht Hlu Hu p P) as [R1 R2].
    destruct (ppf_val_spec t a b lbo ubo Ht Hlu Hu _ R2) as (A & B & C).
    eexists. rewrite ppf_value by auto. split; [reflexivity|]. split; auto. split; auto.
    rewrite cdf_value by auto. rewrite C. split; [|split].
    - f_equal. unfold ppf_pm. field. lra.
    - intros Q. destruct (ele_cases _ _ A) as [E|]; auto. rewrite <- E in C. unfold ppf_pm in C. pose proof (Rmult_lt_0_compat _ _ Q (Rlt_Rminus _ _ CC)). lra.
    - intros Q. destruct (ele_cases _ _ B) as [E|]; auto. rewrite E in C. unfold ppf_pm in C. pose proof (Rmult_lt_0_compat _ _ (Rlt_Rminus _ _ Q) (Rlt_Rminus _ _ CC)). lra.
  Qed.

  Lemma ppf_cdf : forall m p, ele lb m -> ele m (Fin ub) -> cdf m = Ok p -> ppf p = Ok m.
  Proof.
    intros m p L U E. destruct cdf_statement as (R & _ & _ & MON).
    destruct (R m L U) as (p' & E' & P). assert (p' = p) as -> by congruence.
    destruct (ppf_statement p P) as (m' & F & L' & U' & E2 & _ & _). rewrite F. f_equal.
    assert (EQ : m' = m \/ elt m' m \/ elt m m').
    { destruct m', m; simpl; auto. destruct (Rtotal_order r r0) as [C|[C|C]]; auto. left; now subst. }
    destruct EQ as [|[C|C]]; auto; exfalso.
    - pose proof (MON _ _ _ _ L' C U E2 E). lra.
    - pose proof (MON _ _ _ _ L C U' E E2). lra.
  Qed.

  Lemma ppf_monotone : forall p q m m', 0 <= p -> p < q -> q <= 1 -> ppf p = Ok m -> ppf q = Ok m' -> elt m m'.
  Proof.
    intros p q m m' P PQ Q E E'. destruct cdf_statement as (_ & _ & _ & MON).
    destruct (ppf_statement p ltac:(lra)) as (x & F & L & U & C & _ & _). assert (x = m) as -> by congruence.
    destruct (ppf_statement q ltac:(lra)) as (x & F' & L' & U' & C' & _ & _). assert (x = m') as -> by congruence.
    assert (EQ : m' = m \/ elt m' m \/ elt m m').
    { destruct m', m; simpl; auto. destruct (Rtotal_order r r0) as [D|[D|D]]; auto. left; now subst. }
    destruct EQ as [->|[D|]]; auto; exfalso.
    - rewrite C in C'. injection C' as ->. lra.
    - pose proof (MON _ _ _ _ L' D U C' C). lra.
  Qed.

  (** ** The sampler *)
  Definition good_min (r : option (R * R)) : Prop :=
    match r with
    | Some (mt, mx) => ele lb (Fin mx) /\ mx < ub /\ 0 < mt < t
    | None => lb = NegInf
    end.
  Lemma wald_pars mx : mx < ub -> 0 < (b - mx) ^ 2 / (2 * t) /\ 0 < (mx - a) ^ 2 / (2 * t) /\
    0 < sqrt ((b - mx) ^ 2 / (2 * t) / ((mx - a) ^ 2 / (2 * t))).
  Proof.
    intros L. pose proof (Rmin_l a b). pose proof (Rmin_r a b).
    assert (0 < (b - mx) ^ 2) by (apply pow_lt; lra).
    assert (0 < (mx - a) ^ 2) by nra.
    assert (0 < / (2 * t)) by (apply Rinv_0_lt_compat; lra).
    assert (A : 0 < (b - mx) ^ 2 / (2 * t)) by (apply Rmult_lt_0_compat; auto).
    assert (B : 0 < (mx - a) ^ 2 / (2 * t)) by (apply Rmult_lt_0_compat; auto).
    split; auto. split; auto. apply sqrt_lt_R0. apply Rdiv_lt_0_compat; auto.
  Qed.
  Lemma div_in w : 0 < w -> 0 < t / (1 + w) < t.
  Proof.
    intros W. split; [apply Rdiv_lt_0_compat; lra|].
    apply (Rmult_lt_reg_r (1 + w)); [lra|]. unfold Rdiv. rewrite Rmult_assoc, Rinv_l by lra. nra.
  Qed.
End Statements.

Lemma brownbr_min_total G t a b lbo ubo : 0 < t -> elt (lb_default lbo) (Fin (ub_default ubo a b)) ->
  ub_default ubo a b <= Rmin a b ->
  total_if G (sample_brownbr_min t a b lbo ubo) (fun r => good_min t a b lbo ubo r).
Proof.
  intros Ht Hlu Hu. unfold sample_brownbr_min.
  set (l := lb_default lbo) in *. set (u := ub_default ubo a b) in *.
  eapply total_bind; [apply (total_assert G _ (fun _ => True)); [now apply Rltb_true|exact I]|]. intros _ _.
  eapply total_bind; [apply (total_assert G _ (fun _ => True)); [apply (bounds_ok_true a b lbo ubo); auto|exact I]|]. intros _ _.
  eapply total_bind; [apply total_draw_r|]. intros p (w & W & EW). assert (P : 0 <= p < 1) by lra.
  destruct (ppf_statement t a b (Some l) (Some u) Ht Hlu Hu p ltac:(lra)) as (m & E & L & U & C & _ & I1).
  rewrite E. eapply total_bind with (Q := fun e => e = m); [intros o k V GG; reflexivity|].
  intros e ->. specialize (I1 ltac:(lra)). destruct m as [|mx|]; try contradiction.
  - eapply total_bind; [apply total_draw_r|]. intros _ _. eapply total_bind; [apply total_draw_r|]. intros _ _.
    apply total_ret. simpl. simpl in L. fold l. destruct l; simpl in *; tauto.
  - simpl in I1. change (Rlt mx u) in I1.
    destruct (wald_pars t a b ubo Ht Hu mx I1) as (P1 & P2 & P3).
    set (par1 := (b - mx) ^ 2 / (2 * t)) in *. set (par2 := (mx - a) ^ 2 / (2 * t)) in *. set (par3 := sqrt (par1 / par2)) in *.
    eapply total_bind; [apply total_draw_r|]. intros v _.
    destruct (Rltb v (1 / (1 + par3))); (eapply total_bind; [apply total_draw_r|]); intros x X; simpl in X; apply total_ret; simpl;
      (split; [exact L|]); (split; [exact I1|]); apply div_in; auto.
    + apply X; lra.
    + specialize (X (Rdiv_lt_0_compat 1 par3 ltac:(lra) P3) ltac:(lra)). now apply Rdiv_lt_0_compat; [lra|].
Qed.
