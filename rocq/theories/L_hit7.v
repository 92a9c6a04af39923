(** Minimum of a layered bridge, the seeded minimum and the outer-bounded Bessel decision. *)
From Coq Require Import Reals List Bool Arith Lia Lra Psatz.
From Verif Require Import Base Rng L_rng M_hit SpecHit L_hit L_hit2 L_hit3 L_hit4 L_hit5 L_hit6.
Import ListNotations.
Local Open Scope R_scope.

(** ** Arguments outside the bounds *)
Lemma cdf_outside : exists m t a b l u p, 0 < t /\ l < u /\ u <= Rmin a b /\ m < l /\
  cdf_brownbr_min (Fin m) t a b (Some (Fin l)) (Some u) = Ok p /\ p < 0.
Proof.
  exists (-2), 1, 0, 0, (-1), 0. eexists.
  assert (MN : Rmin 0 0 = 0) by (apply Rmin_left; lra).
  split; [lra|]. split; [lra|]. split; [lra|]. split; [lra|].
  rewrite (cdf_value 1 0 0 (Some (Fin (-1))) (Some 0)); simpl; try lra. split; [reflexivity|].
  rewrite MN. rewrite (proj2 (Rltb_true (-2) 0)), (proj2 (Rltb_true (-1) 0)), (proj2 (Rltb_false 0 0)) by lra.
  set (x := exp _). set (y := exp _). assert (x < y) by (apply exp_increasing; lra).
  assert (y < exp 0) by (apply exp_increasing; lra). rewrite exp_0 in *.
  assert (0 < / (1 - y)) by (apply Rinv_0_lt_compat; lra). unfold Rdiv. nra.
Qed.

(** ** Minimum under uniform_pos *)
Lemma total_uniform_pos : total_if uniform_pos (draw_r (DUniform 0 1)) (fun u => 0 < u < 1).
Proof.
  intros o k V G. simpl. split; [apply G; lra|]. destruct (proj1 V k (DUniform 0 1)) as (w & W & ->). lra.
Qed.
Lemma brownbr_min_proper t a b lbo ubo : 0 < t -> elt (lb_default lbo) (Fin (ub_default ubo a b)) ->
  ub_default ubo a b <= Rmin a b ->
  total_if uniform_pos (sample_brownbr_min t a b lbo ubo) (proper_min t (lb_default lbo) (ub_default ubo a b)).
Proof.
  intros Ht Hlu Hu. unfold sample_brownbr_min.
  set (l := lb_default lbo) in *. set (u := ub_default ubo a b) in *.
  eapply total_bind; [apply (total_assert _ _ (fun _ => True)); [now apply Rltb_true|exact I]|]. intros _ _.
  eapply total_bind; [apply (total_assert _ _ (fun _ => True)); [apply (bounds_ok_true a b lbo ubo); auto|exact I]|]. intros _ _.
  eapply total_bind; [apply total_uniform_pos|]. intros p P.
  destruct (ppf_statement t a b (Some l) (Some u) Ht Hlu Hu p ltac:(lra)) as (m & E & L & U & C & I0 & I1).
  rewrite E. eapply total_bind with (Q := fun e => e = m); [intros o k V GG; reflexivity|].
  intros e ->. specialize (I1 ltac:(lra)). specialize (I0 ltac:(lra)). destruct m as [|mx|]; try contradiction.
  - simpl in I0. exfalso. destruct l; auto.
  - simpl in I1. change (Rlt mx u) in I1.
    destruct (wald_pars t a b ubo Ht Hu mx I1) as (P1 & P2 & P3).
    set (par1 := (b - mx) ^ 2 / (2 * t)) in *. set (par2 := (mx - a) ^ 2 / (2 * t)) in *. set (par3 := sqrt (par1 / par2)) in *.
    eapply total_bind; [apply total_draw_r|]. intros v _.
    destruct (Rltb v (1 / (1 + par3))); (eapply total_bind; [apply total_draw_r|]); intros x X; simpl in X; apply total_ret; simpl;
      eexists; exists mx; (split; [reflexivity|]); (split; [exact I0|]); (split; [exact I1|]); apply div_in; auto.
    + apply X; lra.
    + specialize (X (Rdiv_lt_0_compat 1 par3 ltac:(lra) P3) ltac:(lra)). now apply Rdiv_lt_0_compat; [lra|].
Qed.

(** ** The layered minimum *)
Lemma bessel_noraise fuel t b K : 0 < t -> 0 < b -> b <= K -> safe (sample_bessel3br_esc fuel t 0 b K None None) (fun r => K = b -> r = true).
Proof.
  intros Ht Hb HK o k V.
  set (sd := ora_r o k (DUniform 0 1)). assert (S1 : 0 <= sd < 1). { unfold sd. destruct (proj1 V k (DUniform 0 1)) as (w & W & ->). lra. }
  change (sample_bessel3br_esc fuel t 0 b K None None o k) with (sample_bessel3br_esc fuel t 0 b K None (Some sd) o (S k)).
  destruct (Req_dec K b) as [E|NE].
  - cbv beta iota delta [sample_bessel3br_esc get_seed bind ret].
    rewrite (proj2 (Rltb_true _ _) Ht), (proj2 (Rleb_true 0 0)), (proj2 (Rltb_true _ _) Hb), (seed_ok sd) by lra.
    rewrite (proj2 (Rleb_true K (Rmax 0 b))) by (rewrite E; apply Rmax_r). simpl. auto.
  - destruct (bessel_exists t 0 b K Ht ltac:(lra) Hb ltac:(lra) ltac:(lra)) as (p & P).
    pose proof (bessel_decides t 0 b K Ht ltac:(lra) Hb ltac:(lra) ltac:(lra) fuel sd p ltac:(lra) P o (S k) V) as D. cbv beta in D.
    destruct (fst _); auto; intros; contradiction.
Qed.

Lemma holds_bind {A B} G (m : M A) (f : A -> M B) (Q : A -> Prop) P E : holds_if G m (outcome Q E) ->
  (forall a, Q a -> holds_if G (f a) (outcome P E)) -> holds_if G (bind m f) (outcome P E).
Proof.
  intros H1 H2 o k V GG. specialize (H1 o k V GG). unfold bind. destruct (m o k) as [[a|e|] k']; simpl in *; auto. apply H2; auto.
Qed.
Lemma total_outcome {A} G (m : M A) Q E : total_if G m Q -> holds_if G m (outcome Q E).
Proof. intros H o k V GG. specialize (H o k V GG). cbv beta in H. unfold outcome. destruct (fst _); tauto. Qed.
Lemma safe_outcome {A} G (m : M A) Q E : safe m Q -> holds_if G m (outcome Q E).
Proof. intros H o k V GG. specialize (H o k V). cbv beta in H. unfold outcome. destruct (fst _); tauto. Qed.

Lemma layer_min_loop fuel n t a b ub lbo ubo : 0 < t -> elt (lb_default lbo) (Fin (ub_default ubo a b)) -> ub_default ubo a b <= Rmin a b ->
  (match ub with Some u => Rmax a b <= u | None => True end) ->
  holds_if uniform_pos (layerbr_min_loop fuel n t a b ub lbo ubo)
    (outcome (fun r => proper_min t (lb_default lbo) (ub_default ubo a b) r /\ ub <> Some (Rmax a b)) (fun e => e = BudgetConstraintError)).
Proof.
  intros Ht Hlu Hu Hub. induction n as [|n IH]; cbn [layerbr_min_loop].
  - intros o k V G. simpl. auto.
  - eapply holds_bind; [apply total_outcome, brownbr_min_proper; auto|]. intros r PR. destruct ub as [u|].
    + destruct PR as (mt & mx & -> & L & U & T). pose proof (Rmin_l a b). pose proof (Rmin_r a b). pose proof (Rmax_l a b). pose proof (Rmax_r a b).
      eapply holds_bind; [apply safe_outcome, bessel_noraise; lra|]. intros e1 E1.
      eapply holds_bind; [apply safe_outcome, bessel_noraise; lra|]. intros e2 E2.
      destruct e1, e2; simpl; auto. intros o k V G. simpl. split; [exists mt, mx; auto|].
      intros Q. injection Q as ->. unfold Rmax in E1, E2. destruct (Rle_dec a b).
      * specialize (E2 eq_refl). discriminate.
      * specialize (E1 eq_refl). discriminate.
    + intros o k V G. simpl. split; auto. discriminate.
Qed.
Lemma layer_min_ok fuel n t a b ub lbo ubo : 0 < t -> elt (lb_default lbo) (Fin (ub_default ubo a b)) -> ub_default ubo a b <= Rmin a b ->
  (match ub with Some u => Rmax a b <= u | None => True end) ->
  holds_if uniform_pos (sample_layerbr_min fuel n t a b ub lbo ubo)
    (fun r => match r with
      | Ok m => proper_min t (lb_default lbo) (ub_default ubo a b) m /\ ub <> Some (Rmax a b)
      | Raise e => e = BudgetConstraintError
      | NoFuel => True end).
Proof.
  intros Ht Hlu Hu Hub. unfold sample_layerbr_min.
  change (holds_if uniform_pos (do _ <- assert_ (Rltb 0 t); do _ <- assert_ (match ub with Some ub => Rleb (Rmax a b) ub | None => true end); layerbr_min_loop fuel n t a b ub lbo ubo)
    (outcome (fun r => proper_min t (lb_default lbo) (ub_default ubo a b) r /\ ub <> Some (Rmax a b)) (fun e => e = BudgetConstraintError))).
  eapply holds_bind; [apply total_outcome, (total_assert _ _ (fun _ => True)); [now apply Rltb_true|exact I]|]. intros _ _.
  eapply holds_bind; [apply total_outcome, (total_assert _ _ (fun _ => True)); [destruct ub; auto; now apply Rleb_true|exact I]|]. intros _ _.
  now apply layer_min_loop.
Qed.

(** ** The seeded minimum *)
Lemma wald_root u1 r2 mu lam : 0 < mu -> 0 < lam -> 0 < r2 ->
  let w := gen_seeded_wald u1 r2 mu lam in 0 < w /\ lam * (w - mu) ^ 2 = mu ^ 2 * r2 * w.
Proof.
  intros Hm Hl Hr. unfold gen_seeded_wald. set (D := 4 * mu * lam * r2 + mu ^ 2 * r2 ^ 2).
  assert (0 < mu * lam * r2) by (apply Rmult_lt_0_compat; auto; now apply Rmult_lt_0_compat).
  assert (0 < (mu * r2) ^ 2) by (apply pow_lt; now apply Rmult_lt_0_compat).
  assert (HD : 0 <= D) by (unfold D; nra). pose proof (sqrt_pos D) as Q0. pose proof (sqrt_sqrt D HD) as QQ.
  set (q := sqrt D) in *. set (c := mu + (mu ^ 2 * r2 - mu * q) / (2 * lam)).
  assert (C1 : 2 * lam * c = 2 * lam * mu + mu ^ 2 * r2 - mu * q) by (unfold c; field; lra).
  assert (LQ : q < 2 * lam + mu * r2).
  { apply Rsqr_incrst_0; [|lra|nra]. unfold Rsqr. rewrite QQ. unfold D. nra. }
  assert (CP : 0 < c).
  { apply (Rmult_lt_reg_l (2 * lam)); [lra|]. rewrite C1. nra. }
  assert (RT : lam * (c - mu) ^ 2 = mu ^ 2 * r2 * c).
  { apply (Rmult_eq_reg_l (4 * lam)); [|lra].
    replace (4 * lam * (lam * (c - mu) ^ 2)) with ((2 * lam * c - 2 * lam * mu) ^ 2) by ring.
    replace (4 * lam * (mu ^ 2 * r2 * c)) with (2 * mu ^ 2 * r2 * (2 * lam * c)) by ring. rewrite C1.
    replace ((2 * lam * mu + mu ^ 2 * r2 - mu * q - 2 * lam * mu) ^ 2) with (mu ^ 2 * (mu ^ 2 * r2 ^ 2 - 2 * mu * r2 * q + q * q)) by ring.
    rewrite QQ. unfold D. ring. }
  destruct (Rltb u1 (mu / (mu + c))); [split; auto|].
  split; [apply Rdiv_lt_0_compat; auto; apply pow_lt; auto|].
  apply (Rmult_eq_reg_l (c ^ 2)); [|apply Rgt_not_eq, pow_lt; auto].
  replace (c ^ 2 * (lam * (mu ^ 2 / c - mu) ^ 2)) with (mu ^ 2 * (lam * (c - mu) ^ 2)) by (field; lra).
  rewrite RT. field. lra.
Qed.
(** which of the two roots: the smaller one exactly when u1 < mu / (mu + smaller root) *)
Lemma wald_choice u1 r2 mu lam : 0 < mu -> 0 < lam -> 0 < r2 ->
  exists c d, 0 < c < mu /\ c * d = mu ^ 2 /\ (forall x, lam * (x - mu) ^ 2 = mu ^ 2 * r2 * x <-> x = c \/ x = d) /\
   gen_seeded_wald u1 r2 mu lam = if Rltb u1 (mu / (mu + c)) then c else d.
Proof.
  intros Hm Hl Hr. set (c := mu + (mu ^ 2 * r2 - mu * sqrt (4 * mu * lam * r2 + mu ^ 2 * r2 ^ 2)) / (2 * lam)).
  exists c, (mu ^ 2 / c).
  destruct (wald_root (-1) r2 mu lam Hm Hl Hr) as [W1 W2]. fold c in W1, W2 |- *.
  assert (EC : gen_seeded_wald (-1) r2 mu lam = c).
  { unfold gen_seeded_wald. fold c. destruct (Rltb_dec (-1) (mu / (mu + c))) as [[_ ->]|[N ->]]; auto.
    exfalso. assert (c <= - mu \/ 0 < mu + c) as [C|C] by lra.
    - unfold gen_seeded_wald in W1. fold c in W1. rewrite (proj2 (Rltb_false _ _) N) in W1.
      assert (/ c < 0) by (apply Rinv_lt_0_compat; lra). assert (0 < mu ^ 2) by (apply pow_lt; auto). unfold Rdiv in W1. nra.
    - pose proof (Rdiv_lt_0_compat mu (mu + c) Hm C). lra. }
  rewrite EC in W1, W2.
  assert (C1 : c < mu).
  { set (D := 4 * mu * lam * r2 + mu ^ 2 * r2 ^ 2) in *. assert (mu * r2 < sqrt D).
    { apply Rsqr_incrst_0; [|nra|apply sqrt_pos]. unfold Rsqr. assert (0 < mu * lam * r2) by (apply Rmult_lt_0_compat; auto; now apply Rmult_lt_0_compat).
      rewrite sqrt_sqrt; unfold D; nra. }
    assert (0 < / (2 * lam)) by (apply Rinv_0_lt_compat; lra). unfold c, Rdiv. assert (mu ^ 2 * r2 - mu * sqrt D < 0) by nra. nra. }
  split; [lra|]. split; [field; lra|]. split; [|reflexivity].
  intros x. split; intros X.
  - assert (F : (x - c) * (x - mu ^ 2 / c) = 0).
    { apply (Rmult_eq_reg_l lam); [|lra]. rewrite Rmult_0_r.
      assert (E1 : lam * (c + mu ^ 2 / c) = mu ^ 2 * r2 + 2 * lam * mu).
      { apply (Rmult_eq_reg_r c); [|lra]. replace (lam * (c + mu ^ 2 / c) * c) with (lam * (c - mu) ^ 2 + 2 * lam * mu * c) by (field; lra). rewrite W2. ring. }
      replace (lam * ((x - c) * (x - mu ^ 2 / c))) with (lam * x ^ 2 - x * (lam * (c + mu ^ 2 / c)) + lam * mu ^ 2) by (field; lra).
      rewrite E1. nra. }
    apply Rmult_integral in F as [F|F]; [left|right]; lra.
  - destruct X as [->| ->]; auto.
    apply (Rmult_eq_reg_l (c ^ 2)); [|apply Rgt_not_eq, pow_lt; auto].
    replace (c ^ 2 * (lam * (mu ^ 2 / c - mu) ^ 2)) with (mu ^ 2 * (lam * (c - mu) ^ 2)) by (field; lra).
    rewrite W2. field. lra.
Qed.
Lemma seeded_min u0 u1 u2 r2 t a b : 0 < u0 < 1 -> 0 < u1 < 1 -> 0 < u2 < 1 -> 0 < r2 -> 0 < t ->
  exists mt mx, gen_seeded_brownbr_min u0 u1 u2 r2 t a b = Ok (mt, mx) /\ mx < Rmin a b /\
    exp (- (2 * (a - mx) * (b - mx) / t)) = u0 /\ 0 < mt < t /\
    let A := a - mx in let B := b - mx in let mu := B / A in
    exists w, 0 < w /\ (if Rltb u2 (1 / (1 + mu)) then mt = t / (1 + w) /\ (B ^ 2 / t) * (w - mu) ^ 2 = mu ^ 2 * r2 * w
      else mt = t / (1 + 1 / w) /\ (A ^ 2 / t) * (w - 1 / mu) ^ 2 = (1 / mu) ^ 2 * r2 * w).
Proof.
  intros H0 H1 H2 Hr Ht. unfold gen_seeded_brownbr_min.
  replace (Rltb 0 (Rmin u0 (Rmin u1 u2)) && Rltb (Rmax u0 (Rmax u1 u2)) 1)%bool with true.
  2:{ symmetry. apply andb_true_intro. split; apply Rltb_true; repeat apply Rmin_glb_lt; repeat apply Rmax_lub_lt; lra. }
  rewrite (proj2 (Rltb_true _ _) Hr), (proj2 (Rltb_true _ _) Ht). simpl negb. cbv iota.
  destruct (ppf_statement t a b None None Ht I (Rle_refl _) u0 ltac:(lra)) as (m & E & L & U & C & I0 & I1).
  rewrite E. specialize (I0 ltac:(lra)). specialize (I1 ltac:(lra)). destruct m as [|mx|]; try contradiction.
  eexists; exists mx. split; [reflexivity|]. simpl in I1. change (mx < Rmin a b) in I1. split; auto.
  pose proof (Rmin_l a b). pose proof (Rmin_r a b).
  rewrite cdf_value in C by (auto; simpl; auto; lra). simpl in C. injection C as C.
  rewrite (proj2 (Rltb_true _ _) I1), (proj2 (Rltb_false (Rmin a b) (Rmin a b))) in C by lra. split.
  { rewrite <- C. replace (-2 * (a - mx) * (b - mx) / t) with (- (2 * (a - mx) * (b - mx) / t)) by (field; lra). field. }
  assert (PA : 0 < a - mx) by lra. assert (PB : 0 < b - mx) by lra.
  assert (MU : sqrt ((b - mx) ^ 2 / (2 * t) / ((mx - a) ^ 2 / (2 * t))) = (b - mx) / (a - mx)).
  { replace ((b - mx) ^ 2 / (2 * t) / ((mx - a) ^ 2 / (2 * t))) with (((b - mx) / (a - mx)) ^ 2) by (field; lra).
    rewrite <- Rsqr_pow2. apply sqrt_Rsqr. left. now apply Rdiv_lt_0_compat. }
  rewrite MU. set (mu := (b - mx) / (a - mx)). assert (PM : 0 < mu) by (now apply Rdiv_lt_0_compat).
  assert (E1 : 2 * ((b - mx) ^ 2 / (2 * t)) = (b - mx) ^ 2 / t) by (field; lra).
  assert (E2 : 2 * ((mx - a) ^ 2 / (2 * t)) = (a - mx) ^ 2 / t) by (field; lra). rewrite E1, E2.
  assert (Q1 : 0 < (b - mx) ^ 2 / t) by (apply Rdiv_lt_0_compat; auto; apply pow_lt; auto).
  assert (Q2 : 0 < (a - mx) ^ 2 / t) by (apply Rdiv_lt_0_compat; auto; apply pow_lt; auto).
  cbv zeta. fold mu. destruct (Rltb u2 (1 / (1 + mu))).
  - destruct (wald_root u1 r2 mu ((b - mx) ^ 2 / t) PM Q1 Hr) as [W1 W2]. split; [now apply div_in|].
    eexists; split; [exact W1|]. split; auto.
  - assert (PM' : 0 < 1 / mu) by (apply Rdiv_lt_0_compat; lra).
    destruct (wald_root u1 r2 (1 / mu) ((a - mx) ^ 2 / t) PM' Q2 Hr) as [W1 W2]. split; [apply div_in; auto; apply Rdiv_lt_0_compat; lra|].
    eexists; split; [exact W1|]. split; auto.
Qed.
