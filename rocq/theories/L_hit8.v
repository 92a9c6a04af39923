(** Layers: edges, the sampled layer, anchor sectors and edge refinement. *)
From Coq Require Import Reals List Bool Arith Lia Lra Psatz.
From Verif Require Import Base Rng L_rng M_hit SpecHit L_hit L_hit2 L_hit3 L_hit4 L_hit5 L_hit6 L_hit7.
Import ListNotations.
Local Open Scope R_scope.

Definition inv_sq (i : nat) : R := 1 / (INR i ^ 2 + 1).
Lemma inv_sq_range i : (1 <= i)%nat -> 0 < inv_sq i < 1.
Proof.
  intros H. apply le_INR in H. simpl in H. unfold inv_sq. assert (0 < INR i ^ 2) by (apply pow_lt; lra).
  split; [apply Rdiv_lt_0_compat; lra|]. apply (Rmult_lt_reg_r (INR i ^ 2 + 1)); [lra|]. unfold Rdiv. rewrite Rmult_assoc, Rinv_l; lra.
Qed.
Lemma inv_sq_decr i j : (i < j)%nat -> inv_sq j < inv_sq i.
Proof.
  intros H. apply lt_INR in H. pose proof (pos_INR i). unfold inv_sq, Rdiv. rewrite !Rmult_1_l. apply Rinv_lt_contravar; [|nra].
  apply Rmult_lt_0_compat; nra.
Qed.
Lemma inv_sq_small e : 0 < e -> exists N, forall i, (N <= i)%nat -> inv_sq i < e.
Proof.
  intros E. destruct (archimed_cor1 e E) as (N & H1 & H2). exists N. intros i Hi. eapply Rle_lt_trans; [|exact H1].
  assert (1 <= INR N) by (apply (le_INR 1); lia). apply le_INR in Hi. unfold inv_sq, Rdiv. rewrite Rmult_1_l. apply Rinv_le_contravar; nra.
Qed.

Lemma cdf_reach t a b l x : 0 < t -> elt l (Fin (Rmin a b)) -> ele x (Fin (Rmin a b)) ->
  cdf_brownbr_min x t a b (Some l) None = Ok (reach_given t a b x l).
Proof.
  intros Ht L X. rewrite cdf_value by (auto; apply Rle_refl). unfold reach_given. simpl lb_default. simpl ub_default.
  assert (R : forall e, ele e (Fin (Rmin a b)) -> pm_brownbr e t a b = reach t a b e).
  { intros [|e|] H; simpl in H; [reflexivity| |contradiction]. rewrite pm_exp by auto. unfold quad. simpl. f_equal. field. lra. }
  rewrite pm_ge by lra. rewrite !R; auto. now apply elt_le.
Qed.
Lemma reach_shift t a b m x : 0 < t -> reach t (m - a) (m - b) (esub_from m x) = reach t a b x.
Proof. intros Ht. destruct x; simpl; auto. f_equal. field. lra. Qed.
Lemma reach_flip t a b x : 0 < t -> reach t (- b) (- a) (eopp x) = reach t a b x.
Proof. intros Ht. destruct x; simpl; auto. f_equal. field. lra. Qed.

Section Edges.
  Variables (t a b : R) (lb ub : ext).
  Hypothesis (Ht : 0 < t) (Hlb : elt lb (Fin (Rmin a b))) (Hub : elt (Fin (Rmax a b)) ub).
  Let mir := (a + b) / 2.
  Let mlb := esub_from mir ub.
  Lemma mir_min : Rmin (mir - a) (mir - b) = mir - Rmax a b.
  Proof. unfold mir, Rmin, Rmax. destruct (Rle_dec _ _), (Rle_dec _ _); lra. Qed.
  Lemma mlb_lt : elt mlb (Fin (Rmin (mir - a) (mir - b))).
  Proof. rewrite mir_min. unfold mlb. destruct ub; simpl in *; auto. lra. Qed.
  Lemma edge_val i : (1 <= i)%nat -> exists le m, compute_edges i t a b lb ub = Ok (Fin le, Fin (mir - m)) /\
    ppf_brownbr_min (inv_sq i) t a b (Some lb) None = Ok (Fin le) /\ elt lb (Fin le) /\ le < Rmin a b /\
    ppf_brownbr_min (inv_sq i) t (mir - a) (mir - b) (Some mlb) None = Ok (Fin m) /\ elt mlb (Fin m) /\ m < mir - Rmax a b.
  Proof.
    intros Hi. pose proof (inv_sq_range i Hi) as P.
    destruct (ppf_statement t a b (Some lb) None Ht Hlb (Rle_refl _) (inv_sq i) ltac:(lra)) as (x & E & _ & _ & _ & L & U).
    specialize (L ltac:(lra)). specialize (U ltac:(lra)).
    destruct (ppf_statement t (mir - a) (mir - b) (Some mlb) None Ht mlb_lt (Rle_refl _) (inv_sq i) ltac:(lra)) as (y & E' & _ & _ & _ & L' & U').
    specialize (L' ltac:(lra)). specialize (U' ltac:(lra)).
    destruct x as [|le|]; simpl in U; try contradiction. { simpl in L. destruct lb; contradiction. }
    destruct y as [|m|]; simpl in U'; try contradiction. { simpl in L'. destruct mlb; contradiction. }
    exists le, m. rewrite mir_min in U'. split; [|auto 10].
    unfold compute_edges. rewrite (proj2 (Rltb_true _ _) Ht).
    assert (B1 : eltb lb (Fin (Rmin a b)) = true). { destruct lb; simpl in *; auto; try contradiction. now apply Rltb_true. }
    assert (B2 : eltb (Fin (Rmax a b)) ub = true). { destruct ub; simpl in *; auto; try contradiction. now apply Rltb_true. }
    rewrite B1, B2. simpl negb. cbv iota. destruct i; [lia|]. cbv zeta. fold mir. fold (inv_sq (S i)). rewrite E. cbn [rbind]. fold mlb. rewrite E'. reflexivity.
  Qed.
  Lemma edge_zero : compute_edges 0 t a b lb ub = Ok (Fin (Rmin a b), Fin (Rmax a b)).
  Proof.
    unfold compute_edges. rewrite (proj2 (Rltb_true _ _) Ht).
    assert (B1 : eltb lb (Fin (Rmin a b)) = true). { destruct lb; simpl in *; auto; try contradiction. now apply Rltb_true. }
    assert (B2 : eltb (Fin (Rmax a b)) ub = true). { destruct ub; simpl in *; auto; try contradiction. now apply Rltb_true. }
    now rewrite B1, B2.
  Qed.
  Lemma esub_lt m : elt mlb (Fin m) -> elt (Fin (mir - m)) ub.
  Proof. unfold mlb. destruct ub; simpl; auto. intros; lra. Qed.
  Lemma lt_esub m : elt (Fin m) ub -> elt mlb (Fin (mir - m)).
  Proof. unfold mlb. destruct ub; simpl; auto. intros; lra. Qed.
  Lemma edges_inside i : exists le ue, compute_edges i t a b lb ub = Ok (Fin le, Fin ue) /\ elt lb (Fin le) /\ elt (Fin ue) ub /\
    le <= Rmin a b /\ Rmax a b <= ue /\ ((1 <= i)%nat -> le < Rmin a b /\ Rmax a b < ue).
  Proof.
    destruct i as [|i].
    - exists (Rmin a b), (Rmax a b). rewrite edge_zero. repeat split; auto; try lra; intros; lia.
    - destruct (edge_val (S i)) as (le & m & E & _ & L & U & _ & L' & U'); [lia|]. exists le, (mir - m).
      split; auto. split; auto. split; [now apply esub_lt|]. repeat split; lra.
  Qed.
  Lemma edges_quantile i le ue : (1 <= i)%nat -> compute_edges i t a b lb ub = Ok (Fin le, Fin ue) ->
    reach_given t a b (Fin le) lb = 1 / (INR i ^ 2 + 1) /\ reach_given t a b (Fin ue) ub = 1 / (INR i ^ 2 + 1).
  Proof.
    intros Hi E. change (1 / (INR i ^ 2 + 1)) with (inv_sq i). destruct (edge_val i Hi) as (x & m & E' & P & _ & U & P' & _ & U'). rewrite E' in E. injection E as <- <-.
    pose proof (inv_sq_range i Hi) as IR.
    destruct (ppf_statement t a b (Some lb) None Ht Hlb (Rle_refl _) (inv_sq i) ltac:(lra)) as (x' & Q & _ & _ & C & _ & _).
    destruct (ppf_statement t (mir - a) (mir - b) (Some mlb) None Ht mlb_lt (Rle_refl _) (inv_sq i) ltac:(lra)) as (m' & Q' & _ & _ & C' & _ & _).
    rewrite P in Q. injection Q as <-. rewrite P' in Q'. injection Q' as <-.
    rewrite cdf_reach in C, C'; auto; try apply mlb_lt; try (rewrite mir_min); simpl; try lra.
    injection C as C. injection C' as C'. split; [exact C|].
    rewrite <- C'. unfold reach_given. unfold mlb. rewrite reach_shift by auto.
    replace (Fin m) with (esub_from mir (Fin (mir - m))) by (simpl; f_equal; ring). now rewrite reach_shift.
  Qed.
  Lemma edges_nested i j le ue le' ue' : (i < j)%nat -> compute_edges i t a b lb ub = Ok (Fin le, Fin ue) ->
    compute_edges j t a b lb ub = Ok (Fin le', Fin ue') -> le' < le /\ ue < ue'.
  Proof.
    intros Hij Ei Ej. destruct (edge_val j) as (x & m & E & P & _ & U & P' & _ & U'); [lia|].
    rewrite E in Ej. injection Ej as <- <-. destruct i as [|i].
    - rewrite edge_zero in Ei. injection Ei as <- <-. lra.
    - destruct (edge_val (S i)) as (y & m' & E2 & Q & _ & _ & Q' & _ & _); [lia|]. rewrite E2 in Ei. injection Ei as <- <-.
      pose proof (inv_sq_decr (S i) j Hij). pose proof (inv_sq_range (S i) ltac:(lia)). pose proof (inv_sq_range j ltac:(lia)).
      pose proof (ppf_monotone t a b (Some lb) None Ht Hlb (Rle_refl _) (inv_sq j) (inv_sq (S i)) _ _ ltac:(lra) ltac:(lra) ltac:(lra) P Q) as M1.
      pose proof (ppf_monotone t (mir - a) (mir - b) (Some mlb) None Ht mlb_lt (Rle_refl _) (inv_sq j) (inv_sq (S i)) _ _ ltac:(lra) ltac:(lra) ltac:(lra) P' Q') as M2.
      simpl in M1, M2. lra.
  Qed.
  (** below any level above the lower bound, above any level below the upper bound *)
  Lemma edges_exhaust x y : elt lb (Fin x) -> elt (Fin y) ub -> exists N, forall i le ue, (N <= i)%nat ->
    compute_edges i t a b lb ub = Ok (Fin le, Fin ue) -> le < x /\ y < ue.
  Proof.
    assert (X : forall aa bb l z, elt l (Fin (Rmin aa bb)) -> elt l (Fin z) -> exists N, forall i m, (N <= i)%nat -> (1 <= i)%nat ->
      ppf_brownbr_min (inv_sq i) t aa bb (Some l) None = Ok (Fin m) -> m < z).
    { intros aa bb l z Hl Hz. set (z' := Rmin z (Rmin aa bb)).
      assert (Z1 : elt l (Fin z')). { unfold z', Rmin. destruct (Rle_dec _ _); auto. }
      assert (Z2 : z' <= Rmin aa bb) by apply Rmin_r. assert (Z3 : z' <= z) by apply Rmin_l.
      destruct (cdf_statement t aa bb (Some l) None Ht Hl (Rle_refl _)) as (C1 & C2 & C3 & C4).
      destruct (C1 (Fin z')) as (p & EP & P); [now apply elt_le|exact Z2|].
      assert (PP : 0 < p). { apply (C4 l (Fin z') 0 p); auto. apply ele_refl. }
      destruct (inv_sq_small p PP) as (N & HN). exists N. intros i m Hi Hi1 E.
      pose proof (ppf_cdf t aa bb (Some l) None Ht Hl (Rle_refl _) (Fin z') p ltac:(now apply elt_le) Z2 EP) as PZ.
      pose proof (inv_sq_range i Hi1).
      pose proof (ppf_monotone t aa bb (Some l) None Ht Hl (Rle_refl _) (inv_sq i) p _ _ ltac:(lra) (HN i Hi) ltac:(lra) E PZ) as M. simpl in M. lra. }
    intros Hx Hy. destruct (X a b lb x Hlb Hx) as (N1 & H1). destruct (X (mir - a) (mir - b) mlb (mir - y) mlb_lt (lt_esub _ Hy)) as (N2 & H2).
    exists (S (N1 + N2)). intros i le ue Hi E. destruct (edge_val i) as (le' & m & E' & P & _ & _ & P' & _); [lia|].
    rewrite E' in E. injection E as <- <-. specialize (H1 i le' ltac:(lia) ltac:(lia) P). specialize (H2 i m ltac:(lia) ltac:(lia) P'). lra.
  Qed.
  Lemma inside_abs le ue x : le < x < ue -> Rabs (x - (le + ue) / 2) < (ue - le) / 2.
  Proof. intros. apply Rabs_def1; lra. Qed.
  Lemma minmax : Rmin a b <= a <= Rmax a b /\ Rmin a b <= b <= Rmax a b.
  Proof. pose proof (Rmin_l a b). pose proof (Rmin_r a b). pose proof (Rmax_l a b). pose proof (Rmax_r a b). lra. Qed.
  Lemma layer_escape_exists j : (1 <= j)%nat -> exists p, layer_escape t a b lb ub j p.
  Proof.
    intros J. destruct (edges_inside j) as (le & ue & E & _ & _ & _ & _ & S1). specialize (S1 J). pose proof minmax.
    destruct (brown_brackets t (a - (le + ue) / 2) (b - (le + ue) / 2) ((ue - le) / 2) Ht) as (p & CV & _); try (apply inside_abs; lra).
    exists p, le, ue. split; auto. apply brown_limit; auto; apply inside_abs; lra.
  Qed.
  Lemma layer_loop_ok fuel u : 0 <= u <= 1 -> forall n l, (1 <= l)%nat ->
    (forall j p, (1 <= j < l)%nat -> layer_escape t a b lb ub j p -> u < p) ->
    safe (layer_loop fuel n l t a b lb ub u) (fun r => (1 <= r)%nat /\ (forall j p, (1 <= j < r)%nat -> layer_escape t a b lb ub j p -> u < p) /\ (forall p, layer_escape t a b lb ub r p -> p <= u)).
  Proof.
    intros Hu. induction n as [|n IH]; intros l L PRE; cbn [layer_loop].
    - intros o k V. exact I.
    - destruct (edges_inside l) as (le & ue & E & _ & _ & _ & _ & S1). specialize (S1 L). pose proof minmax as MM. rewrite E.
      destruct (layer_escape_exists l L) as (p & P). destruct P as (le' & ue' & E' & P). rewrite E in E'. injection E' as <- <-.
      assert (UQ : forall q, layer_escape t a b lb ub l q -> q = p).
      { intros q (le' & ue' & E' & Q). rewrite E in E'. injection E' as <- <-. apply brown_limit in P, Q; auto; try (apply inside_abs; lra). eapply cv_unique; eauto. }
      intros o k V. unfold bind at 1. unfold lift at 1.
      pose proof (brown_decides fuel t (a - (le + ue) / 2) (b - (le + ue) / 2) ((ue - le) / 2) u p Ht ltac:(apply inside_abs; lra) ltac:(apply inside_abs; lra) Hu P o k V) as D.
      cbv beta in D. unfold bind. destruct (sample_brownbr_esc _ _ _ _ _ _ _ o k) as [[r|e|] k']; simpl in D |- *; auto.
      destruct r.
      + apply IH; auto. intros j q J Q. destruct (Nat.eq_dec j l) as [->|]; [|apply (PRE j q); auto; lia]. rewrite (UQ q Q). now apply D.
      + simpl. split; auto. split; [intros j q J Q; now apply (PRE j q)|]. intros q Q. rewrite (UQ q Q). apply Rnot_lt_le. intros C. apply D in C. discriminate.
  Qed.
End Edges.

Lemma layer_reject_ok fuel n t a b l v : 0 < t -> l < Rmin a b -> Rmax a b < v ->
  holds_if anyo (layer_reject fuel n t a b l v) (outcome (fun u => 0 <= u < 1 /\ seed_keeps t a b (Fin l) (Fin v) u) (fun e => e = BudgetConstraintError)).
Proof.
  intros Ht L U. pose proof (minmax a b) as MM. induction n as [|n IH]; cbn [layer_reject].
  - intros o k V G. reflexivity.
  - eapply holds_bind; [apply total_outcome, total_draw_r|]. intros u (w & W & EU). assert (0 <= u < 1) by lra.
    intros o k V G. unfold bind.
    destruct (brown_brackets t (a - (l + v) / 2) (b - (l + v) / 2) ((v - l) / 2) Ht) as (p & CV & _); try (apply inside_abs; lra).
    assert (P : brown_escape t (a - (l + v) / 2) (b - (l + v) / 2) ((v - l) / 2) p) by (apply brown_limit; auto; apply inside_abs; lra).
    pose proof (brown_decides fuel t (a - (l + v) / 2) (b - (l + v) / 2) ((v - l) / 2) u p Ht ltac:(apply inside_abs; lra) ltac:(apply inside_abs; lra) ltac:(lra) P o k V) as D.
    cbv beta in D. destruct (sample_brownbr_esc _ _ _ _ _ _ _ o k) as [[r|e|] k']; simpl in D |- *; auto; try contradiction.
    destruct r; [now apply IH|]. simpl. split; auto. intros q Q. apply brown_limit in Q; auto; try (apply inside_abs; lra). rewrite (cv_unique _ _ _ Q CV).
    apply Rnot_lt_le. intros C. apply D in C. discriminate.
Qed.
Lemma one_sided t a b l : 0 < t -> l < Rmin a b -> exists c, cdf_brownbr_min (Fin l) t a b None None = Ok c /\ 0 < c < 1 /\ c = exp (- (2 * (a - l) * (b - l) / t)).
Proof.
  intros Ht L. rewrite cdf_value by (auto; simpl; auto; lra). eexists; split; [reflexivity|]. simpl.
  rewrite (proj2 (Rltb_true _ _) L), (proj2 (Rltb_false (Rmin a b) (Rmin a b))) by lra.
  replace (-2 * (a - l) * (b - l) / t) with (- (2 * (a - l) * (b - l) / t)) by (field; lra). pose proof (Rmin_l a b). pose proof (Rmin_r a b).
  set (x := exp _). assert (0 < x) by apply exp_pos.
  assert (x < exp 0). { apply exp_increasing. assert (0 < 2 * (a - l) * (b - l) / t); [|lra]. apply Rdiv_lt_0_compat; auto. apply Rmult_lt_0_compat; lra. }
  rewrite exp_0 in *. replace ((x - 0) / (1 - 0)) with x by field. split; auto; lra.
Qed.
Lemma total_uniform c G : 0 <= c < 1 -> total_if G (draw_r (DUniform c 1)) (fun u => c <= u < 1).
Proof. intros C o k V GG. destruct (proj1 V k (DUniform c 1)) as (w & W & E). simpl. rewrite E. nra. Qed.
Lemma layer_seed_ok fuel n t a b lb ub : 0 < t -> elt lb (Fin (Rmin a b)) -> elt (Fin (Rmax a b)) ub ->
  holds_if anyo (layer_seed fuel n t a b lb ub) (outcome (fun u => 0 <= u < 1 /\ seed_keeps t a b lb ub u) (fun e => e = BudgetConstraintError)).
Proof.
  intros Ht L U. unfold layer_seed. destruct lb as [|l|], ub as [|v|]; simpl in L, U; try contradiction.
  - assert (RM : Rmin (- b) (- a) = - Rmax a b). { unfold Rmin, Rmax. destruct (Rle_dec _ _), (Rle_dec _ _); lra. }
    destruct (one_sided t (- b) (- a) (- v) Ht ltac:(lra)) as (c & -> & C & E).
    eapply holds_bind with (Q := fun x => x = c); [intros o k V G; reflexivity|]. intros x ->.
    eapply total_outcome. eapply total_weaken; [apply total_uniform; lra|]. intros u Hu. cbv beta. split; [lra|].
    simpl. replace (2 * (a - v) * (b - v) / t) with (2 * (- b - - v) * (- a - - v) / t) by (field; lra). lra.
  - apply total_outcome. eapply total_weaken; [apply total_uniform; lra|]. intros u Hu. cbv beta. split; [lra|]. exact I.
  - now apply layer_reject_ok.
  - destruct (one_sided t a b l Ht L) as (c & -> & C & E).
    eapply holds_bind with (Q := fun x => x = c); [intros o k V G; reflexivity|]. intros x ->.
    eapply total_outcome. eapply total_weaken; [apply total_uniform; lra|]. intros u Hu. cbv beta. split; [lra|]. simpl. lra.
Qed.
Lemma sample_layer_ok fuel n t a b lb ub : 0 < t -> elt lb (Fin (Rmin a b)) -> elt (Fin (Rmax a b)) ub ->
  holds_if anyo (sample_layer fuel n t a b lb ub) (outcome (layer_choice t a b lb ub) (fun e => e = BudgetConstraintError)).
Proof.
  intros Ht L U. unfold sample_layer.
  eapply holds_bind; [apply total_outcome, (total_assert _ _ (fun _ => True)); [now apply Rltb_true|exact I]|]. intros _ _.
  eapply holds_bind; [now apply layer_seed_ok|]. intros u [Hu SK].
  eapply safe_outcome. intros o k V. pose proof (layer_loop_ok t a b lb ub Ht L U fuel u ltac:(lra) fuel 1 ltac:(lia) ltac:(intros; lia) o k V) as X.
  cbv beta in X |- *. destruct (fst _); auto. destruct X as (X1 & X2 & X3). split; auto. exists u; auto.
Qed.

Lemma cdf_inner t a b l x : 0 < t -> l < x -> x <= Rmin a b -> exists p, cdf_brownbr_min (Fin x) t a b (Some (Fin l)) None = Ok p /\ 0 < p <= 1 /\ p = reach_given t a b (Fin x) (Fin l).
Proof.
  intros Ht L X. destruct (cdf_statement t a b (Some (Fin l)) None Ht) as (C1 & C2 & C3 & C4); [simpl; lra|apply Rle_refl|].
  destruct (C1 (Fin x)) as (p & E & P); [simpl; lra|exact X|]. exists p. split; auto. split.
  - split; [|lra]. apply (C4 (Fin l) (Fin x) 0 p); auto. apply Rle_refl.
  - rewrite cdf_reach in E; auto; simpl; try lra. now injection E.
Qed.
Lemma sample_anchor_ok fuel n t a b lb ub : 0 < t -> elt lb (Fin (Rmin a b)) -> elt (Fin (Rmax a b)) ub ->
  holds_if anyo (sample_anchor fuel n t a b lb ub) (outcome (fun r => exists l le ue le' ue' low p u,
      r = (low, (Fin le, Fin le'), (Fin ue', Fin ue)) /\ layer_choice t a b lb ub l /\
      compute_edges l t a b lb ub = Ok (Fin le, Fin ue) /\ compute_edges (l - 1) t a b lb ub = Ok (Fin le', Fin ue') /\
      elt lb (Fin le) /\ le < le' /\ le' <= Rmin a b /\ Rmax a b <= ue' /\ ue' < ue /\ elt (Fin ue) ub /\
      0 < p < 1 /\ 0 <= u < 1 /\ low = Rltb u p /\
      p = reach_given t a b (Fin le') (Fin le) / (reach_given t a b (Fin le') (Fin le) + reach_given t a b (Fin ue') (Fin ue))) (fun e => e = BudgetConstraintError)).
Proof.
  intros Ht L U. unfold sample_anchor.
  eapply holds_bind; [apply total_outcome, (total_assert _ _ (fun _ => True)); [now apply Rltb_true|exact I]|]. intros _ _.
  eapply holds_bind; [now apply sample_layer_ok|]. intros l LC. destruct LC as [L1 LC].
  destruct (edges_inside t a b lb ub Ht L U l) as (le & ue & E & B1 & B2 & _ & _ & S1). specialize (S1 L1).
  destruct (edges_inside t a b lb ub Ht L U (l - 1)) as (le' & ue' & E' & _ & _ & B5 & B6 & _).
  destruct (edges_nested t a b lb ub Ht L U (l - 1) l le' ue' le ue ltac:(lia) E' E) as [N1 N2].
  rewrite E, E'.
  eapply holds_bind with (Q := fun x => x = (Fin le, Fin ue)); [intros o k V G; reflexivity|]. intros x ->.
  eapply holds_bind with (Q := fun x => x = (Fin le', Fin ue')); [intros o k V G; reflexivity|]. intros x ->.
  cbv zeta. cbn [fst snd eopp].
  assert (RM : Rmin (- b) (- a) = - Rmax a b). { unfold Rmin, Rmax. destruct (Rle_dec _ _), (Rle_dec _ _); lra. }
  destruct (cdf_inner t a b le le' Ht N1 B5) as (p1 & E1 & P1 & F1).
  destruct (cdf_inner t (- b) (- a) (- ue) (- ue') Ht ltac:(lra) ltac:(lra)) as (p2 & E2 & P2 & F2). rewrite E1, E2.
  eapply holds_bind with (Q := fun x => x = p1); [intros o k V G; reflexivity|]. intros x ->.
  eapply holds_bind with (Q := fun x => x = p2); [intros o k V G; reflexivity|]. intros x ->.
  eapply holds_bind; [apply total_outcome, (total_uniform 0); lra|]. intros u Hu.
  intros o k V G. simpl. exists l, le, ue, le', ue', (Rltb u (p1 / (p1 + p2))), (p1 / (p1 + p2)), u. split; auto. split; [split; auto|].
  assert (0 < p1 / (p1 + p2) < 1).
  { split; [apply Rdiv_lt_0_compat; lra|]. apply (Rmult_lt_reg_r (p1 + p2)); [lra|]. unfold Rdiv. rewrite Rmult_assoc, Rinv_l; lra. }
  assert (F3 : p2 = reach_given t a b (Fin ue') (Fin ue)).
  { rewrite F2. unfold reach_given. now rewrite <- (reach_flip t a b (Fin ue')), <- (reach_flip t a b (Fin ue)) by auto. }
  rewrite <- F1, <- F3. repeat split; auto; lra.
Qed.

(** ** Refinement of the edges *)
Lemma bessel_bounded_safe fuel t b K u : 0 < t -> 0 < b -> b < u ->
  safe (sample_bessel3br_esc fuel t 0 b K (Some u) None) (fun r => (K <= b -> r = true) /\ (b < K -> u < K -> r = false)).
Proof.
  intros Ht Hb HU o k V.
  set (sd := ora_r o k (DUniform 0 1)). assert (S1 : 0 <= sd < 1). { unfold sd. destruct (proj1 V k (DUniform 0 1)) as (w & W & ->). lra. }
  change (sample_bessel3br_esc fuel t 0 b K (Some u) None o k) with (sample_bessel3br_esc fuel t 0 b K (Some u) (Some sd) o (S k)).
  cbv beta iota delta [sample_bessel3br_esc get_seed bind ret].
  rewrite (proj2 (Rltb_true _ _) Ht), (proj2 (Rleb_true 0 0)), (proj2 (Rltb_true _ _) Hb), (seed_ok sd) by lra.
  replace (Rmax 0 b) with b by (symmetry; apply Rmax_right; lra). simpl assert_. cbv iota beta delta [ret].
  destruct (Rleb_dec K b) as [[E ->]|[E ->]]; [simpl; split; auto; intros; lra|].
  destruct (Rltb_dec u K) as [[E2 ->]|[E2 ->]]; [simpl; split; auto; intros; lra|].
  rewrite (proj2 (Rltb_true 0 K)), (proj2 (Rltb_true 0 u)) by lra. simpl assert_. cbv iota beta delta [ret].
  assert (X : forall i kk, match fst (@lift bool (esc_loop (series_bessel3br_esc t 0 b K (Some u)) fuel i sd) o kk) with Ok r => (K <= b -> r = true) /\ (b < K -> u < K -> r = false) | Raise _ => False | NoFuel => True end).
  { intros i kk. simpl. destruct (esc_loop _ _ _ _) eqn:EE; auto; [split; intros; lra|]. eapply esc_loop_noraise; eauto. }
  destruct (Rltb t (3 * K ^ 2)); [apply X|]. unfold lift at 1. destruct (ff_loop _ _ _) eqn:EE; [apply X|eapply ff_noraise; eauto|exact I].
Qed.
Lemma edges_loop_ok fuel mp n t a b li ui ls us : 0 < t -> li < ui -> ui <= Rmin a b -> Rmax a b < us ->
  holds_if uniform_pos (edges_loop fuel mp n t a b li ui ls us) (outcome (fun r => exists mt mx fl, r = Some (mt, mx, ls, us, fl) /\
     0 < mt < t /\ li < mx < ui /\ (fl = None <-> Rmin a b = ui \/ Rmin a b = ls) /\
     (forall e1 e2, fl = Some (e1, e2) -> (ls <= a -> e1 = true) /\ (ls <= b -> e2 = true) /\ (us < ls -> e1 = false /\ e2 = false))) (fun e => e = BudgetConstraintError)).
Proof.
  intros Ht H1 H2 H3. induction n as [|n IH]; cbn [edges_loop]; [intros o k V G; reflexivity|].
  eapply holds_bind; [apply layer_min_ok; simpl; auto; lra|]. intros m [(mt & mx & -> & P1 & P2 & P3) _]. simpl in P1, P2.
  destruct (Reqb_dec (Rmin a b) ui) as [[E ->]|[E ->]]; [|destruct (Reqb_dec (Rmin a b) ls) as [[E' ->]|[E' ->]]].
  1,2: intros o k V G; simpl; exists mt, mx, None; split; [reflexivity|split; [lra|split; [lra|split; [tauto|intros; discriminate]]]].
  simpl orb. cbv iota. pose proof (minmax a b) as MM.
  eapply holds_bind; [apply safe_outcome, bessel_bounded_safe; lra|]. intros e1 [E11 E12].
  eapply holds_bind; [apply safe_outcome, bessel_bounded_safe; lra|]. intros e2 [E21 E22].
  assert (FIN : exists mt' mx' fl, Some (mt, mx, ls, us, Some (e1, e2)) = Some (mt', mx', ls, us, fl) /\ 0 < mt' < t /\ li < mx' < ui /\ (fl = None <-> Rmin a b = ui \/ Rmin a b = ls) /\
     (forall e1 e2, fl = Some (e1, e2) -> (ls <= a -> e1 = true) /\ (ls <= b -> e2 = true) /\ (us < ls -> e1 = false /\ e2 = false))).
  { exists mt, mx, (Some (e1, e2)). split; auto. split; auto. split; auto. split; [split; [discriminate|tauto]|].
    intros x y Q. injection Q as <- <-. split; [intros; apply E11; lra|]. split; [intros; apply E21; lra|]. intros. split; [apply E12|apply E22]; lra. }
  destruct (negb e1 && negb e2)%bool; [intros o k V G; exact FIN|].
  eapply holds_bind; [apply total_outcome, total_draw_r|]. intros v _. destruct (Rltb (1 / 2) v); [intros o k V G; exact FIN|exact IH].
Qed.
Lemma sample_edges_ok fuel mp n t a b li ui ls us : 0 < t -> (0 < n)%nat -> li < ui -> ui <= Rmin a b -> Rmax a b < us ->
  holds_if uniform_pos (sample_edges fuel mp n t a b (li, ui) (ls, us)) (outcome (fun r => exists mt mx fl, r = Some (mt, mx, ls, us, fl) /\
     0 < mt < t /\ li < mx < ui /\ (fl = None <-> Rmin a b = ui \/ Rmin a b = ls) /\
     (forall e1 e2, fl = Some (e1, e2) -> (ls <= a -> e1 = true) /\ (ls <= b -> e2 = true) /\ (us < ls -> e1 = false /\ e2 = false))) (fun e => e = BudgetConstraintError)).
Proof.
  intros Ht Hn H1 H2 H3. unfold sample_edges.
  eapply holds_bind; [apply total_outcome, (total_assert _ _ (fun _ => True)); [now apply Rltb_true|exact I]|]. intros _ _.
  eapply holds_bind; [apply total_outcome, (total_assert _ _ (fun _ => True)); [now apply Nat.ltb_lt|exact I]|]. intros _ _.
  now apply edges_loop_ok.
Qed.
