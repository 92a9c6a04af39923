(** Concrete pieces under the Ornstein-Uhlenbeck models. *)
From Coquelicot Require Import Rcomplements Hierarchy Continuity RInt ElemFct.
From Coq Require Import Reals List Bool Arith ZArith Lia Lra Psatz.
From Verif Require Import Base Np Rng M_hit M_path M_skel M_seed SpecSkel SpecSeed M_models SpecModels M_sw SpecCan SpecLaw SpecEst SpecExact SpecExact2 L_law L_law4 L_law7 L_law5 L_exact L_exact2 L_exact3 L_exact5 L_models3 L_exact12 SpecExact3.
Import ListNotations.
Local Open Scope R_scope.

Lemma above_integral : forall (f : R -> R) (h c : R), 0 <= c <= 1 -> (forall u, 0 < u < 1 -> u < c -> h < f u) -> (forall u, 0 < u < 1 -> c < u -> f u <= h) ->
  is_RInt (fun u => ind (negb (Rltb h (f u)))) 0 1 (1 * (1 - c)).
Proof.
  intros f h c Hc A B. apply (rint_split _ 0 c 1 ((c - 0) * 0) ((1 - c) * 1)); [ring| |].
  - refine (is_RInt_ext (fun _ => 0) _ _ _ _ _ (is_RInt_const 0 c 0)). rewrite Rmin_left, Rmax_right by lra. intros u Hu.
    destruct (Rltb_dec h (f u)) as [[X ->]|[X _]]; [reflexivity|]. specialize (A u ltac:(lra) ltac:(lra)). lra.
  - refine (is_RInt_ext (fun _ => 1) _ _ _ _ _ (is_RInt_const c 1 1)). rewrite Rmin_left, Rmax_right by lra. intros u Hu.
    destruct (Rltb_dec h (f u)) as [[X _]|[X ->]]; [|reflexivity]. specialize (B u ltac:(lra) ltac:(lra)). lra.
Qed.
(** functions whose level sets are initial or final intervals *)
Lemma up_levels : forall f c : R -> R, (forall h, continuous c h) -> (forall h u, 0 <= h -> 0 < u < 1 -> (f u <= h <-> u <= c h)) -> levels f 1.
Proof.
  intros f c HC HF. exists (fun h => clamp (c h)). split; [intros h; apply (continuous_comp c clamp); [apply HC|apply clamp_continuous]|].
  intros h Hh. apply below_integral; [apply clamp_range| |]; intros u Hu Hc.
  - apply HF; auto. destruct (clamp_cases (c h)) as [[C E]|[[C E]|[C E]]]; rewrite E in Hc; lra.
  - apply Rnot_le_lt. intros X. apply HF in X; auto. destruct (clamp_cases (c h)) as [[C E]|[[C E]|[C E]]]; rewrite E in Hc; lra.
Qed.
Lemma down_levels : forall f c : R -> R, (forall h, continuous c h) -> (forall h u, 0 <= h -> 0 < u < 1 -> (f u <= h <-> c h <= u)) -> levels f 1.
Proof.
  intros f c HC HF. exists (fun h => 1 - clamp (c h)). split.
  - intros h. apply (continuous_minus (fun _ => 1) (fun h => clamp (c h))); [apply continuous_const|]. apply (continuous_comp c clamp); [apply HC|apply clamp_continuous].
  - intros h Hh. apply above_integral; [apply clamp_range| |]; intros u Hu Hc.
    + apply Rnot_le_lt. intros X. apply HF in X; auto. destruct (clamp_cases (c h)) as [[C E]|[[C E]|[C E]]]; rewrite E in Hc; lra.
    + apply HF; auto. destruct (clamp_cases (c h)) as [[C E]|[[C E]|[C E]]]; rewrite E in Hc; lra.
Qed.
Lemma levels_ext : forall f g T, 0 < T -> (forall u, 0 < u < T -> f u = g u) -> levels f T -> levels g T.
Proof.
  intros f g T HT E (G & HG & HL). exists G. split; [exact HG|]. intros h Hh. refine (is_RInt_ext _ _ _ _ _ _ (HL h Hh)). rewrite Rmin_left, Rmax_right by lra. intros u Hu. rewrite E by lra. reflexivity.
Qed.
Lemma root_cont : forall a b c h, continuous (fun h => sqrt (a * h + b) + c) h.
Proof.
  intros a b c h. apply (continuous_plus (fun h => sqrt (a * h + b)) (fun _ => c)); [|apply continuous_const].
  apply (continuous_comp (fun h => a * h + b) sqrt); [|apply continuous_sqrt]. apply continuity_pt_filterlim. reg.
Qed.
Lemma sq_le : forall x y, 0 <= x -> 0 <= y -> (x * x <= y <-> x <= sqrt y).
Proof.
  intros x y Hx Hy. pose proof (sqrt_sqrt y Hy). pose proof (sqrt_pos y). split; intros; nra.
Qed.
Lemma sq_ge : forall x y, 0 < x -> (y <= x * x <-> sqrt y <= x).
Proof.
  intros x y Hx. pose proof (sqrt_pos y). destruct (Rle_lt_dec 0 y) as [Y|Y].
  - pose proof (sqrt_sqrt y Y). split; intros; nra.
  - rewrite sqrt_neg_0 by lra. split; intros; nra.
Qed.
(** two pieces of the straight line from 0 over 1 to 2, in the regimes 0 and 1 *)
Definition ou_h : anchorage := mk_anch [0; 1; 2] [0; 1; 0]%nat [0; 1; 2].
Definition ou_z : partition := [seed_line; seed_line].
Lemma line_lies : lies two_paths seed_line.
Proof.
  unfold lies, low_z, high_z, seed_line; cbn [k_loose k_tight]. rewrite Rmin_right, Rmax_left by lra. split; [lra|]. intros u Hu. 
  assert (E : forall v, two_paths seed_line v = 0). { intros v. unfold two_paths, seed_line; cbn [k_tight]. rewrite (proj2 (Rltb_true (-1) (-3/4))) by lra. reflexivity. }
  fold seed_line. split; [rewrite E; lra|]. apply (continuous_ext (fun _ => 0)); [intros v; symmetry; apply E|apply continuous_const].
Qed.
Lemma line_at : forall f x0 u, along two_paths f seed_line 1 1 x0 (x0 + 1) u = f (x0 + u).
Proof.
  intros f x0 u. unfold along. f_equal. unfold segment_path, path_at, two_paths, seed_line; cbn [k_tight]. rewrite (proj2 (Rltb_true (-1) (-3/4))) by lra. field.
Qed.
Definition ou_thi : list (list R) := [[1; 1]; [1; 1]].
Lemma one_scale : forall v, v = 1 -> sqrt 1 * v = 1.
Proof. intros v ->. rewrite sqrt_1. ring. Qed.
Lemma ou1_one : forall y, (y < 2)%nat -> ou1_vol ou_thi y = 1 /\ forall x, ou1_disc ou_thi y x = (x * x - 1) / 2.
Proof.
  intros y Hy. assert (R1 : row ou_thi y = [1; 1]) by (destruct y as [|[|y]]; [reflexivity|reflexivity|lia]).
  assert (V : ou1_vol ou_thi y = 1) by (unfold ou1_vol, par2; rewrite R1; cbn; field).
  split; [exact V|]. intros x. unfold ou1_disc, sw_disc, ou1_drift, ou1_dx. rewrite V. unfold par2. rewrite R1. cbn. field.
Qed.
Lemma ou1_low : forall y x0, (y < 2)%nat -> 0 <= x0 <= 1 -> low_level (as_bounds (ou1_bounds_disc ou_thi y)) 1 x0 (x0 + 1) seed_line = - (1 / 2).
Proof.
  intros y x0 Hy Hx. destruct (ou1_one y Hy) as [_ D]. unfold low_level, as_bounds, ou1_bounds_disc, sw_bounds_disc, low_z, high_z, seed_line; cbn [k_loose k_tight]. cbn [fst snd].
  rewrite (Rmin_right 1 (-1)), (Rmax_left 1 (-1)), (Rmin_left x0), (Rmax_right x0) by lra.
  destruct (Rltb (-1 * 1 + x0) 0 && Rltb 0 (1 * 1 + (x0 + 1))) eqn:E; rewrite D; [field|].
  assert (x0 = 1) as ->. { apply andb_false_iff in E as [E|E]; apply Rltb_false in E; lra. }
  replace (-1 * 1 + 1) with 0 by ring. rewrite Rabs_R0, Rmin_left by apply Rabs_pos. field.
Qed.
Lemma ou1_levels : forall y x0, (y < 2)%nat -> 0 <= x0 <= 1 -> levels (fun u => along two_paths (ou1_disc ou_thi y) seed_line 1 1 x0 (x0 + 1) u - - (1 / 2)) 1.
Proof.
  intros y x0 Hy Hx. destruct (ou1_one y Hy) as [_ D]. apply (up_levels _ (fun h => sqrt (2 * h + 0) + - x0)); [apply root_cont|].
  intros h u Hh Hu. rewrite line_at, D. replace (2 * h + 0) with (2 * h) by ring. pose proof (sq_le (x0 + u) (2 * h) ltac:(lra) ltac:(lra)) as [A B]. split; intros X.
  - assert (x0 + u <= sqrt (2 * h)) by (apply A; lra). lra.
  - assert ((x0 + u) * (x0 + u) <= 2 * h) by (apply B; lra). lra.
Qed.
Lemma ou_pieces : pieces_of ou_z ou_h 2 /\ (forall j, (j < 2)%nat -> 0 < span (a_t ou_h) j) /\ Forall (lies two_paths) ou_z.
Proof.
  split; [repeat split; cbn; lia|]. split; [intros j Hj; destruct j as [|[|j]]; [| |lia]; unfold span; cbn; lra|]. repeat (apply Forall_cons; [exact line_lies|]). apply Forall_nil.
Qed.
Lemma ou_positive : Forall pos2 ou_thi /\ Forall (fun y => (y < length ou_thi)%nat) (a_y ou_h).
Proof.
  split; [repeat (apply Forall_cons; [exists 1, 1; split; [reflexivity|lra]|]); apply Forall_nil|]. cbn. repeat (apply Forall_cons; [lia|]). apply Forall_nil.
Qed.
Lemma ou1_piece : forall y x0 x1 c T, (y < 2)%nat -> 0 <= x0 <= 1 -> T = 1 -> c = 1 -> x1 = x0 + 1 ->
  levels (fun u => along two_paths (ou1_disc ou_thi y) seed_line T c x0 x1 u - low_level (as_bounds (ou1_bounds_disc ou_thi y)) c x0 x1 seed_line) T.
Proof. intros y x0 x1 c T Hy Hx -> -> ->. rewrite ou1_low by assumption. now apply ou1_levels. Qed.
Lemma ou_hidden_levels : forall j s, nth_error ou_z j = Some s ->
  levels (fun u => sw_along two_paths (ou1_vol ou_thi) (ou1_disc ou_thi) ou_h j s u - sw_low (ou1_vol ou_thi) (fun y => as_bounds (ou1_bounds_disc ou_thi y)) ou_h j s) (span (a_t ou_h) j).
Proof.
  intros j s E. destruct j as [|[|j]]; [| |destruct j; discriminate]; injection E as <-; unfold sw_along, sw_low, span; cbn [ou_h a_t a_y a_v nth].
  - apply ou1_piece; [lia|lra|lra| |lra]. replace (1 - 0) with 1 by ring. apply one_scale, ou1_one. lia.
  - apply ou1_piece; [lia|lra|lra| |lra]. replace (2 - 1) with 1 by ring. apply one_scale, ou1_one. lia.
Qed.
(** the first parameter of regime 0 from 1 to 1/2 *)
Definition ou_thi' : list (list R) := list_set ou_thi 0 [1/2; 1].
Lemma ou1_half : ou1_vol ou_thi' 0 = 1 /\ forall x, ou1_disc ou_thi' 0 x = (x * x / 4 - 1/2) / 2.
Proof.
  assert (V : ou1_vol ou_thi' 0 = 1) by (unfold ou1_vol, par2, row; cbn; field).
  split; [exact V|]. intros x. unfold ou1_disc, sw_disc, ou1_drift, ou1_dx. rewrite V. unfold par2, row. cbn. field.
Qed.
Lemma gap_levels : forall F G : R -> R, (forall u, F u = (u * u - 1) / 2) -> (forall u, G u = (u * u / 4 - 1/2) / 2) -> levels (pos_part F G) 1 /\ levels (pos_part G F) 1.
Proof.
  intros F G HF HG. split.
  - apply (up_levels _ (fun h => sqrt (8/3 * h + 2/3) + 0)); [apply root_cont|]. intros h u Hh Hu. unfold pos_part. rewrite HF, HG.
    pose proof (sq_le u (8/3 * h + 2/3) ltac:(lra) ltac:(lra)) as [A B]. rewrite Rplus_0_r. split; intros X.
    + apply A. pose proof (Rmax_r 0 ((u * u - 1) / 2 - (u * u / 4 - 1/2) / 2)). lra.
    + apply Rmax_lub; [lra|]. specialize (B X). lra.
  - apply (down_levels _ (fun h => sqrt (- (8/3) * h + 2/3) + 0)); [apply root_cont|]. intros h u Hh Hu. unfold pos_part. rewrite HF, HG.
    pose proof (sq_ge u (- (8/3) * h + 2/3) ltac:(lra)) as [A B]. rewrite Rplus_0_r. split; intros X.
    + apply A. pose proof (Rmax_r 0 ((u * u / 4 - 1/2) / 2 - (u * u - 1) / 2)). lra.
    + apply Rmax_lub; [lra|]. specialize (B X). lra.
Qed.
Lemma levels_one : forall f T, T = 1 -> levels f 1 -> levels f T.
Proof. intros f T ->. auto. Qed.
Lemma line_along : forall f T c x1 u, T = 1 -> c = 1 -> x1 = 1 -> along two_paths f seed_line T c 0 x1 u = f u.
Proof. intros f T c x1 u -> -> ->. pose proof (line_at f 0 u) as E. rewrite !Rplus_0_l in E. exact E. Qed.
Lemma ou_params_levels : forall j s, nth_error ou_z j = Some s -> nth j (a_y ou_h) 0%nat = 0%nat ->
  0 < piece ou_z j (fun s => sw_intensity (row ou_thi 0) (row ou_thi' 0) (ou1_bounds_grad (row ou_thi 0) (row ou_thi' 0) (span (a_t ou_h) j) (nth j (a_v ou_h) 0) (nth (S j) (a_v ou_h) 0) (k_loose s) (k_tight s))) /\
  levels (pos_part (sw_along two_paths (ou1_vol ou_thi) (ou1_disc ou_thi) ou_h j s) (sw_along two_paths (ou1_vol ou_thi') (ou1_disc ou_thi') ou_h j s)) (span (a_t ou_h) j) /\
  levels (pos_part (sw_along two_paths (ou1_vol ou_thi') (ou1_disc ou_thi') ou_h j s) (sw_along two_paths (ou1_vol ou_thi) (ou1_disc ou_thi) ou_h j s)) (span (a_t ou_h) j).
Proof.
  intros j s E Y. destruct j as [|[|j]]; [|cbn in Y; discriminate|destruct j; discriminate]. injection E as <-.
  assert (SP : span (a_t ou_h) 0 = 1) by (unfold span; cbn; ring).
  assert (HF : forall u, sw_along two_paths (ou1_vol ou_thi) (ou1_disc ou_thi) ou_h 0 seed_line u = (u * u - 1) / 2).
  { intros u. unfold sw_along. cbn [ou_h a_y a_v nth]. fold ou_h. destruct (ou1_one 0 ltac:(lia)) as [V D]. rewrite line_along; auto. rewrite SP. now apply one_scale. }
  assert (HG : forall u, sw_along two_paths (ou1_vol ou_thi') (ou1_disc ou_thi') ou_h 0 seed_line u = (u * u / 4 - 1/2) / 2).
  { intros u. unfold sw_along. cbn [ou_h a_y a_v nth]. fold ou_h. destruct ou1_half as [V D]. rewrite line_along; auto. rewrite SP. now apply one_scale. }
  destruct (gap_levels _ _ HF HG) as [L1 L2]. split; [|rewrite SP; split; assumption].
  cbn [piece ou_z nth_error]. apply ou1_positive; try lra; try (rewrite SP; lra); left; lra.
Qed.
Lemma ou_ito_levels : forall j s, nth_error [seed_line] j = Some s ->
  0 < piece [seed_line] j (fun s => ito_intensity [1; 1] [1/2; 1] (ou_bounds_grad [1; 1] [1/2; 1] (span [0; 1] j) (nth j [0; 1] 0) (nth (S j) [0; 1] 0) (k_loose s) (k_tight s))) /\
  levels (pos_part (ito_along two_paths (ou_reduce [1; 1]) (ou_disc [1; 1]) [0; 1] [0; 1] j s) (ito_along two_paths (ou_reduce [1/2; 1]) (ou_disc [1/2; 1]) [0; 1] [0; 1] j s)) (span [0; 1] j) /\
  levels (pos_part (ito_along two_paths (ou_reduce [1/2; 1]) (ou_disc [1/2; 1]) [0; 1] [0; 1] j s) (ito_along two_paths (ou_reduce [1; 1]) (ou_disc [1; 1]) [0; 1] [0; 1] j s)) (span [0; 1] j).
Proof.
  intros j s E. destruct j as [|j]; [|destruct j; discriminate]. injection E as <-.
  assert (SP : span [0; 1] 0 = 1) by (unfold span; cbn; ring).
  assert (R0 : forall b, ou_reduce [b; 1] 0 = 0) by (intros b; unfold ou_reduce, par; cbn; field).
  assert (R1 : forall b, ou_reduce [b; 1] 1 = 1) by (intros b; unfold ou_reduce, par; cbn; field).
  assert (HF : forall u, ito_along two_paths (ou_reduce [1; 1]) (ou_disc [1; 1]) [0; 1] [0; 1] 0 seed_line u = (u * u - 1) / 2).
  { intros u. unfold ito_along. cbn [nth]. rewrite R0, line_along; [unfold ou_disc, ito_disc, ou_drift, ou_dx, par; cbn; field|exact SP|rewrite SP; apply sqrt_1|apply R1]. }
  assert (HG : forall u, ito_along two_paths (ou_reduce [1/2; 1]) (ou_disc [1/2; 1]) [0; 1] [0; 1] 0 seed_line u = (u * u / 4 - 1/2) / 2).
  { intros u. unfold ito_along. cbn [nth]. rewrite R0, line_along; [unfold ou_disc, ito_disc, ou_drift, ou_dx, par; cbn; field|exact SP|rewrite SP; apply sqrt_1|apply R1]. }
  destruct (gap_levels _ _ HF HG) as [L1 L2]. split; [|rewrite SP; split; assumption].
  cbn [piece nth_error]. apply L_models3.ou_positive; try lra; try (rewrite SP; lra); left; lra.
Qed.
