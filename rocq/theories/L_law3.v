(** Laws of the Poisson samplers. *)
From Coq Require Import Reals List Bool Arith Lia Lra Permutation.
From Coquelicot Require Import Hierarchy RInt RInt_analysis RInt_gen Series Rbar.
From Verif Require Import Base Np Rng L_rng M_mjp L_ppp M_path M_skel SpecLaw SpecCoin L_law L_law2.
Import ListNotations.
Local Open Scope R_scope.

Lemma product_perm : forall g a b, Permutation a b -> product g a = product g b.
Proof.
  intros g a b H. unfold product. induction H; cbn; [reflexivity|rewrite IHPermutation; reflexivity|ring|congruence].
Qed.
Lemma average_rows : forall ds g w, average (draw_rs ds) g w -> forall n, average (draw_rows n ds) (product g) (w ^ n).
Proof.
  intros ds g w H. induction n as [|n IH]; cbn [draw_rows].
  - apply (average_ret _ [] (product g)).
  - apply (average_bind0 _ _ _ _ _ (fun r => g r * w ^ n)).
    + cbn [pow]. rewrite Rmult_comm. apply (average_ext _ _ (fun a => w ^ n * g a)); [intros; ring|]. apply average_scal. exact H.
    + intros r. apply (average_map _ _ (draw_rows n ds) (fun rs => r :: rs)).
      apply (average_scal _ _ _ _ (g r)) in IH. exact IH.
Qed.
Lemma pos_prod : forall l, Forall (fun b => 0 < b) l -> 0 < np_prod l.
Proof. unfold np_prod. induction 1; cbn; [lra|]. apply Rmult_lt_0_compat; assumption. Qed.

Lemma poisson_mix : forall lam w, 0 <= lam -> expect_n (DPoisson lam) (fun n => w ^ n) (exp (- (lam * (1 - w)))).
Proof.
  intros lam w Hl. cbn [expect_n]. split; [exact Hl|].
  pose proof (is_series_scal (exp (- lam)) _ _ (exp_series (lam * w))) as P. unfold scal in P; cbn in P; unfold mult in P; cbn in P.
  rewrite <- exp_plus in P. replace (- lam + lam * w) with (- (lam * (1 - w))) in P by ring.
  refine (is_series_ext _ _ _ _ P). intros n. req. rewrite Rpow_mult_distr. unfold Rdiv. ring.
Qed.

Lemma ppp_law : forall lam bound g w, 0 < lam -> bound <> [] -> Forall (fun b => 0 < b) bound ->
  average (draw_rs (map (DUniform 0) bound)) g w ->
  average (sample_ppp lam bound) (product g) (exp (- (lam * np_prod bound * (1 - w)))).
Proof.
  intros lam bound g w Hl Hne Hb Hg. destruct bound as [|b0 bs]; [congruence|].
  apply (average_comp _ (do n <- draw_n (DPoisson (lam * np_prod (b0 :: bs))); do l <- draw_rows n (map (DUniform 0) (b0 :: bs)); ret (row_sort l))).
  - intros o k _. unfold sample_ppp. cbn [hd_error lift_opt tl]. inversion Hb as [|? ? H0 Hbs]; subst.
    unfold lift_opt. unfold assert_. destruct (Rltb_dec 0 lam) as [[_ ->]|[X _]]; [|lra].
    unfold bind at 1 2 3. cbn [ret]. unfold ret at 1. rewrite (np_min_pos b0 bs H0 Hbs). reflexivity.
  - apply (average_n _ _ _ _ (fun n => w ^ n)).
    + exact Logic.I.
    + apply poisson_mix. left. apply Rmult_lt_0_compat; [exact Hl|apply pos_prod; exact Hb].
    + intros n _. apply (average_map _ _ (draw_rows n (map (DUniform 0) (b0 :: bs))) row_sort).
      apply (average_ext _ _ (product g)); [intros a; apply product_perm, Permutation_sym, row_sort_perm|].
      apply average_rows. exact Hg.
Qed.

(** one uniform coordinate *)
Lemma average_row1 : forall T (g : R -> R) (v : R), 0 < T -> is_RInt g 0 T v ->
  average (draw_rs (map (DUniform 0) [T])) (fun r => g (nth 0 r 0)) (v / T).
Proof.
  intros T g v HT Hg. cbn [map draw_rs].
  apply (average_r _ _ _ _ g).
  - cbn [expect_r]. split; [exact HT|]. replace ((T - 0) * (v / T)) with v by (field; lra). exact Hg.
  - intros x _. apply (average_comp _ (ret [x])); [reflexivity|]. apply (average_ret _ [x] (fun r => g (nth 0 r 0))).
Qed.
Lemma average_row2 : forall S T (g : R -> R -> R) (G : R -> R) (v : R), 0 < S -> 0 < T -> (forall x, 0 < x < S -> is_RInt (g x) 0 T (G x)) ->
  (is_RInt (g 0) 0 T (G 0)) -> is_RInt G 0 S v ->
  average (draw_rs (map (DUniform 0) [S; T])) (fun r => g (nth 0 r 0) (nth 1 r 0)) (v / (S * T)).
Proof.
  intros S T g G v HS HT Hg Hg0 HG. cbn [map draw_rs].
  apply (average_r _ _ _ _ (fun x => / T * G x)).
  - cbn [expect_r]. split; [exact HS|]. replace ((S - 0) * (v / (S * T))) with (/ T * v) by (field; lra). exact (is_RInt_scal _ _ _ (/ T) _ HG).
  - intros x (u & Hu & ->). apply (average_comp _ (do y <- draw_r (DUniform 0 T); ret [0 + (S - 0) * u; y])); [reflexivity|].
    set (x := 0 + (S - 0) * u).
    apply (average_map _ _ (draw_r (DUniform 0 T)) (fun y => [x; y])). cbn [nth].
    apply average_draw_r. split; [exact HT|]. replace ((T - 0) * (/ T * G x)) with (G x) by (field; lra).
    destruct (Req_dec u 0) as [-> | Hu0].
    + unfold x. replace (0 + (S - 0) * 0) with 0 by ring. exact Hg0.
    + apply Hg. unfold x. split; [assert (0 < S * u) by (apply Rmult_lt_0_compat; lra); lra|].
      assert (S * u < S * 1) by (apply Rmult_lt_compat_l; lra). lra.
Qed.

Lemma ppp_line : forall lam T (g : R -> R) (v : R), 0 < lam -> 0 < T -> is_RInt (fun u => 1 - g u) 0 T v ->
  average (sample_ppp lam [T]) (product (fun r => g (nth 0 r 0))) (exp (- (lam * v))).
Proof.
  intros lam T g v Hl HT Hv.
  assert (Hg : is_RInt g 0 T (T - v)).
  { pose proof (is_RInt_minus _ _ _ _ _ _ (is_RInt_const 0 T 1) Hv) as P. unfold minus, plus, opp, scal in P; cbn in P; unfold mult in P; cbn in P.
    replace (T - v) with ((T - 0) * 1 + - v) by ring. refine (is_RInt_ext _ _ _ _ _ _ P). intros x _. req. ring. }
  pose proof (ppp_law lam [T] _ _ Hl ltac:(discriminate) ltac:(repeat constructor; exact HT) (average_row1 T g _ HT Hg)) as P.
  refine (average_eq _ _ _ _ _ _ P). f_equal. cbn. field. lra.
Qed.

(** ** thinning: no point below the graph *)
Lemma step_integral : forall S y, 0 <= y <= S -> is_RInt (fun h => ind (negb (Rltb h y))) 0 S (S - y).
Proof.
  intros S y Hy. replace (S - y) with (plus ((y - 0) * 0) ((S - y) * 1)) by (unfold plus; cbn; ring).
  apply (is_RInt_Chasles (V := R_NormedModule) _ 0 y S).
  - refine (is_RInt_ext (fun _ => 0) _ _ _ _ _ (is_RInt_const 0 y 0)). rewrite Rmin_left, Rmax_right by lra. intros x Hx.
    destruct (Rltb_dec x y) as [[_ ->]|[X _]]; [reflexivity|lra].
  - refine (is_RInt_ext (fun _ => 1) _ _ _ _ _ (is_RInt_const y S 1)). rewrite Rmin_left, Rmax_right by lra. intros x Hx.
    destruct (Rltb_dec x y) as [[X _]|[_ ->]]; [lra|reflexivity].
Qed.
Lemma product_all : forall E rows, product (fun r => ind (E r)) rows = ind (forallb E rows).
Proof.
  intros E. induction rows as [|r rows IH]; [reflexivity|]. unfold product in *. cbn. rewrite IH.
  destruct (E r), (forallb E rows); cbn; ring.
Qed.
Lemma thinning : forall S T (phi : R -> R) (v : R), 0 < S -> 0 < T -> (forall u, 0 <= u <= T -> 0 <= phi u <= S) -> is_RInt phi 0 T v ->
  chance (sample_ppp 1 [T; S]) (forallb (fun r => negb (Rltb (nth 1 r 0) (phi (nth 0 r 0))))) (exp (- v)).
Proof.
  intros S T phi v HS HT Hphi Hv. unfold chance.
  apply (average_ext _ _ (product (fun r => ind (negb (Rltb (nth 1 r 0) (phi (nth 0 r 0))))))); [apply product_all|].
  assert (HG : is_RInt (fun u => S - phi u) 0 T (S * T - v)).
  { pose proof (is_RInt_minus _ _ _ _ _ _ (is_RInt_const 0 T S) Hv) as P. unfold minus, plus, opp, scal in P; cbn in P; unfold mult in P; cbn in P.
    replace (S * T - v) with ((T - 0) * S + - v) by ring. exact P. }
  pose proof (ppp_law 1 [T; S] _ _ Rlt_0_1 ltac:(discriminate) ltac:(repeat constructor; assumption)
    (average_row2 T S (fun u h => ind (negb (Rltb h (phi u)))) (fun u => S - phi u) _ HT HS
      (fun u Hu => step_integral S (phi u) (Hphi u ltac:(lra))) (step_integral S (phi 0) (Hphi 0 ltac:(lra))) HG)) as P.
  refine (average_eq _ _ _ _ _ _ P). f_equal. cbn. field. lra.
Qed.

(** ** the estimator *)
Lemma exp_sum_ln : forall (f : R -> R) (l : list R) c, 0 < c -> (forall x, In x l -> 0 < f x) ->
  exp (fold_right Rplus 0 (map (fun x => ln (f x)) l) - INR (length l) * ln c) = fold_right Rmult 1 (map (fun x => f x / c) l).
Proof.
  intros f l c Hc. induction l as [|a l IH]; intros H.
  - cbn. replace (0 - 0 * ln c) with 0 by ring. apply exp_0.
  - cbn [map fold_right]. rewrite <- IH by (intros x Hx; apply H; right; exact Hx).
    replace (f a / c) with (exp (ln (f a) - ln c)).
    2:{ unfold Rminus. rewrite exp_plus, exp_Ropp, !exp_ln; [reflexivity|exact Hc|apply H; left; reflexivity]. }
    rewrite <- exp_plus. f_equal. cbn [length]. rewrite S_INR. ring.
Qed.
Lemma ppp_times_in : forall lam T, 0 < T -> returns (sample_ppp lam [T]) (Forall (fun r => exists u, r = [u] /\ 0 <= u <= T)).
Proof.
  intros lam T HT o k Ho. unfold sample_ppp. cbn [hd_error lift_opt tl np_min_from].
  unfold assert_, lift_opt. destruct (Rltb 0 lam); [|exact Logic.I]. unfold bind at 1 2 3. unfold ret at 1. cbv iota beta.
  destruct (Rltb 0 T); [|exact Logic.I]. unfold ret at 1. cbv iota beta. unfold bind at 1, draw_n.
  set (n := ora_n o k _). cbn [map].
  destruct (draw_rows_spec [DUniform 0 T] o n (S k)) as (l & El & Hl & Hs). unfold bind. rewrite El. cbn [ret fst].
  apply (Permutation_Forall (Permutation_sym (row_sort_perm l))). apply Forall_forall. intros r Hr.
  apply In_nth_error in Hr as (i & Hi). assert (Hin : (i < n)%nat) by (rewrite <- Hl; apply nth_error_Some; congruence).
  destruct (Hs i Hin) as (row & E & L & N). rewrite E in Hi. injection Hi as <-.
  specialize (N 0%nat (DUniform 0 T) eq_refl). destruct row as [|u [|? ?]]; cbn in L; try lia. cbn in N. injection N as E0.
  exists u. split; [reflexivity|]. match type of E0 with _ = ora_r o ?j _ => destruct (proj1 Ho j (DUniform 0 T)) as (x & Hx & Ex) end.
  assert (Eu : u = 0 + (T - 0) * x) by (rewrite E0; exact Ex). rewrite Eu. split; [apply Rplus_le_le_0_compat; [lra|apply Rmult_le_pos; lra]|].
  assert (T * x <= T * 1) by (apply Rmult_le_compat_l; lra). lra.
Qed.
Lemma estimator : forall disc w cent le ue T (v : R), le < ue -> 0 < T -> (forall u, 0 <= u <= T -> disc (w u) < ue) ->
  is_RInt (fun u => disc (w u) - cent) 0 T v ->
  average (estimate_with (frozen w) disc cent le ue T tt) (fun r => exp (fst r)) (exp (- v)).
Proof.
  intros disc w cent le ue T v Hlu HT Hphi Hv. unfold estimate_with.
  set (g := fun u => (ue - disc (w u)) / (ue - le)).
  assert (Hg : is_RInt (fun u => 1 - g u) 0 T ((v + (cent - le) * T) / (ue - le))).
  { pose proof (is_RInt_scal _ _ _ (/ (ue - le)) _ (is_RInt_plus _ _ _ _ _ _ Hv (is_RInt_const 0 T (cent - le)))) as P.
    unfold plus, scal in P; cbn in P; unfold mult in P; cbn in P.
    replace ((v + (cent - le) * T) / (ue - le)) with (/ (ue - le) * (v + (T - 0) * (cent - le))) by (field; lra).
    refine (is_RInt_ext _ _ _ _ _ _ P). intros x _. req. unfold g. field. lra. }
  pose proof (ppp_line (ue - le) T g _ ltac:(lra) HT Hg) as P.
  apply (average_bind _ _ _ _ _ (fun pts => exp ((cent - le) * T) * product (fun r => g (nth 0 r 0)) pts)
    (Forall (fun r => exists u, r = [u] /\ 0 <= u <= T))).
  - apply (average_scal _ _ _ _ (exp ((cent - le) * T))) in P. refine (average_eq _ _ _ _ _ _ P).
    rewrite <- exp_plus. f_equal. field. lra.
  - apply ppp_times_in. exact HT.
  - intros pts Hpts.
    assert (E : product (fun r => g (nth 0 r 0)) pts = exp (fold_right Rplus 0 (map (fun u => ln (ue - disc (w u))) (map (fun r => nth 0 r 0) pts)) - INR (length (map (fun r => nth 0 r 0) pts)) * ln (ue - le))).
    { rewrite (exp_sum_ln (fun u => ue - disc (w u))); [unfold product; rewrite map_map; reflexivity|lra|].
      intros x Hx. apply in_map_iff in Hx as (r & <- & Hr). rewrite Forall_forall in Hpts. destruct (Hpts r Hr) as (u & -> & Hu).
      cbn. specialize (Hphi u Hu). lra. }
    rewrite E, <- exp_plus.
    destruct (map (fun r => nth 0 r 0) pts) as [|t0 ts] eqn:Et.
    + cbn [map fold_right length INR].
      replace ((cent - le) * T + (0 - 0 * ln (ue - le))) with ((ue - le - ue + cent) * T) by ring.
      apply (average_ret _ (((ue - le - ue + cent) * T, tt)) (fun r => exp (fst r))).
    + rewrite <- Et. clear Et E t0 ts. set (ts := map (fun r => nth 0 r 0) pts).
      unfold frozen. apply (average_comp _ (ret (fold_right Rplus 0 (map (fun v => ln (ue - disc v)) (map w ts)) - INR (length ts) * ln (ue - le) + (ue - le - ue + cent) * T, tt))); [reflexivity|].
      refine (average_eq _ _ _ _ _ _ (average_ret _ _ _)). cbn [fst]. f_equal. rewrite map_map. ring.
Qed.
