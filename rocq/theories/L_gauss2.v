(** Laws of vectors of independent draws. *)
From Coquelicot Require Import Rcomplements Hierarchy Rbar Lim_seq Continuity Derive RInt RInt_gen RInt_analysis AutoDerive.
From Coq Require Import Reals List Bool Arith Lra Lia Psatz.
From Verif Require Import Base Rng M_mjp SpecLaw L_rng L_law L_law2 L_law5 L_gauss SpecGauss Mat L_mat.
Import ListNotations.
Local Open Scope R_scope.

Lemma gen_shift : forall (f : R -> R) c v, is_RInt_gen f (Rbar_locally m_infty) (Rbar_locally p_infty) v ->
  is_RInt_gen (fun x => f (x - c)) (Rbar_locally m_infty) (Rbar_locally p_infty) v.
Proof.
  intros f c v H P HP. destruct (H P HP) as [Q T [M HQ] [N HT] HX].
  apply (Filter_prod _ _ _ (fun a => Q (a - c)) (fun b => T (b - c))).
  - exists (M + c). intros x Hx. apply HQ. lra.
  - exists (N + c). intros x Hx. apply HT. lra.
  - intros a b Ha Hb. destruct (HX _ _ Ha Hb) as (y & HI & HY). cbn [fst snd] in *. exists y. split; [|exact HY].
    pose proof (is_RInt_comp_lin f 1 (- c) a b y) as K.
    replace (1 * a + - c) with (a - c) in K by ring. replace (1 * b + - c) with (b - c) in K by ring.
    refine (is_RInt_ext _ _ _ _ _ _ (K HI)). intros x _. unfold scal; cbn; unfold mult; cbn. rewrite !Rmult_1_l. reflexivity.
Qed.
(** the moment generating function of the standard normal distribution *)
Lemma normal_mgf : forall c, expect_r DNormal (fun x => exp (c * x)) (exp (c ^ 2 / 2)).
Proof.
  intros c. destruct normal_total as (Z & HZ & I0). exists Z. split; [exact HZ|]. split; [exact I0|].
  pose proof (is_RInt_gen_scal _ (exp (c ^ 2 / 2)) _ (gen_shift _ c _ I0)) as P. unfold scal in P; cbn in P; unfold mult in P; cbn in P.
  rewrite Rmult_comm. refine (is_RInt_gen_ext _ _ _ _ P). apply filter_forall. intros p x _. req.
  unfold normal_weight. rewrite <- !exp_plus. f_equal. field.
Qed.

Lemma rsum_nth_cons : forall n (c : nat -> R) x (xs : list R),
  rsum (S n) (fun k => c k * nth k (x :: xs) 0) = c 0%nat * x + rsum n (fun k => c (S k) * nth k xs 0).
Proof. intros. rewrite rsum_shift. reflexivity. Qed.
Lemma normals_mgf : forall n c, average (draw_rs (repeat DNormal n)) (fun z => exp (rsum n (fun k => c k * nth k z 0))) (exp (rsum n (fun k => c k ^ 2) / 2)).
Proof.
  induction n as [|n IH]; intros c.
  - cbn [repeat draw_rs rsum]. replace (exp (0 / 2)) with (exp 0) by (f_equal; lra). apply (average_ret _ [] (fun _ => exp 0)).
  - cbn [repeat draw_rs].
    apply (average_r _ _ _ _ (fun x => exp (rsum n (fun k => c (S k) ^ 2) / 2) * exp (c 0%nat * x))).
    + rewrite rsum_shift. replace ((c 0%nat ^ 2 + rsum n (fun k => c (S k) ^ 2)) / 2) with (rsum n (fun k => c (S k) ^ 2) / 2 + c 0%nat ^ 2 / 2) by field.
      rewrite exp_plus. apply expect_r_scal. apply normal_mgf.
    + intros x _. apply average_map. rewrite Rmult_comm.
      apply (average_ext _ _ (fun z => exp (c 0%nat * x) * exp (rsum n (fun k => c (S k) * nth k z 0)))).
      * intros z. rewrite rsum_nth_cons, exp_plus. reflexivity.
      * apply average_scal. apply (IH (fun k => c (S k))).
Qed.
(** first and second moments of affine functions of independent normals *)
Lemma expect_affine : forall a b, expect_r DNormal (fun x => a + b * x) a.
Proof.
  intros a b. pose proof (expect_r_plus _ _ _ _ _ (expect_r_normal _ _ _ a normal_mean) (expect_r_scal _ _ _ b normal_mean)) as P.
  rewrite Rmult_0_r, Rplus_0_r in P. exact P.
Qed.
Lemma expect_quadratic : forall a b c, expect_r DNormal (fun x => a + b * x + c * (x * x)) (a + c).
Proof.
  intros a b c. pose proof (expect_r_plus _ _ _ _ _ (expect_affine a b) (expect_r_scal _ _ _ c normal_square)) as P.
  rewrite Rmult_1_r in P. exact P.
Qed.
Lemma normals_linear : forall n a c, average (draw_rs (repeat DNormal n)) (fun z => a + rsum n (fun k => c k * nth k z 0)) a.
Proof.
  induction n as [|n IH]; intros a c.
  - cbn [repeat draw_rs rsum]. apply (average_eq _ _ _ (a + 0)); [ring|]. apply (average_ret _ [] (fun _ => a + 0)).
  - cbn [repeat draw_rs]. apply (average_r _ _ _ _ (fun x => a + c 0%nat * x)); [apply expect_affine|].
    intros x _. apply average_map.
    apply (average_ext _ _ (fun z => (a + c 0%nat * x) + rsum n (fun k => c (S k) * nth k z 0))); [intros z; rewrite rsum_nth_cons; ring|].
    apply (IH _ (fun k => c (S k))).
Qed.
Lemma normals_product : forall n a b c d, average (draw_rs (repeat DNormal n))
  (fun z => (a + rsum n (fun k => c k * nth k z 0)) * (b + rsum n (fun k => d k * nth k z 0))) (a * b + rsum n (fun k => c k * d k)).
Proof.
  induction n as [|n IH]; intros a b c d.
  - cbn [repeat draw_rs rsum]. apply (average_eq _ _ _ ((a + 0) * (b + 0))); [ring|]. apply (average_ret _ [] (fun _ => (a + 0) * (b + 0))).
  - cbn [repeat draw_rs].
    apply (average_r _ _ _ _ (fun x => (a + c 0%nat * x) * (b + d 0%nat * x) + rsum n (fun k => c (S k) * d (S k)))).
    + rewrite rsum_shift. set (q := rsum n (fun k => c (S k) * d (S k))).
      assert (E : expect_r DNormal (fun x => (a * b + q) + (a * d 0%nat + b * c 0%nat) * x + c 0%nat * d 0%nat * (x * x)) (a * b + q + c 0%nat * d 0%nat)) by apply expect_quadratic.
      replace (a * b + (c 0%nat * d 0%nat + q)) with (a * b + q + c 0%nat * d 0%nat) by ring.
      destruct E as (Z & HZ & I0 & I1). exists Z. split; [exact HZ|]. split; [exact I0|].
      refine (is_RInt_gen_ext _ _ _ _ I1). apply filter_forall. intros p x _. req. ring.
    + intros x _. apply average_map.
      apply (average_ext _ _ (fun z => ((a + c 0%nat * x) + rsum n (fun k => c (S k) * nth k z 0)) * ((b + d 0%nat * x) + rsum n (fun k => d (S k) * nth k z 0))));
        [intros z; rewrite !rsum_nth_cons; ring|].
      apply (IH _ _ (fun k => c (S k)) (fun k => d (S k))).
Qed.

(** a list of samplers run one after the other, tested with a product *)
Lemma average_mapM_prod : forall A B (m : A -> M B) (h : A -> B -> R) (v : A -> R) l,
  (forall a, In a l -> average (m a) (h a) (v a)) ->
  average (mapM m l) (fun bs => fold_right Rmult 1 (map (fun p => h (fst p) (snd p)) (combine l bs))) (fold_right Rmult 1 (map v l)).
Proof.
  intros A B m h v l. induction l as [|a l IH]; intros H.
  - cbn. apply (average_ret _ [] (fun _ => 1)).
  - cbn [mapM map fold_right].
    apply (average_bind0 _ _ _ _ _ (fun b => fold_right Rmult 1 (map v l) * h a b)).
    + rewrite Rmult_comm. apply average_scal. apply H. left. reflexivity.
    + intros b. apply average_map. cbn [combine map fold_right fst snd]. rewrite Rmult_comm. apply average_scal. apply IH. intros a' Ha. apply H. right. exact Ha.
Qed.
Lemma rprod_list : forall n f, fold_right Rmult 1 (map f (seq 0 n)) = rprod n f.
Proof.
  induction n as [|n IH]; intros f; [reflexivity|]. rewrite seq_S, map_app, fold_right_app. cbn [map fold_right].
  cbn [rprod]. rewrite <- IH. generalize (map f (seq 0 n)). cbn [Nat.add]. induction l as [|a l IHl]; cbn [fold_right]; [ring|]. rewrite IHl. ring.
Qed.
Lemma fold_rmult_app : forall a b, fold_right Rmult 1 (a ++ b) = fold_right Rmult 1 a * fold_right Rmult 1 b.
Proof. induction a as [|x a IH]; intros b; cbn; [ring|]. rewrite IH. ring. Qed.
Lemma rprod_cells : forall n m f, fold_right Rmult 1 (map (fun p => f (fst p) (snd p)) (list_prod (seq 0 n) (seq 0 m))) = rprod n (fun i => rprod m (f i)).
Proof.
  intros n m f. rewrite <- rprod_list. generalize (seq 0 n). induction l as [|i l IH]; [reflexivity|].
  cbn [list_prod map fold_right]. rewrite map_app, fold_rmult_app, IH. f_equal. rewrite map_map. cbn [fst snd]. apply rprod_list.
Qed.
Lemma rprod_ext : forall n f g, (forall i, (i < n)%nat -> f i = g i) -> rprod n f = rprod n g.
Proof. induction n as [|n IH]; intros f g H; [reflexivity|]. cbn [rprod]. rewrite (IH f g), (H n); auto. Qed.
Lemma rprod_1 : forall n f, (forall i, (i < n)%nat -> f i = 1) -> rprod n f = 1.
Proof. induction n as [|n IH]; intros f H; [reflexivity|]. cbn [rprod]. rewrite IH, H by auto. ring. Qed.
Lemma rprod_pick : forall n f i, (i < n)%nat -> (forall j, (j < n)%nat -> j <> i -> f j = 1) -> rprod n f = f i.
Proof.
  induction n as [|n IH]; intros f i Hi H; [lia|]. cbn [rprod]. destruct (Nat.eq_dec i n) as [->|N].
  - rewrite rprod_1; [ring|]. intros j Hj. apply H; lia.
  - rewrite (IH f i), (H n); [ring|lia|lia|lia|]. intros j Hj. apply H. lia.
Qed.
