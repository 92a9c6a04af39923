(** Rules to compute the law of a computation. *)
From Coq Require Import Reals List Bool Arith Lia Lra Permutation.
From Coquelicot Require Import Hierarchy RInt RInt_analysis RInt_gen Series Rbar.
From Verif Require Import Base Rng L_rng SpecLaw L_law.
Import ListNotations.
Local Open Scope R_scope.

Lemma mean_ext : forall A (F : res A -> R) m m' v,
  (forall o k, valid o -> m' o k = m o k) -> mean F m v -> mean F m' v.
Proof.
  intros A F m m' v E H. destruct H as [m r H | m d f g v H Hf Hg | m d f g v H Hne Hf Hg].
  - apply mean_done. intros o k Ho. rewrite E by exact Ho. apply H. exact Ho.
  - apply (mean_real F m' d f g v); try assumption. intros o k Ho. rewrite E by exact Ho. apply H. exact Ho.
  - apply (mean_int F m' d f g v); try assumption. intros o k Ho. rewrite E by exact Ho. apply H. exact Ho.
Qed.
Lemma mean_eq : forall A (F : res A -> R) m v v', v = v' -> mean F m v -> mean F m v'.
Proof. intros A F m v v' ->. exact (fun x => x). Qed.

(** outcomes of the continuation after a draw *)
Lemma later_r : forall A (F : res A -> R) (Q : res A -> Prop) m d f g k0,
  (forall o k, valid o -> m o k = bind (draw_r d) f o k) -> (forall x, rsupport d x -> mean F (f x) (g x)) ->
  (forall o k, valid o -> (k0 <= k)%nat -> Q (fst (m o k))) ->
  forall x, rsupport d x -> forall o k, valid o -> (S k0 <= k)%nat -> Q (fst (f x o k)).
Proof.
  intros A F Q m d f g k0 E Hf HQ x Hx o k Ho Hk. destruct k as [|k]; [lia|].
  pose proof (set_r_valid o k d x Ho Hx) as Ho2. specialize (HQ _ k Ho2 ltac:(lia)).
  rewrite (E _ k Ho2) in HQ. unfold bind, draw_r in HQ. rewrite set_r_eq in HQ.
  rewrite (mean_local _ _ _ _ (Hf x Hx) o (set_r o k d x) (S k) Ho Ho2 (set_r_agree o k d x (S k) (Nat.lt_succ_diag_r k))). exact HQ.
Qed.
Lemma later_n : forall A (F : res A -> R) (Q : res A -> Prop) m d f g k0,
  (forall o k, valid o -> m o k = bind (draw_n d) f o k) -> (forall x, nsupport d x -> mean F (f x) (g x)) ->
  (forall o k, valid o -> (k0 <= k)%nat -> Q (fst (m o k))) ->
  forall x, nsupport d x -> forall o k, valid o -> (S k0 <= k)%nat -> Q (fst (f x o k)).
Proof.
  intros A F Q m d f g k0 E Hf HQ x Hx o k Ho Hk. destruct k as [|k]; [lia|].
  pose proof (set_n_valid o k d x Ho Hx) as Ho2. specialize (HQ _ k Ho2 ltac:(lia)).
  rewrite (E _ k Ho2) in HQ. unfold bind, draw_n in HQ. rewrite set_n_eq in HQ.
  rewrite (mean_local _ _ _ _ (Hf x Hx) o (set_n o k d x) (S k) Ho Ho2 (set_n_agree o k d x (S k) (Nat.lt_succ_diag_r k))). exact HQ.
Qed.

Definition after {A B} (h : A -> R) (F : res B -> R) (r : res A) : R :=
  match r with Ok a => h a | Raise e => F (Raise e) | NoFuel => F NoFuel end.
Lemma mean_bind_from : forall A B (F : res B -> R) (f : A -> M B) (h : A -> R) (P : A -> Prop) m v,
  mean (after h F) m v -> (forall a, P a -> mean F (f a) (h a)) ->
  forall k0, (forall o k, valid o -> (k0 <= k)%nat -> match fst (m o k) with Ok a => P a | _ => True end) -> mean F (bind m f) v.
Proof.
  intros A B F f h P m v H HP.
  induction H as [m r E | m d ff g v E Hf IH Hg | m d ff g v E Hne Hf IH Hg]; intros k0 HQ.
  - destruct valid_inh as [o0 Ho0]. specialize (HQ o0 k0 Ho0 (le_n _)). rewrite (E _ _ Ho0) in HQ. cbn in HQ.
    destruct r as [a|e|]; cbn [after].
    + apply (mean_ext _ F (f a)); [|apply HP; exact HQ]. intros o k Ho. unfold bind. rewrite (E _ _ Ho). reflexivity.
    + apply mean_done. intros o k Ho. unfold bind. rewrite (E _ _ Ho). reflexivity.
    + apply mean_done. intros o k Ho. unfold bind. rewrite (E _ _ Ho). reflexivity.
  - apply (mean_real F _ d (fun x => bind (ff x) f) g v); [| |exact Hg].
    + intros o k Ho. unfold bind at 1. rewrite (E _ _ Ho). unfold bind, draw_r. reflexivity.
    + intros x Hx. apply (IH x Hx (S k0)).
      apply (later_r _ _ (fun r => match r with Ok a => P a | _ => True end) m d ff g k0 E Hf HQ x Hx).
  - apply (mean_int F _ d (fun x => bind (ff x) f) g v); [|exact Hne| |exact Hg].
    + intros o k Ho. unfold bind at 1. rewrite (E _ _ Ho). unfold bind, draw_n. reflexivity.
    + intros x Hx. apply (IH x Hx (S k0)).
      apply (later_n _ _ (fun r => match r with Ok a => P a | _ => True end) m d ff g k0 E Hf HQ x Hx).
Qed.
Lemma mean_swap_from : forall A (F F' : res A -> R) m v, mean F m v ->
  forall k0, (forall o k, valid o -> (k0 <= k)%nat -> F (fst (m o k)) = F' (fst (m o k))) -> mean F' m v.
Proof.
  intros A F F' m v H.
  induction H as [m r E | m d ff g v E Hf IH Hg | m d ff g v E Hne Hf IH Hg]; intros k0 HQ.
  - destruct valid_inh as [o0 Ho0]. specialize (HQ o0 k0 Ho0 (le_n _)). rewrite (E _ _ Ho0) in HQ. cbn in HQ.
    rewrite HQ. apply mean_done. exact E.
  - apply (mean_real F' m d ff g v E); [|exact Hg]. intros x Hx. apply (IH x Hx (S k0)).
    apply (later_r _ _ (fun r => F r = F' r) m d ff g k0 E Hf HQ x Hx).
  - apply (mean_int F' m d ff g v E Hne); [|exact Hg]. intros x Hx. apply (IH x Hx (S k0)).
    apply (later_n _ _ (fun r => F r = F' r) m d ff g k0 E Hf HQ x Hx).
Qed.

(** ** averages *)
Lemma average_unique : forall A (m : M A) f u v, average m f u -> average m f v -> u = v.
Proof. intros A m f u v. apply mean_unique. Qed.
Lemma average_ret : forall A (a : A) f, average (ret a) f (f a).
Proof. intros A a f. apply (mean_done (value f) (ret a) (Ok a)). reflexivity. Qed.
Lemma average_raise : forall A e f, average (raise e : M A) f 0.
Proof. intros A e f. apply (mean_done (value f) (raise e) (Raise e)). reflexivity. Qed.
Lemma average_bind : forall A B (m : M A) (k : A -> M B) f h (P : A -> Prop) v,
  average m h v -> returns m P -> (forall a, P a -> average (k a) f (h a)) -> average (bind m k) f v.
Proof.
  intros A B m k f h P v H HP Hk. unfold average in *.
  apply (mean_bind_from A B (value f) k h P m v) with (k0 := 0%nat).
  - refine (mean_swap_from _ _ _ _ _ H 0 _). intros o i _ _. destruct (fst (m o i)); reflexivity.
  - exact Hk.
  - intros o i Ho _. apply (HP o i Ho).
Qed.
Lemma average_swap : forall A (m : M A) f f' v, returns m (fun a => f a = f' a) -> average m f v -> average m f' v.
Proof.
  intros A m f f' v HR H. refine (mean_swap_from _ _ _ _ _ H 0 _). intros o i Ho _.
  specialize (HR o i Ho). destruct (fst (m o i)); cbn; auto.
Qed.
Lemma average_ext : forall A (m : M A) f f' v, (forall a, f a = f' a) -> average m f v -> average m f' v.
Proof. intros A m f f' v HR H. apply (average_swap A m f f' v); [|exact H]. intros o i Ho. destruct (fst (m o i)); auto. Qed.
Lemma average_comp : forall A (m m' : M A) f v, (forall o k, valid o -> m' o k = m o k) -> average m f v -> average m' f v.
Proof. intros A m m' f v. apply mean_ext. Qed.
Lemma average_eq : forall A (m : M A) f v v', v = v' -> average m f v -> average m f v'.
Proof. intros A m f v v' ->. exact (fun x => x). Qed.
Lemma returns_true : forall A (m : M A), returns m (fun _ => True).
Proof. intros A m o k _. destruct (fst (m o k)); exact Logic.I. Qed.
Lemma average_bind0 : forall A B (m : M A) (k : A -> M B) f h v,
  average m h v -> (forall a, average (k a) f (h a)) -> average (bind m k) f v.
Proof. intros A B m k f h v H Hk. apply (average_bind A B m k f h (fun _ => True) v H (returns_true _ m)). intros a _. apply Hk. Qed.
Lemma average_map : forall A B (m : M A) (g : A -> B) f v,
  average m (fun a => f (g a)) v -> average (do a <- m; ret (g a)) f v.
Proof. intros A B m g f v H. apply (average_bind0 _ _ m (fun a => ret (g a)) f _ v H). intros a. apply average_ret. Qed.
Lemma average_draw_r : forall d g v, expect_r d g v -> average (draw_r d) g v.
Proof.
  intros d g v H. apply (mean_real (value g) (draw_r d) d (fun x => ret x) g v); [| |exact H].
  - intros o k _. reflexivity.
  - intros x _. apply (average_ret R x g).
Qed.
Lemma average_draw_n : forall d g v, nonempty_n d -> expect_n d g v -> average (draw_n d) g v.
Proof.
  intros d g v Hne H. apply (mean_int (value g) (draw_n d) d (fun x => ret x) g v); [|exact Hne| |exact H].
  - intros o k _. reflexivity.
  - intros x _. apply (average_ret nat x g).
Qed.
Lemma average_r : forall B d (k : R -> M B) f g v, expect_r d g v ->
  (forall x, rsupport d x -> average (k x) f (g x)) -> average (bind (draw_r d) k) f v.
Proof. intros B d k f g v H Hk. apply (mean_real (value f) _ d k g v); [reflexivity|exact Hk|exact H]. Qed.
Lemma average_n : forall B d (k : nat -> M B) f g v, nonempty_n d -> expect_n d g v ->
  (forall x, nsupport d x -> average (k x) f (g x)) -> average (bind (draw_n d) k) f v.
Proof. intros B d k f g v Hne H Hk. apply (mean_int (value f) _ d k g v); [reflexivity|exact Hne|exact Hk|exact H]. Qed.

Lemma expect_r_scal : forall d g v c, expect_r d g v -> expect_r d (fun x => c * g x) (c * v).
Proof.
  intros [lo hi|s|a b| | | |] g v c; cbn [expect_r]; try contradiction.
  - intros [H I1]. split; [exact H|]. replace ((hi - lo) * (c * v)) with (c * ((hi - lo) * v)) by ring.
    exact (is_RInt_scal _ _ _ c _ I1).
  - intros [H I1]. split; [exact H|].
    refine (is_RInt_gen_ext _ _ _ _ (is_RInt_gen_scal _ c _ I1)).
    apply filter_forall. intros p x _. unfold scal; cbn; unfold mult; cbn. req. ring.
  - intros (i & j & Ha & Hb & I1). exists i, j. split; [exact Ha|]. split; [exact Hb|].
    refine (is_RInt_ext _ _ _ _ _ _ (is_RInt_scal _ _ _ c _ I1)). intros x _. unfold scal; cbn; unfold mult; cbn. req. ring.
  - apply under_scal; typeclasses eauto.
  - intros [(Ha & Hs & I1)|(Ha & Hs & I1)]; [left|right]; (split; [exact Ha|]; split; [exact Hs|]).
    + revert I1. apply under_scal; typeclasses eauto.
    + intros x. rewrite I1. reflexivity.
  - intros (Ha & Hs & I1). split; [exact Ha|]. split; [exact Hs|]. revert I1. apply under_scal; typeclasses eauto.
Qed.
Lemma sum_scal : forall (f : nat -> R) c l, fold_right Rplus 0 (map (fun x => c * f x) l) = c * fold_right Rplus 0 (map f l).
Proof. induction l as [|a l IH]; cbn; [ring|]. rewrite IH. ring. Qed.
Lemma expect_n_scal : forall d g v c, expect_n d g v -> expect_n d (fun x => c * g x) (c * v).
Proof.
  intros [lam|p|m] g v c; cbn [expect_n].
  - intros [H I1]. split; [exact H|].
    refine (is_series_ext _ _ _ _ (is_series_scal c _ _ I1)). intros n. unfold scal; cbn; unfold mult; cbn. req. ring.
  - intros [H ->]. split; [exact H|]. rewrite <- sum_scal. f_equal. apply map_ext. intros i. ring.
  - intros [H ->]. split; [exact H|]. rewrite sum_scal. field. apply not_0_INR. lia.
Qed.
Lemma mean_scal : forall A (F : res A -> R) m v c, mean F m v -> mean (fun r => c * F r) m (c * v).
Proof.
  intros A F m v c H. induction H as [m r E | m d ff g v E Hf IH Hg | m d ff g v E Hne Hf IH Hg].
  - apply (mean_done (fun r => c * F r)). exact E.
  - apply (mean_real _ m d ff (fun x => c * g x) _ E IH). apply expect_r_scal. exact Hg.
  - apply (mean_int _ m d ff (fun x => c * g x) _ E Hne IH). apply expect_n_scal. exact Hg.
Qed.
Lemma average_scal : forall A (m : M A) f v c, average m f v -> average m (fun a => c * f a) (c * v).
Proof.
  intros A m f v c H. refine (mean_swap_from _ _ _ _ _ (mean_scal _ _ _ _ c H) 0 _).
  intros o k _ _. destruct (fst (m o k)); cbn; ring.
Qed.
