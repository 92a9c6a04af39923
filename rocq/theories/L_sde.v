(** Lemmas: Gaussian moments of the path samplers. *)
From Coq Require Import Reals List Bool Arith Lia Lra Psatz Sorted.
From Verif Require Import Base Np Rng Mat L_list L_rng L_mat L_bridge L_ars L_ars2 L_path M_hit M_path SpecPath.
Import ListNotations.
Local Open Scope R_scope.

Lemma min_pos t : t <> [] -> Forall (fun s => 0 < s) t -> exists m, arr_min t = Ok m /\ 0 < m.
Proof.
  intros N F. destruct t as [|a r]; [easy|]. inversion F; subst. exists (np_min_from a r). split; auto.
  destruct (np_min_from_mem a r) as [->|H]; auto. rewrite Forall_forall in *. auto.
Qed.
Lemma np_max_from_mem (d : R) l : np_max_from d l = d \/ In (np_max_from d l) l.
Proof.
  revert d. induction l as [|a l IH]; intros d; simpl; auto.
  match goal with |- context [np_max_from ?e l] => destruct (IH e) as [->|] end; auto.
  destruct (Rltb d a); auto.
Qed.
Lemma np_max_from_ge (d : R) l : d <= np_max_from d l.
Proof.
  revert d. induction l as [|a l IH]; intros d; simpl; [lra|]. eapply Rle_trans; [|apply IH].
  destruct (Rltb_dec d a) as [[L ->]|[L ->]]; lra.
Qed.
Lemma np_max_from_in (d : R) l a : In a l -> a <= np_max_from d l.
Proof.
  revert d. induction l as [|b l IH]; intros d; simpl; [easy|]. intros [->|H]; [|now apply IH].
  eapply Rle_trans; [|apply np_max_from_ge]. destruct (Rltb_dec d a) as [[L ->]|[L ->]]; lra.
Qed.
Lemma max_below t T : t <> [] -> Forall (fun s => s < T) t -> exists m, arr_max t = Ok m /\ m < T.
Proof.
  intros N F. destruct t as [|a r]; [easy|]. inversion F; subst. exists (np_max_from a r). split; auto.
  destruct (np_max_from_mem a r) as [->|H]; auto. rewrite Forall_forall in *. auto.
Qed.

Lemma ediff_length t : length (ediff_begin t) = length t.
Proof. destruct t; auto. cbn [ediff_begin length]. rewrite np_diff_seq, map_length, seq_length. cbn [length]. lia. Qed.
Lemma ediff_nth t k : (k < length t)%nat -> nth k (ediff_begin t) 0 = match k with O => nth 0 t 0 | S j => nth (S j) t 0 - nth j t 0 end.
Proof.
  intros H. destruct t as [|a r]; [simpl in H; lia|]. cbn [ediff_begin]. destruct k as [|k]; [reflexivity|].
  change (nth (S k) (a :: np_diff (a :: r)) 0) with (nth k (np_diff (a :: r)) 0).
  rewrite np_diff_seq, nth_map_seq; auto. cbn [length] in *. lia.
Qed.
Lemma ediff_sum t i : (i < length t)%nat -> rsum (S i) (fun k => nth k (ediff_begin t) 0) = nth i t 0.
Proof.
  induction i as [|i IH]; intros H.
  - cbn [rsum]. rewrite ediff_nth by auto. lra.
  - change (rsum (S (S i)) ?f) with (rsum (S i) f + f (S i)). rewrite IH by lia. cbv beta. rewrite ediff_nth by auto. lra.
Qed.
Lemma ediff_nonneg t k : StronglySorted Rlt t -> Forall (fun s => 0 < s) t -> (k < length t)%nat -> 0 <= nth k (ediff_begin t) 0.
Proof.
  intros HS F H. rewrite ediff_nth by auto. destruct k as [|k].
  - rewrite Forall_forall in F. left. apply F, nth_In. auto.
  - pose proof (sorted_nth_lt t k (S k) HS ltac:(lia)). lra.
Qed.
Lemma wiener_coord_nth t z init mu i : length z = length t -> (i < length t)%nat ->
  nth i (wiener_coord t z init mu) 0 = (init + mu * nth i t 0) + rsum (S i) (fun k => sqrt (nth k (ediff_begin t) 0) * nth k z 0).
Proof.
  intros L H. unfold wiener_coord. rewrite cumsum_0, cumsum_from_seq.
  assert (LC : length (map (fun p => sqrt (fst p) * snd p + fst p * mu) (combine (ediff_begin t) z)) = length t).
  { rewrite map_length, combine_length, ediff_length. lia. }
  rewrite LC, map_map, nth_map_seq by auto.
  rewrite (rsum_ext (S i) _ (fun k => sqrt (nth k (ediff_begin t) 0) * nth k z 0 + nth k (ediff_begin t) 0 * mu)).
  - rewrite rsum_plus, rsum_scal_r, ediff_sum by auto. lra.
  - intros k Hk. rewrite (combine_seq (ediff_begin t) z (length t) 0 0) by (rewrite ?ediff_length; auto).
    rewrite map_map, nth_map_seq by lia. reflexivity.
Qed.
Lemma wiener_coord_length t z init mu : length z = length t -> length (wiener_coord t z init mu) = length t.
Proof.
  intros L. unfold wiener_coord. rewrite cumsum_0, cumsum_from_seq, !map_length, seq_length, combine_length, ediff_length. lia.
Qed.
Lemma rsum_cut n i f : (i < n)%nat -> rsum n (fun k => if Nat.leb k i then f k else 0) = rsum (S i) f.
Proof.
  intros H. induction n as [|n IH]; [lia|]. cbn [rsum]. destruct (Nat.eq_dec i n) as [->|NE].
  - rewrite Nat.leb_refl. f_equal. apply rsum_ext. intros k Hk. rewrite (proj2 (Nat.leb_le k n)) by lia. auto.
  - rewrite IH by lia. rewrite (proj2 (Nat.leb_gt n i)) by lia. cbn [rsum]. lra.
Qed.
(** the lower triangular factor *)
Definition factor (t : list R) (i k : nat) : R := if Nat.leb k i then sqrt (nth k (ediff_begin t) 0) else 0.
Lemma factor_cov t i j : StronglySorted Rlt t -> Forall (fun s => 0 < s) t -> (i < length t)%nat -> (j < length t)%nat ->
  rsum (length t) (fun k => factor t i k * factor t j k) = nth (Nat.min i j) t 0.
Proof.
  intros HS F Hi Hj. rewrite <- (ediff_sum t (Nat.min i j)) by lia. rewrite <- (rsum_cut (length t) (Nat.min i j)) by lia.
  apply rsum_ext. intros k Hk. unfold factor. destruct (Nat.leb_spec k i), (Nat.leb_spec k j), (Nat.leb_spec k (Nat.min i j)); try lia; try lra.
  apply sqrt_sqrt, ediff_nonneg; auto.
Qed.
Lemma min_time t i j : StronglySorted Rlt t -> (i < length t)%nat -> (j < length t)%nat -> Rmin (nth j t 0) (nth i t 0) = nth (Nat.min i j) t 0.
Proof.
  intros HS Hi Hj. destruct (Nat.lt_trichotomy i j) as [L|[->|L]].
  - rewrite Nat.min_l by lia. rewrite Rmin_right; auto. pose proof (sorted_nth_lt t i j HS ltac:(lia)). lra.
  - rewrite Nat.min_id, Rmin_left; auto; lra.
  - rewrite Nat.min_r by lia. rewrite Rmin_left; auto. pose proof (sorted_nth_lt t j i HS ltac:(lia)). lra.
Qed.
Lemma max_time t i j : StronglySorted Rlt t -> (i < length t)%nat -> (j < length t)%nat -> Rmax (nth j t 0) (nth i t 0) = nth (Nat.max i j) t 0.
Proof.
  intros HS Hi Hj. destruct (Nat.lt_trichotomy i j) as [L|[->|L]].
  - rewrite Nat.max_r by lia. rewrite Rmax_left; auto. pose proof (sorted_nth_lt t i j HS ltac:(lia)). lra.
  - rewrite Nat.max_id, Rmax_left; auto; lra.
  - rewrite Nat.max_l by lia. rewrite Rmax_right; auto. pose proof (sorted_nth_lt t j i HS ltac:(lia)). lra.
Qed.
Lemma nth_map_lt {A} (f : A -> R) l i d : (i < length l)%nat -> nth i (map f l) 0 = f (nth i l d).
Proof. intros H. rewrite (nth_indep _ 0 (f d)) by (now rewrite map_length). apply map_nth. Qed.
Lemma entry_map (g : R -> R -> R) t i j : (i < length t)%nat -> (j < length t)%nat ->
  entry (map (fun r => map (fun c => g c r) t) t) i j = g (nth j t 0) (nth i t 0).
Proof.
  intros Hi Hj. unfold entry. rewrite (nth_indep _ [] ((fun r => map (fun c => g c r) t) 0)) by (now rewrite map_length).
  rewrite (map_nth (fun r => map (fun c => g c r) t)). now rewrite (nth_map_lt _ t j 0).
Qed.
Lemma rows_length (g : R -> R -> R) t : Forall (fun r => length r = length t) (map (fun r => map (fun c => g c r) t) t).
Proof. apply Forall_forall. intros r H. apply in_map_iff in H as (x & <- & _). now rewrite map_length. Qed.

Lemma wiener_moments t init mu : time_grid t -> exists m c, moments_wiener t init mu = Ok (m, c) /\
  gaussian (length t) (fun z => wiener_coord t z init mu) m c.
Proof.
  intros (N & HS & F). destruct (min_pos t N F) as (m0 & E0 & P0).
  unfold moments_wiener. rewrite E0. cbn [rbind]. rewrite (proj2 (Rltb_true _ _) P0). cbn [negb]. do 2 eexists. split; [reflexivity|].
  split; [now rewrite map_length|]. split; [now rewrite map_length|]. split; [apply (rows_length Rmin)|].
  exists (factor t). split.
  - intros z Lz. split; [now apply wiener_coord_length|]. intros i Hi. rewrite wiener_coord_nth, (nth_map_lt _ t i 0) by auto. f_equal.
    rewrite <- (rsum_cut (length t) i) by auto. apply rsum_ext. intros k Hk. unfold factor. destruct (Nat.leb k i); lra.
  - intros i j Hi Hj. rewrite (entry_map Rmin), factor_cov by auto. now apply min_time.
Qed.
Lemma seq_shift_add k n a : map (fun i => (k + i)%nat) (seq a n) = seq (k + a) n.
Proof. revert a. induction n as [|n IH]; intros a; simpl; auto. f_equal. rewrite IH. f_equal. lia. Qed.
Lemma draw_normals o n : forall k, draw_rs (repeat DNormal n) o k = (Ok (normals o k n), (k + n)%nat).
Proof.
  intros k. rewrite draw_rs_repeat. f_equal. f_equal. unfold normals. rewrite <- (Nat.add_0_r k) at 1. rewrite <- seq_shift_add, map_map. reflexivity.
Qed.
Lemma normals_length o k n : length (normals o k n) = n.
Proof. unfold normals. now rewrite map_length, seq_length. Qed.
Lemma wiener_run t init mu o k : time_grid t -> sample_wiener t init mu o k =
  (Ok (map (fun j => wiener_coord t (every (normals o k (length t * length init)) (length t) (length init) j) (nth j init 0) (nth j mu 0)) (seq 0 (length init))),
   (k + length t * length init)%nat).
Proof.
  intros (N & HS & F). destruct (min_pos t N F) as (m0 & E0 & P0). unfold sample_wiener. rewrite E0.
  unfold bind at 1, lift. unfold bind at 1, assert_. rewrite (proj2 (Rltb_true _ _) P0). unfold ret at 1. unfold bind. rewrite draw_normals. reflexivity.
Qed.
Lemma wiener_statement t init mu : time_grid t -> exists X : nat -> list R -> list R,
  (forall o k, sample_wiener t init mu o k = (Ok (map (fun j => X j (every (normals o k (length t * length init)) (length t) (length init) j)) (seq 0 (length init))),
     (k + length t * length init)%nat)) /\
  forall j, (j < length init)%nat -> exists m c, moments_wiener t (nth j init 0) (nth j mu 0) = Ok (m, c) /\ gaussian (length t) (X j) m c.
Proof.
  intros G. exists (fun j z => wiener_coord t z (nth j init 0) (nth j mu 0)). split; [intros; now apply wiener_run|].
  intros j _. now apply wiener_moments.
Qed.

(** ** Brownian bridge *)
Lemma every_one z n : length z = n -> every z n 1 0 = z.
Proof.
  intros L. unfold every. rewrite <- L. transitivity (map (fun j => nth j z 0) (seq 0 (length z))); [|symmetry; apply list_seq]. apply map_seq_ext. intros i Hi. f_equal. lia.
Qed.
Section Bridge.
Variables (t : list R) (T a b : R).
Hypothesis GT : time_grid t.
Hypothesis BT : Forall (fun s => s < T) t.
Lemma T_pos : 0 < T.
Proof. destruct GT as (N & _ & F). destruct t as [|x r]; [easy|]. inversion F; inversion BT; subst. lra. Qed.
Lemma nth_range i : (i < length t)%nat -> 0 < nth i t 0 < T.
Proof.
  intros H. destruct GT as (_ & _ & F). rewrite Forall_forall in F, BT. split; [apply F|apply BT]; now apply nth_In.
Qed.
Lemma bt_nth i : (i < length t)%nat -> nth i (brownbr_times t T) 0 = nth i t 0 / (T - nth i t 0).
Proof.
  intros H. unfold brownbr_times. rewrite (nth_map_lt _ t i 0) by auto. pose proof (nth_range i H). field. lra.
Qed.
Lemma bt_length : length (brownbr_times t T) = length t.
Proof. unfold brownbr_times. apply map_length. Qed.
Lemma bt_grid : time_grid (brownbr_times t T).
Proof.
  pose proof T_pos as TP. destruct GT as (N & HS & F). split; [|split].
  - unfold brownbr_times. destruct t; easy.
  - unfold brownbr_times.
    assert (X : forall l, Forall (fun s => 0 < s < T) l -> StronglySorted Rlt l -> StronglySorted Rlt (map (fun s => s / T / (1 - s / T)) l)).
    { induction l as [|x l IH]; intros FF SS; [constructor|]. inversion FF; inversion SS; subst. cbn [map]. constructor; auto.
      apply Forall_forall. intros y Hy. apply in_map_iff in Hy as (w & <- & Hw). rewrite Forall_forall in *.
      assert (x < w) by auto. assert (0 < w < T) by auto.
      replace (x / T / (1 - x / T)) with (x / (T - x)) by (field; lra).
      replace (w / T / (1 - w / T)) with (w / (T - w)) by (field; lra).
      apply (Rmult_lt_reg_r ((T - x) * (T - w))); [nra|].
      replace (x / (T - x) * ((T - x) * (T - w))) with (x * (T - w)) by (field; lra).
      replace (w / (T - w) * ((T - x) * (T - w))) with (w * (T - x)) by (field; lra). nra. }
    apply X; auto. rewrite Forall_forall in *. intros x Hx. split; auto.
  - apply Forall_forall. intros y Hy. apply in_map_iff in Hy as (w & <- & Hw). rewrite Forall_forall in *.
    assert (0 < w) by auto. assert (w < T) by auto. replace (w / T / (1 - w / T)) with (w / (T - w)) by (field; lra). apply Rdiv_lt_0_compat; lra.
Qed.
Definition bridge_of (z : list R) : list R :=
  map (fun p => sqrt T * ((1 - fst p / T) * snd p)) (combine t (wiener_coord (brownbr_times t T) z (a / sqrt T) (b / sqrt T))).
Lemma bridge_run o k : sample_brownbr t T a b o k = (Ok (bridge_of (normals o k (length t))), (k + length t)%nat).
Proof.
  destruct GT as (N & HS & F). destruct (min_pos t N F) as (m0 & E0 & P0). destruct (max_below t T N BT) as (m1 & E1 & P1).
  unfold sample_brownbr. rewrite E0, E1.
  unfold bind at 1, lift. unfold bind at 1. unfold bind at 1, assert_. rewrite (proj2 (Rltb_true _ _) P0), (proj2 (Rltb_true _ _) P1). cbn [andb].
  unfold ret at 1. unfold bind. rewrite (wiener_run _ _ _ o k bt_grid). cbn [length seq map nth]. rewrite bt_length, Nat.mul_1_r.
  rewrite every_one by apply normals_length. reflexivity.
Qed.
Lemma bridge_moments : exists m c, moments_brownbr t T a b = Ok (m, c) /\ gaussian (length t) bridge_of m c.
Proof.
  pose proof T_pos as TP. pose proof (sqrt_lt_R0 T TP) as SP. pose proof (sqrt_sqrt T ltac:(lra)) as SS.
  destruct GT as (N & HS & F). destruct (min_pos t N F) as (m0 & E0 & P0). destruct (max_below t T N BT) as (m1 & E1 & P1).
  unfold moments_brownbr. rewrite E0, E1. cbn [rbind]. rewrite (proj2 (Rltb_true _ _) P0), (proj2 (Rltb_true _ _) P1). cbn [negb andb].
  do 2 eexists. split; [reflexivity|].
  split; [now rewrite map_length|]. split; [now rewrite map_length|]. split; [apply (rows_length (fun c r => (T - Rmax c r) * Rmin c r / T))|].
  exists (fun i k => sqrt T * (1 - nth i t 0 / T) * factor (brownbr_times t T) i k). split.
  - intros z Lz. assert (LW : length (wiener_coord (brownbr_times t T) z (a / sqrt T) (b / sqrt T)) = length t).
    { rewrite wiener_coord_length; rewrite bt_length; auto. }
    unfold bridge_of. split; [rewrite map_length, combine_length; lia|]. intros i Hi.
    rewrite (combine_seq t _ (length t) 0 0) by auto. rewrite map_map, nth_map_seq by auto. cbn [fst snd].
    rewrite wiener_coord_nth by (rewrite bt_length; auto). rewrite bt_nth by auto. rewrite (nth_map_lt _ t i 0) by auto.
    rewrite (rsum_ext (length t) _ (fun k => sqrt T * (1 - nth i t 0 / T) * (factor (brownbr_times t T) i k * nth k z 0))) by (intros; ring).
    rewrite rsum_scal_l, <- (rsum_cut (length t) i) by auto.
    rewrite (rsum_ext (length t) (fun k => factor (brownbr_times t T) i k * nth k z 0)
       (fun k => if Nat.leb k i then sqrt (nth k (ediff_begin (brownbr_times t T)) 0) * nth k z 0 else 0)) by (intros k _; unfold factor; destruct (Nat.leb k i); lra).
    pose proof (nth_range i Hi). set (W := rsum _ _). field. lra.
  - intros i j Hi Hj. rewrite (entry_map (fun c r => (T - Rmax c r) * Rmin c r / T)) by auto. rewrite min_time, max_time by auto.
    rewrite (rsum_ext (length t) _ (fun k => T * (1 - nth i t 0 / T) * (1 - nth j t 0 / T) * (factor (brownbr_times t T) i k * factor (brownbr_times t T) j k))).
    2:{ intros k _. set (fi := factor _ i k). set (fj := factor _ j k). set (ui := 1 - nth i t 0 / T). set (uj := 1 - nth j t 0 / T).
        transitivity (sqrt T * sqrt T * ui * uj * (fi * fj)); [ring|]. now rewrite SS. }
    rewrite rsum_scal_l. destruct bt_grid as (_ & BS & BP). pose proof (factor_cov (brownbr_times t T) i j BS BP) as FC. rewrite bt_length in FC. rewrite FC by auto.
    rewrite bt_nth by lia. pose proof (nth_range i Hi). pose proof (nth_range j Hj).
    destruct (Nat.le_ge_cases i j).
    + rewrite Nat.min_l, Nat.max_r by auto. field. lra.
    + rewrite Nat.min_r, Nat.max_l by auto. field. lra.
Qed.
End Bridge.
Lemma brownbr_statement t T a b : time_grid t -> Forall (fun s => s < T) t -> exists X,
  (forall o k, sample_brownbr t T a b o k = (Ok (X (normals o k (length t))), (k + length t)%nat)) /\
  exists m c, moments_brownbr t T a b = Ok (m, c) /\ gaussian (length t) X m c.
Proof. intros G B. exists (bridge_of t T a b). split; [intros; now apply bridge_run|now apply bridge_moments]. Qed.

(** ** Conditioning *)
Lemma combine_map2 {A B C} (f : A -> B) (g : A -> C) l : combine (map f l) (map g l) = map (fun x => (f x, g x)) l.
Proof. induction l; simpl; congruence. Qed.
Lemma conditioned_wiener t T init mu fin m c : t <> [] -> Forall (fun s => 0 < s < T) t -> moments_wiener (t ++ [T]) init mu = Ok (m, c) ->
  exists r, moments_brownbr t T init fin = Ok r /\ moments_gaussian_bridge fin m c = Some r.
Proof.
  intros N F E. assert (TP : 0 < T). { destruct t; [easy|]. inversion F; subst. lra. }
  assert (F0 : Forall (fun s => 0 < s) t) by (eapply Forall_impl; [|exact F]; simpl; intros; lra).
  assert (F1 : Forall (fun s => s < T) t) by (eapply Forall_impl; [|exact F]; simpl; intros; lra).
  destruct (min_pos t N F0) as (m0 & E0 & P0). destruct (max_below t T N F1) as (m1 & E1 & P1).
  unfold moments_brownbr. rewrite E0, E1. cbn [rbind]. rewrite (proj2 (Rltb_true _ _) P0), (proj2 (Rltb_true _ _) P1). cbn [negb andb].
  eexists. split; [reflexivity|].
  assert (E' : (m, c) = (map (fun s => init + mu * s) (t ++ [T]), map (fun r => map (fun c => Rmin c r) (t ++ [T])) (t ++ [T]))).
  { unfold moments_wiener in E. destruct (arr_min (t ++ [T])); simpl in E; try discriminate. destruct (negb _); [discriminate|]. injection E as <- <-. reflexivity. }
  injection E' as -> ->. unfold moments_gaussian_bridge. rewrite !map_app. cbn [map]. rewrite !last_opt_app, !but_last_app.
  rewrite map_app. cbn [map]. rewrite last_opt_app, but_last_app. f_equal. f_equal.
  - rewrite combine_map2, map_map. apply map_ext_in. intros x Hx. cbn [fst snd]. rewrite Forall_forall in F. specialize (F x Hx).
    rewrite (Rmin_left x T), (Rmin_left T T) by lra. field. lra.
  - rewrite combine_map2, map_map. apply map_ext_in. intros x Hx. cbn [fst snd]. rewrite map_app. cbn [map]. rewrite but_last_app, combine_map2, map_map.
    apply map_ext_in. intros y Hy. cbn [fst snd]. rewrite Forall_forall in F. pose proof (F x Hx). pose proof (F y Hy).
    rewrite (Rmin_left x T), (Rmin_left y T), (Rmin_left T T) by lra. unfold Rmin, Rmax. destruct (Rle_dec y x); field; lra.
Qed.
(** for any Gaussian vector: given the last coordinate, the others have the returned mean and covariance *)
Lemma firstn_removelast_nth {A} (l : list A) i d : (S i < length l)%nat -> nth i (but_last l) d = nth i l d.
Proof. intros H. unfold but_last. rewrite (removelast_seq l d). rewrite (nth_map_seq (fun j => nth j l d)); auto. lia. Qed.
Lemma last_opt_nth {A} (l : list A) n d : length l = S n -> last_opt l = Some (nth n l d).
Proof.
  intros H. destruct (@exists_last _ l) as (r & x & ->); [intros ->; discriminate|]. rewrite last_opt_app.
  rewrite app_length in H. cbn [length] in H. rewrite app_nth2 by lia. replace (n - length r)%nat with 0%nat by lia. reflexivity.
Qed.
Lemma conditional_law n X mean cov : gaussian (S n) X mean cov -> 0 < entry cov n n ->
  forall x cm cc, moments_gaussian_bridge x mean cov = Some (cm, cc) ->
  exists B C : nat -> nat -> R,
    length cm = n /\ length cc = n /\
    (forall z, length z = S n -> nth n (X z) 0 = nth n mean 0 + rsum (S n) (fun k => C n k * nth k z 0)) /\
    (forall z, length z = S n -> nth n (X z) 0 = x -> forall i, (i < n)%nat -> nth i (X z) 0 = nth i cm 0 + rsum (S n) (fun k => B i k * nth k z 0)) /\
    (forall i, (i < n)%nat -> rsum (S n) (fun k => B i k * C n k) = 0) /\
    (forall i j, (i < n)%nat -> (j < n)%nat -> entry cc i j = rsum (S n) (fun k => B i k * B j k)).
Proof.
  intros (L1 & L2 & L3 & A & HX & HC) VP x cm cc E. unfold moments_gaussian_bridge in E.
  assert (RL : forall i, (i < S n)%nat -> length (nth i cov []) = S n).
  { intros i Hi. rewrite Forall_forall in L3. apply L3, nth_In. lia. }
  rewrite (last_opt_nth mean n 0), (last_opt_nth cov n []) in E by auto. rewrite (last_opt_nth (nth n cov []) n 0) in E by (apply RL; lia).
  fold (entry cov n n) in E. set (v := entry cov n n) in *. injection E as <- <-.
  assert (LR : length (but_last (nth n cov [])) = n) by (rewrite but_last_length, RL; lia).
  assert (CR : forall i, (i < n)%nat -> nth i (but_last (nth n cov [])) 0 = entry cov n i).
  { intros i Hi. rewrite firstn_removelast_nth; auto. rewrite RL; lia. }
  assert (LM : length (but_last mean) = n) by (rewrite but_last_length; lia).
  assert (LV : length (but_last cov) = n) by (rewrite but_last_length; lia).
  exists (fun i k => A i k - entry cov n i / v * A n k), A.
  assert (SY : forall i, (i < S n)%nat -> entry cov n i = rsum (S n) (fun k => A i k * A n k)).
  { intros i Hi. rewrite HC by lia. apply rsum_ext. intros; ring. }
  split; [rewrite map_length, combine_length; lia|]. split; [rewrite map_length, combine_length; lia|]. split; [intros z Lz; apply HX; auto; lia|]. split; [|split].
  - intros z Lz Xn i Hi. destruct (HX z Lz) as [_ HZ]. pose proof (HZ n ltac:(lia)) as Hn. rewrite HZ by lia.
    rewrite (combine_seq (but_last mean) _ n 0 0) by auto. rewrite map_map, nth_map_seq by auto. cbn [fst snd].
    rewrite CR, firstn_removelast_nth by lia.
    rewrite (rsum_ext (S n) (fun k => (A i k - entry cov n i / v * A n k) * nth k z 0) (fun k => A i k * nth k z 0 - entry cov n i / v * (A n k * nth k z 0))) by (intros; ring).
    rewrite rsum_minus, rsum_scal_l. rewrite <- Xn, Hn. field. lra.
  - intros i Hi. rewrite (rsum_ext (S n) _ (fun k => A i k * A n k - entry cov n i / v * (A n k * A n k))) by (intros; ring).
    rewrite rsum_minus, rsum_scal_l, <- SY by lia. rewrite <- (HC n n) by lia. fold v. field. lra.
  - intros i j Hi Hj. unfold entry at 1. rewrite (combine_seq (but_last cov) _ n [] 0) by auto. rewrite map_map.
    rewrite nth_map_seq by auto. cbn [fst snd].
    rewrite (combine_seq (but_last (nth i (but_last cov) [])) _ n 0 0); auto.
    2:{ rewrite firstn_removelast_nth by lia. rewrite but_last_length, RL; lia. }
    rewrite map_map, nth_map_seq by auto. cbn [fst snd]. rewrite !CR by auto.
    rewrite firstn_removelast_nth by (rewrite firstn_removelast_nth, RL by lia; lia). rewrite firstn_removelast_nth by lia. fold (entry cov i j).
    rewrite (rsum_ext (S n) _ (fun k => A i k * A j k - entry cov n j / v * (A i k * A n k) - entry cov n i / v * (A j k * A n k)
       + entry cov n i / v * (entry cov n j / v) * (A n k * A n k))) by (intros; ring).
    rewrite rsum_plus, !rsum_minus, !rsum_scal_l, <- (SY i), <- (SY j), <- (HC i j), <- (HC n n) by lia. fold v. field. lra.
Qed.
