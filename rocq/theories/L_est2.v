(** fill_wiener_vector, est_se, infinite bounds in est_aug_lik. *)
From Coq Require Import Reals List Bool Arith ZArith Lra Lia Psatz Sorted.
From Verif Require Import Base Np Rng L_list L_rng L_prop M_mjp M_hit M_path SpecPath M_skel L_skel L_skel2 L_skel7 M_seed SpecSeed L_seed L_seed3 L_sde3 M_models M_inf M_sw M_adapt M_mcem M_est
  SpecLaw L_law L_law2 SpecGauss L_gauss3 L_sde SpecEst L_est Mat L_mat.
Import ListNotations.
Local Open Scope R_scope.

(** ** fill_wiener_vector *)
Lemma insert_at : forall A (arr row : list A) n i p, (p <= i)%nat -> (i <= p + length arr)%nat -> length row = n ->
  np_insert_from p arr (combine (repeat i n) row) = firstn (i - p) arr ++ row ++ skipn (i - p) arr.
Proof.
  intros A arr. induction arr as [|a arr IH]; intros row n i p H1 H2 L; cbn [np_insert_from length] in *.
  - assert (i = p) as -> by lia. rewrite firstn_nil, skipn_nil, !app_nil_r. subst n. cbn [app].
    induction row as [|b row IH]; [reflexivity|]. cbn. rewrite Nat.eqb_refl. cbn. f_equal. exact IH.
  - destruct (Nat.eq_dec i p) as [->|N].
    + rewrite Nat.sub_diag. cbn [firstn skipn app].
      assert (E : map snd (filter (fun q : nat * A => Nat.eqb (fst q) p) (combine (repeat p n) row)) = row).
      { subst n. clear. induction row as [|b row IH]; [reflexivity|]. cbn. rewrite Nat.eqb_refl. cbn. f_equal. exact IH. }
      rewrite E. f_equal. f_equal. clear E IH H1 H2. subst n.
      assert (G : forall q, (p < q)%nat -> np_insert_from q arr (combine (repeat p (length row)) row) = arr); [|apply G; lia].
      induction arr as [|b arr IH]; intros q Hq; cbn [np_insert_from].
      * rewrite app_nil_r. induction row as [|c row IHr]; [reflexivity|]. cbn. destruct (Nat.eqb_spec p q); [lia|]. exact IHr.
      * rewrite IH by lia. assert (Z : map snd (filter (fun r : nat * A => Nat.eqb (fst r) q) (combine (repeat p (length row)) row)) = []); [|rewrite Z; reflexivity].
        clear IH. induction row as [|c row IHr]; [reflexivity|]. cbn. destruct (Nat.eqb_spec p q); [lia|]. exact IHr.
    + replace (i - p)%nat with (S (i - S p)) by lia. cbn [firstn skipn app]. rewrite IH by lia.
      assert (Z : map snd (filter (fun r : nat * A => Nat.eqb (fst r) p) (combine (repeat i n) row)) = []); [|rewrite Z; reflexivity].
      subst n. clear - N. induction row as [|c row IHr]; [reflexivity|]. cbn. destruct (Nat.eqb_spec i p); [lia|]. exact IHr.
Qed.
Lemma filt_none : forall u (l : list R), Forall (fun c => u < c) l -> filter (fun c => Rleb c u) l = [].
Proof. intros u l. induction l as [|c l IHl]; intros F; [reflexivity|]. inversion F; subst. cbn [filter]. rewrite (proj2 (Rleb_false c u)) by lra. apply IHl. assumption. Qed.
Lemma pos_ends : forall (t : list R) u i, StronglySorted Rlt t -> searchsorted_right t u = i -> (forall j, (j < i)%nat -> nth j t 0 <= u) /\ (forall j, (i <= j < length t)%nat -> u < nth j t 0) /\ (i <= length t)%nat.
Proof.
  unfold searchsorted_right. intros t u. change (fun a0 : R => nleb a0 u) with (fun c : R => Rleb c u). induction t as [|a t IH]; intros i SS E.
  - cbn in E. subst i. repeat split; cbn; intros; lia.
  - apply StronglySorted_inv in SS as [SS FA]. cbn [filter] in E. destruct (Rleb a u) eqn:C.
    + apply Rleb_true in C. cbn [length] in E. destruct i as [|i]; [lia|]. injection E as E. destruct (IH i SS E) as (A & B & D). split; [|split].
      * intros [|j] Hj; cbn [nth]; [exact C|apply A; lia].
      * intros [|j] Hj; [lia|]. cbn [nth length] in *. apply B; lia.
      * cbn; lia.
    + apply Rleb_false in C.
      assert (FT : Forall (fun c => u < c) t) by (eapply Forall_impl; [|exact FA]; cbn; intros; lra).
      rewrite (filt_none u t FT) in E. cbn in E. subst i. split; [|split].
      * intros j Hj; lia.
      * intros [|j] Hj; cbn [nth length] in *; [exact C|]. rewrite Forall_forall in FT. apply FT, nth_In. lia.
      * cbn; lia.
Qed.
Lemma pos_in : forall (t : list R) j u, StronglySorted Rlt t -> (S j < length t)%nat -> nth j t 0 <= u < nth (S j) t 0 -> searchsorted_right t u = S j.
Proof.
  intros t j u SS L H. destruct (pos_ends t u _ SS eq_refl) as (A & B & D). set (i := searchsorted_right t u) in *.
  destruct (Nat.lt_trichotomy i (S j)) as [C|[C|C]]; [|exact C|].
  - specialize (B j ltac:(lia)). lra.
  - specialize (A (S j) C). lra.
Qed.
Lemma unique_one : forall n i k, (i <= n)%nat -> (0 < k)%nat -> np_unique_pos n (repeat i k) = [i].
Proof.
  intros n i k Hi Hk. unfold np_unique_pos.
  assert (E : forall j, existsb (Nat.eqb j) (repeat i k) = Nat.eqb j i).
  { intros j. destruct k as [|k]; [lia|]. clear. cbn. destruct (Nat.eqb j i) eqn:E; [reflexivity|]. cbn. induction k; cbn; auto. rewrite E. exact IHk. }
  rewrite (filter_ext _ (fun j => Nat.eqb j i)) by exact E. clear E Hk.
  assert (G : forall m s, (s <= i < s + m)%nat -> filter (fun j => Nat.eqb j i) (seq s m) = [i]); [|apply G; lia].
  induction m as [|m IH]; intros s H; [lia|]. cbn [seq filter]. destruct (Nat.eqb_spec s i) as [->|N].
  - f_equal. clear. assert (Z : forall m s, (i < s)%nat -> filter (fun j => Nat.eqb j i) (seq s m) = []); [|apply Z; lia].
    induction m0 as [|m0 IH0]; intros s Hs; [reflexivity|]. cbn. destruct (Nat.eqb_spec s i); [lia|]. apply IH0. lia.
  - apply IH. lia.
Qed.
Lemma unique_in : forall n l i, In i l -> (i <= n)%nat -> In i (np_unique_pos n l).
Proof.
  intros n l i H L. unfold np_unique_pos. apply filter_In. split; [apply in_seq; lia|]. apply existsb_exists. exists i. split; [exact H|apply Nat.eqb_refl].
Qed.

Lemma b_lift : forall A B (a : A) (f : A -> M B) o k, bind (lift (Ok a)) f o k = f a o k.
Proof. reflexivity. Qed.
Lemma b_ret : forall A B (a : A) (f : A -> M B) o k, bind (ret a) f o k = f a o k.
Proof. reflexivity. Qed.
Lemma b_assert : forall B (f : unit -> M B) o k, bind (assert_ true) f o k = f tt o k.
Proof. reflexivity. Qed.
Lemma b_opt : forall A B e (a : A) (f : A -> M B) o k, bind (lift_opt e (Some a)) f o k = f a o k.
Proof. reflexivity. Qed.
Lemma fill_run : forall t x new_t j, StronglySorted Rlt t -> 0 <= nth 0 t 0 -> length x = length t -> new_t <> [] -> in_gap t j new_t -> forall o k,
  fill_wiener_vector t x new_t o k =
  (do row <- sample_brownbr (map (fun u => u - nth j t 0) new_t) (nth (S j) t 0 - nth j t 0) (nth j x 0) (nth (S j) x 0);
   ret (np_insert t (repeat (S j) (length new_t)) new_t, np_insert x (repeat (S j) (length new_t)) row, seq (S j) (length new_t))) o k.
Proof.
  intros t x new_t j SS H0 Lx NE [Lj IN] o k.
  assert (NT : t <> []) by (destruct t; [cbn in Lj; lia|discriminate]).
  destruct (arr_min_ok t NT) as (t0 & E0 & I0 & M0). destruct (arr_max_ok t NT) as (t1 & E1 & I1 & M1).
  destruct (arr_min_ok new_t NE) as (s0 & F0 & J0 & N0). destruct (arr_max_ok new_t NE) as (s1 & F1 & J1 & N1).
  assert (t0 = nth 0 t 0) by (apply sorted_min; assumption).
  rewrite Forall_forall in IN. pose proof (IN s0 J0) as A0. pose proof (IN s1 J1) as A1.
  assert (B0 : t0 <= nth j t 0) by (apply M0, nth_In; lia). assert (B1 : nth (S j) t 0 <= t1) by (apply M1, nth_In; lia).
  assert (IT : map (searchsorted_right t) new_t = repeat (S j) (length new_t)).
  { assert (G : forall l, (forall u, In u l -> nth j t 0 < u < nth (S j) t 0) -> map (searchsorted_right t) l = repeat (S j) (length l)); [|apply G; exact IN].
    induction l as [|u l IH]; intros H'; [reflexivity|]. cbn [map repeat length]. f_equal.
    - apply pos_in; [exact SS|exact Lj|]. specialize (H' u (or_introl eq_refl)). lra.
    - apply IH. intros v Hv. apply H'. right. exact Hv. }
  unfold fill_wiener_vector. rewrite E0, E1, F0, F1, !b_lift.
  assert (CH : Rleb 0 t0 && Rltb t0 s0 && Rleb s0 s1 && Rleb s1 t1 = true).
  { rewrite !andb_true_iff. repeat split; [apply Rleb_true|apply Rltb_true|apply Rleb_true|apply Rleb_true]; try lra. apply N1. exact J0. }
  rewrite CH, b_assert, Lx, Nat.eqb_refl, b_assert, IT. cbv zeta.
  rewrite unique_one; [|lia|destruct new_t; [congruence|cbn; lia]]. cbn [map_m].
  replace (S j - 1)%nat with j by lia.
  rewrite (nth_error_nth' t 0) by lia. rewrite (nth_error_nth' t 0) by lia. rewrite (nth_error_nth' x 0) by lia. rewrite (nth_error_nth' x 0) by lia.
  assert (FE : map (fun p : nat * R => snd p - nth j t 0) (filter (fun p : nat * R => Nat.eqb (fst p) (S j)) (combine (repeat (S j) (length new_t)) new_t)) = map (fun u => u - nth j t 0) new_t).
  { clear. induction new_t as [|u l IH]; [reflexivity|]. cbn [length repeat combine filter fst]. rewrite Nat.eqb_refl. cbn [map snd]. f_equal. exact IH. }
  unfold bind, lift_opt, ret. cbv beta iota. rewrite FE. destruct (sample_brownbr _ _ _ _ o k) as [[row|e|] k1]; try reflexivity.
  cbn. do 3 f_equal. rewrite repeat_length. generalize (length new_t). clear. intros m.
  assert (G : forall a, map (fun p : nat * nat => (fst p + snd p)%nat) (combine (repeat (S j) m) (seq a m)) = seq (S j + a) m).
  { induction m as [|m IH]; intros a; [reflexivity|]. cbn [repeat seq combine map fst snd]. f_equal. rewrite IH. f_equal. lia. }
  rewrite G. f_equal. lia.
Qed.

Lemma gap_grid : forall t j new_t, new_t <> [] -> StronglySorted Rlt new_t -> in_gap t j new_t ->
  time_grid (map (fun u => u - nth j t 0) new_t) /\ Forall (fun s => s < nth (S j) t 0 - nth j t 0) (map (fun u => u - nth j t 0) new_t).
Proof.
  intros t j new_t NE SS [_ IN]. split; [split; [|split]|].
  - destruct new_t; easy.
  - clear - SS. induction SS as [|u l SS IH F]; [constructor|]. cbn [map]. constructor; [exact IH|]. apply Forall_map. eapply Forall_impl; [|exact F]. cbn; intros; lra.
  - apply Forall_map. eapply Forall_impl; [|exact IN]. cbn; intros; lra.
  - apply Forall_map. eapply Forall_impl; [|exact IN]. cbn; intros; lra.
Qed.
Lemma bridge_of_length : forall t T a b z, time_grid t -> Forall (fun s => s < T) t -> length z = length t -> length (bridge_of t T a b z) = length t.
Proof.
  intros t T a b z G F L. unfold bridge_of. rewrite map_length, combine_length, wiener_coord_length; rewrite bt_length; [apply Nat.min_id|exact L].
Qed.
Lemma fill_ok : forall t x new_t j, StronglySorted Rlt t -> 0 <= nth 0 t 0 -> length x = length t -> new_t <> [] -> StronglySorted Rlt new_t -> in_gap t j new_t ->
  forall o k, exists row k', fill_wiener_vector t x new_t o k =
    (Ok (firstn (S j) t ++ new_t ++ skipn (S j) t, firstn (S j) x ++ row ++ skipn (S j) x, seq (S j) (length new_t)), k') /\ length row = length new_t.
Proof.
  intros t x new_t j SS H0 Lx NE SN IG o k. destruct (gap_grid t j new_t NE SN IG) as [GR BE]. pose proof IG as [Lj _].
  rewrite (fill_run t x new_t j SS H0 Lx NE IG o k). unfold bind. rewrite (bridge_run _ _ _ _ GR BE o k).
  set (row := bridge_of _ _ _ _ _). assert (LR : length row = length new_t).
  { unfold row. rewrite bridge_of_length; [apply map_length|exact GR|exact BE|]. rewrite normals_length. reflexivity. }
  exists row. eexists. split; [|exact LR]. unfold ret, np_insert. rewrite !insert_at; [|lia|lia|exact LR|lia|lia|reflexivity]. rewrite !Nat.sub_0_r. reflexivity.
Qed.
Lemma fill_law : forall t x new_t j th, StronglySorted Rlt t -> 0 <= nth 0 t 0 -> length x = length t -> new_t <> [] -> StronglySorted Rlt new_t -> in_gap t j new_t ->
  average (fill_wiener_vector t x new_t)
    (fun r => exp (rsum (length new_t) (fun i => th i * nth (nth i (snd r) 0%nat) (snd (fst r)) 0)))
    (gaussian_mgf (length new_t) (fun i => nth j x 0 + (nth (S j) x 0 - nth j x 0) * (nth i new_t 0 - nth j t 0) / (nth (S j) t 0 - nth j t 0))
       (fun i i' => (Rmin (nth i new_t 0) (nth i' new_t 0) - nth j t 0) * (nth (S j) t 0 - Rmax (nth i new_t 0) (nth i' new_t 0)) / (nth (S j) t 0 - nth j t 0)) th).
Proof.
  intros t x new_t j th SS H0 Lx NE SN IG. destruct (gap_grid t j new_t NE SN IG) as [GR BE]. pose proof IG as [Lj _].
  eapply average_comp. { intros o k _. exact (fill_run t x new_t j SS H0 Lx NE IG o k). }
  apply average_map. pose proof (brownbr_law _ _ (nth j x 0) (nth (S j) x 0) th GR BE) as A. rewrite map_length in A.
  eapply average_eq; [|apply (average_swap _ _ (fun row => exp (rsum (length new_t) (fun i => th i * nth i row 0)))); [|exact A]].
  - unfold gaussian_mgf. f_equal. f_equal; [|f_equal].
    + apply rsum_ext. intros i Hi. rewrite (nth_map_lt _ new_t i 0) by auto. reflexivity.
    + apply rsum_ext. intros i Hi. apply rsum_ext. intros i' Hi'. rewrite !(nth_map_lt _ new_t _ 0) by auto. f_equal.
      assert (M1 : forall a b c, Rmin (a - c) (b - c) = Rmin a b - c) by (intros; unfold Rmin; destruct (Rle_dec (a - c) (b - c)), (Rle_dec a b); lra).
      assert (M2 : forall a b c, Rmax (a - c) (b - c) = Rmax a b - c) by (intros; unfold Rmax; destruct (Rle_dec (a - c) (b - c)), (Rle_dec a b); lra).
      rewrite M1, M2. f_equal. f_equal. lra.
  - intros o k V. rewrite (bridge_run _ _ _ _ GR BE o k). cbn [fst]. set (row := bridge_of _ _ _ _ _). assert (LR : length row = length new_t).
    { unfold row. rewrite bridge_of_length; [apply map_length|exact GR|exact BE|]. rewrite normals_length. reflexivity. }
    cbn [snd fst]. f_equal. apply rsum_ext. intros i Hi. f_equal. rewrite seq_nth by auto.
    unfold np_insert. rewrite insert_at; [|lia|lia|exact LR]. rewrite Nat.sub_0_r, app_nth2; rewrite firstn_length, Nat.min_l by lia; [|lia].
    replace (S j + i - S j)%nat with i by lia. rewrite app_nth1 by lia. reflexivity.
Qed.
Lemma sector_only : forall n l i, np_unique_pos n l = [i] -> Forall (fun q => (q <= n)%nat) l -> Forall (eq i) l.
Proof.
  intros n l i E F. rewrite Forall_forall in *. intros q Hq. pose proof (unique_in n l q Hq (F q Hq)) as H. rewrite E in H. destruct H as [H|[]]. exact H.
Qed.
Lemma fill_only : forall t x new_t o k r k', StronglySorted Rlt t -> fill_wiener_vector t x new_t o k = (Ok r, k') -> exists j, in_gap t j new_t /\ new_t <> [].
Proof.
  intros t x new_t o k r k' SS E. unfold fill_wiener_vector in E.
  destruct (arr_min t) as [t0|e|] eqn:E0; [|discriminate|discriminate]. destruct (arr_min new_t) as [s0|e|] eqn:F0; [|discriminate|discriminate].
  destruct (arr_max new_t) as [s1|e|] eqn:F1; [|discriminate|discriminate]. destruct (arr_max t) as [t1|e|] eqn:E1; [|discriminate|discriminate].
  rewrite !b_lift in E. destruct (Rleb 0 t0 && Rltb t0 s0 && Rleb s0 s1 && Rleb s1 t1) eqn:CH; [|discriminate]. rewrite b_assert in E.
  destruct (Nat.eqb (length t) (length x)) eqn:CL; [|discriminate]. rewrite b_assert in E. cbv zeta in E. apply Nat.eqb_eq in CL.
  assert (NE : new_t <> []) by (destruct new_t; [discriminate|discriminate]).
  rewrite !andb_true_iff in CH. destruct CH as (((C0 & C1) & C2) & C3). apply Rltb_true in C1.
  destruct (arr_min_spec _ _ E0) as [I0 M0]. destruct (arr_min_spec _ _ F0) as [J0 N0].
  set (its := map (searchsorted_right t) new_t) in *. set (sec := np_unique_pos (length t) its) in *.
  match type of E with bind (map_m ?f _) _ _ _ = _ => set (body := f) in E end. unfold bind at 1 in E.
  assert (LM : forall o k, match fst (map_m body sec o k) with Ok bs => length bs = length sec | _ => True end).
  { clear. intros o k. revert o k. induction sec as [|a l IH]; intros o k; [reflexivity|]. cbn [map_m]. unfold bind at 1.
    destruct (body a o k) as [[b|e|] k1]; cbn; auto. unfold bind. specialize (IH o k1). destruct (map_m body l o k1) as [[bs|e|] k2]; cbn in *; auto. }
  specialize (LM o k). destruct (map_m body sec o k) as [[rows|e|] k1] eqn:EM; [|discriminate|discriminate]. cbn [fst] in LM.
  destruct rows as [|row [|]]; [discriminate| |discriminate]. destruct sec as [|i [|]] eqn:ES; try discriminate LM.
  assert (AL : Forall (eq i) its).
  { apply (sector_only (length t)); [exact ES|]. unfold its. apply Forall_map, Forall_forall. intros u Hu. apply (pos_ends t u _ SS eq_refl). }
  unfold its in AL. rewrite Forall_map in AL. rewrite Forall_forall in AL.
  destruct i as [|j].
  - exfalso. destruct (pos_ends t s0 _ SS (eq_sym (AL s0 J0))) as (_ & B & _). apply In_nth with (d := 0) in I0 as (q & Hq & <-). specialize (B q ltac:(lia)). lra.
  - exists j. split; [|exact NE]. cbn [map_m] in EM. unfold bind at 1 in EM. destruct (body (S j) o k) as [[rw|e|] k2] eqn:EB; [|discriminate|discriminate].
    unfold body in EB. destruct (nth_error t (S j)) as [ti|] eqn:N1; [|discriminate]. rewrite b_opt in EB. replace (S j - 1)%nat with j in EB by lia.
    destruct (nth_error t j) as [tp|] eqn:N2; [|discriminate]. rewrite b_opt in EB.
    destruct (nth_error x j) as [xp|]; [|discriminate]. rewrite b_opt in EB. destruct (nth_error x (S j)) as [xi|]; [|discriminate]. rewrite b_opt in EB.
    assert (Lj : (S j < length t)%nat) by (apply nth_error_Some; congruence).
    assert (FE : map (fun p : nat * R => snd p - tp) (filter (fun p : nat * R => Nat.eqb (fst p) (S j)) (combine its new_t)) = map (fun u => u - tp) new_t).
    { unfold its. clear - AL. induction new_t as [|u l IH]; [reflexivity|]. cbn [map combine filter fst]. rewrite <- (AL u (or_introl eq_refl)), Nat.eqb_refl. cbn [map snd]. f_equal.
      rewrite <- IH by (intros v Hv; apply AL; right; exact Hv). rewrite (AL u (or_introl eq_refl)). reflexivity. }
    rewrite FE in EB. unfold sample_brownbr in EB. destruct (arr_min (map (fun u => u - tp) new_t)) as [m|e|] eqn:EM1; [|discriminate|discriminate]. rewrite b_lift in EB.
    destruct (arr_max (map (fun u => u - tp) new_t)) as [m'|e|] eqn:EM2; [|discriminate|discriminate]. rewrite b_lift in EB.
    destruct (Rltb 0 m && Rltb m' (ti - tp)) eqn:CC; [|discriminate]. apply andb_true_iff in CC as [CC1 CC2]. apply Rltb_true in CC1. apply Rltb_true in CC2.
    destruct (arr_min_spec _ _ EM1) as [_ L1]. destruct (arr_max_spec _ _ EM2) as [_ L2].
    apply nth_error_nth with (d := 0) in N1. apply nth_error_nth with (d := 0) in N2.
    split; [exact Lj|]. apply Forall_forall. intros u Hu. rewrite N1, N2.
    assert (Hm : In (u - tp) (map (fun u => u - tp) new_t)) by (apply in_map_iff; exists u; auto). specialize (L1 _ Hm). specialize (L2 _ Hm). lra.
Qed.
