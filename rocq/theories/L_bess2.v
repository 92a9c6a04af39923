(** Laws of the Bessel samplers. *)
From Coq Require Import Reals List Bool Arith Lra Lia Psatz Sorted.
From Verif Require Import Base Rng M_mjp M_path SpecPath L_sde L_sde2 L_sde3 SpecLaw L_rng L_law L_law2 L_law5 L_gauss L_gauss2 L_gauss3 L_est2 L_skel7 L_bess SpecBess SpecGauss Mat L_mat.
Import ListNotations.
Local Open Scope R_scope.

Lemma gaussian_at : forall n X m c i, gaussian n X m c -> (i < n)%nat -> exists b, (forall z, length z = n -> nth i (X z) 0 = nth i m 0 + rsum n (fun k => b k * nth k z 0)) /\
  rsum n (fun k => b k ^ 2) = entry c i i.
Proof.
  intros n X m c i (_ & _ & _ & A & HX & HC) Hi. exists (A i). split; [intros z Hz; apply (proj2 (HX z Hz) i Hi)|].
  rewrite HC by assumption. apply rsum_ext. intros k _. ring.
Qed.
Lemma interleaved_chi : forall n d (X : nat -> list R -> list R) (m : nat -> list R) (c : nat -> list (list R)) lam i,
  (0 < d)%nat -> 0 <= lam -> (i < n)%nat -> (forall j, (j < d)%nat -> gaussian n (X j) (m j) (c j)) ->
  average (draw_rs (repeat DNormal (n * d)))
    (fun z => exp (- lam * rsum d (fun j => nth i (X j (every z n d j)) 0 ^ 2)))
    (rprod d (fun j => chi (entry (c j) i i) lam (nth i (m j) 0))).
Proof.
  intros n d X m c lam i Hd Hl Hi HG.
  assert (HB : exists B : nat -> nat -> R, forall j, (j < d)%nat -> (forall z, length z = n -> nth i (X j z) 0 = nth i (m j) 0 + rsum n (fun k => B j k * nth k z 0)) /\
      rsum n (fun k => B j k ^ 2) = entry (c j) i i).
  { clear Hd. induction d as [|d IH]; [exists (fun _ _ => 0); intros j Hj; lia|].
    destruct IH as [B HB]; [intros; apply HG; lia|]. destruct (gaussian_at n _ _ _ i (HG d (Nat.lt_succ_diag_r d)) Hi) as [b Hb].
    exists (fun j => if Nat.eqb j d then b else B j). intros j Hj. destruct (Nat.eqb_spec j d) as [->|N]; [exact Hb|apply HB; lia]. }
  destruct HB as [B HB].
  set (own := fun r => (r mod d)%nat). set (a := fun r => B (r mod d)%nat (r / d)%nat).
  assert (A0 : forall k j, (j < d)%nat -> a (k * d + j)%nat = B j k).
  { intros k j Hj. unfold a. rewrite Nat.add_comm, Nat.mod_add, Nat.mod_small by lia. rewrite Nat.div_add, Nat.div_small by lia. reflexivity. }
  assert (O0 : forall k j, (j < d)%nat -> own (k * d + j)%nat = j).
  { intros k j Hj. unfold own. rewrite Nat.add_comm, Nat.mod_add, Nat.mod_small by lia. reflexivity. }
  assert (PICK : forall j (h : nat -> R), (j < d)%nat -> rsum (n * d) (fun r => if Nat.eqb (own r) j then h r else 0) = rsum n (fun k => h (k * d + j)%nat)).
  { intros j h Hj. rewrite rsum_block. apply rsum_ext. intros k _.
    rewrite (rsum_ext d _ (fun j' => if Nat.eqb j' j then h (k * d + j')%nat else 0)) by (intros j' Hj'; rewrite O0 by exact Hj'; reflexivity).
    rewrite rsum_delta_r by exact Hj. reflexivity. }
  apply (average_ext _ _ (fun z => exp (- lam * rsum d (fun j => (nth i (m j) 0 + part own a (n * d) j z) ^ 2)))).
  - intros z. f_equal. f_equal. apply rsum_ext. intros j Hj. f_equal. rewrite (proj1 (HB j Hj) _ (every_length z n d j)). f_equal.
    unfold part. rewrite (PICK j (fun r => a r * nth r z 0) Hj). apply rsum_ext. intros k Hk. rewrite A0, every_nth by assumption. reflexivity.
  - eapply average_eq; [|apply (normals_chi (n * d) d own a lam (fun j => nth i (m j) 0) Hl)].
    + apply rprod_ext. intros j Hj. f_equal. unfold size. rewrite (PICK j (fun r => a r ^ 2) Hj), <- (proj2 (HB j Hj)). apply rsum_ext. intros k _. rewrite A0 by exact Hj. reflexivity.
    + intros k _. unfold own. apply Nat.mod_upper_bound. lia.
Qed.
Lemma norm_square : forall (w : list (list R)) i, norm_at w i ^ 2 = fold_right Rplus 0 (map (fun c => nth i c 0 ^ 2) w).
Proof.
  intros w i. unfold norm_at. rewrite pow2_sqrt; [reflexivity|]. induction w as [|c w IH]; cbn [map fold_right]; [lra|]. pose proof (pow2_ge_0 (nth i c 0)). lra.
Qed.
Lemma radial : forall d lam v m (x : R) (f g : nat -> R), (0 < d)%nat -> (forall j, (j < d)%nat -> f j = v) -> (forall j, (j < d)%nat -> g j = if Nat.eqb j (d - 1) then m else 0) ->
  rprod d (fun j => chi (f j) lam (g j)) = radius_laplace d m v lam.
Proof.
  intros d lam v m x f g Hd Hf Hg. destruct d as [|d]; [lia|]. cbn [rprod]. rewrite Nat.sub_succ, Nat.sub_0_r in Hg.
  rewrite (Hf d), (Hg d) by lia. rewrite Nat.eqb_refl.
  rewrite (rprod_ext d _ (fun _ => / sqrt (1 + 2 * lam * v))).
  - unfold chi, radius_laplace. assert (E : rprod d (fun _ => / sqrt (1 + 2 * lam * v)) = / sqrt (1 + 2 * lam * v) ^ d).
    { clear. induction d as [|d IH]; cbn [rprod pow]; [rewrite Rinv_1; reflexivity|]. rewrite IH, Rinv_mult. ring. }
    rewrite E. unfold Rdiv at 2. cbn [pow]. rewrite Rinv_mult. ring.
  - intros j Hj. rewrite (Hf j), (Hg j) by lia. rewrite (proj2 (Nat.eqb_neq j d)) by lia. unfold chi. replace (- lam * 0 ^ 2 / (1 + 2 * lam * v)) with 0 by (unfold Rdiv; ring).
    rewrite exp_0. ring.
Qed.
Lemma nth_last_only : forall d x j, nth j (repeat 0 d ++ [x]) 0 = if Nat.eqb j d then x else 0.
Proof.
  induction d as [|d IH]; intros x j; [destruct j as [|[|j]]; reflexivity|]. destruct j as [|j]; [reflexivity|]. cbn. apply IH.
Qed.
Lemma bessel_law : forall t init dim mu lam i, time_grid t -> 0 <= init -> (0 < dim)%nat -> 0 <= lam -> (i < length t)%nat ->
  average (sample_bessel t init dim mu) (fun xs => exp (- lam * nth i xs 0 ^ 2))
    (radius_laplace dim (init + match mu with Some m => m | None => 0 end * nth i t 0) (nth i t 0) lam).
Proof.
  intros t init dim mu lam i Ht H0 Hd Hl Hi. set (m0 := match mu with Some m => m | None => 0 end).
  set (ini := repeat 0 (dim - 1) ++ [init]). set (dri := repeat 0 (dim - 1) ++ [m0]).
  assert (LI : length ini = dim) by (unfold ini; rewrite app_length, repeat_length; cbn; lia).
  destruct (wiener_statement t ini dri Ht) as (X & HX & HM). rewrite LI in HX, HM.
  assert (HG : exists (m : nat -> list R) (c : nat -> list (list R)), forall j, (j < dim)%nat ->
    moments_wiener t (nth j ini 0) (nth j dri 0) = Ok (m j, c j) /\ gaussian (length t) (X j) (m j) (c j)).
  { clear HX Hd LI. clearbody ini dri. induction dim as [|d IH]; [exists (fun _ => []), (fun _ => []); intros j Hj; lia|].
    destruct IH as (m & c & H); [intros; apply HM; lia|]. destruct (HM d ltac:(lia)) as (m1 & c1 & H1).
    exists (fun j => if Nat.eqb j d then m1 else m j), (fun j => if Nat.eqb j d then c1 else c j). intros j Hj.
    destruct (Nat.eqb_spec j d) as [->|N]; [exact H1|apply H; lia]. }
  destruct HG as (m & c & HG).
  apply (average_comp _ (do z <- draw_rs (repeat DNormal (length t * dim)); ret (map (norm_at (map (fun j => X j (every z (length t) dim j)) (seq 0 dim))) (seq 0 (length t))))).
  { intros o k _. unfold sample_bessel. destruct Ht as (Hne & Hs & Hp). destruct (arr_min_ok t Hne) as (mn & Em & Hm & _).
    rewrite Em, b_lift. rewrite (proj2 (Rltb_true 0 mn)), b_assert by (rewrite Forall_forall in Hp; apply Hp; exact Hm).
    rewrite (proj2 (Rleb_true 0 init) H0), b_assert, (proj2 (Nat.ltb_lt 0 dim) Hd), b_assert.
    fold m0 ini dri. unfold bind. rewrite HX, draw_normals. reflexivity. }
  apply average_map.
  apply (average_ext _ _ (fun z => exp (- lam * rsum dim (fun j => nth i (X j (every z (length t) dim j)) 0 ^ 2)))).
  { intros z. f_equal. f_equal. rewrite nth_map_seq by exact Hi. rewrite norm_square, map_map. symmetry. apply rsum_list. }
  eapply average_eq; [|apply (interleaved_chi (length t) dim X m c lam i Hd Hl Hi); intros j Hj; apply (HG j Hj)].
  apply (radial _ _ _ _ 0); [exact Hd| |].
  - intros j Hj. destruct (wiener_moment_values t _ _ _ _ (proj1 (HG j Hj)) i i Hi Hi) as [_ ->]. unfold Rmin. destruct (Rle_dec (nth i t 0) (nth i t 0)); reflexivity.
  - intros j Hj. destruct (wiener_moment_values t _ _ _ _ (proj1 (HG j Hj)) i i Hi Hi) as [-> _]. unfold ini, dri. rewrite !nth_last_only.
    destruct (Nat.eqb j (dim - 1)); ring.
Qed.

(** independent bridges *)
Lemma bridges_chi : forall t T lam i, time_grid t -> Forall (fun s => s < T) t -> 0 <= lam -> (i < length t)%nat -> forall l,
  average (map_m (fun f => sample_brownbr t T 0 f) l) (fun w => exp (- lam * fold_right Rplus 0 (map (fun c => nth i c 0 ^ 2) w)))
    (fold_right Rmult 1 (map (fun x => chi (nth i t 0 * (T - nth i t 0) / T) lam (x * nth i t 0 / T)) l)).
Proof.
  intros t T lam i Ht HT Hl Hi. induction l as [|x l IH].
  - cbn [map_m map fold_right]. rewrite <- exp_0 at 1. replace (exp 0) with (exp (- lam * 0)) by (f_equal; ring). apply (average_ret _ [] (fun w => exp (- lam * fold_right Rplus 0 (map (fun c => nth i c 0 ^ 2) w)))).
  - cbn [map_m map fold_right]. set (P := fold_right Rmult 1 _) in *.
    apply (average_bind0 _ _ _ _ _ (fun b => P * exp (- lam * nth i b 0 ^ 2))).
    + rewrite Rmult_comm. apply average_scal.
      destruct (brownbr_statement t T 0 x Ht HT) as (X & HX & m & c & HM & HG).
      apply (average_comp _ (do z <- draw_rs (repeat DNormal (length t)); ret (X z))).
      { intros o k _. rewrite HX. unfold bind. rewrite draw_normals. reflexivity. }
      apply average_map.
      destruct (gaussian_at _ _ _ _ i HG Hi) as (bb & H1 & H2).
      apply (average_swap _ _ (fun z => exp (- lam * rsum 1 (fun _ => (nth i m 0 + part (fun _ => 0%nat) bb (length t) 0%nat z) ^ 2)))).
      { intros o k Ho. rewrite draw_normals. cbn [fst]. rewrite H1 by (unfold normals; rewrite map_length, seq_length; reflexivity). cbn [rsum]. rewrite Rplus_0_l. reflexivity. }
      eapply average_eq; [|apply (normals_chi (length t) 1 (fun _ => 0%nat) bb lam (fun _ => nth i m 0) Hl); intros; lia].
      cbn [rprod]. rewrite Rmult_1_l. unfold size. cbn [Nat.eqb]. rewrite H2. destruct (bridge_moment_values t T 0 x m c HM i i Hi Hi) as [-> ->].
      unfold Rmin, Rmax. destruct (Rle_dec (nth i t 0) (nth i t 0)) as [_|N]; [|exfalso; apply N; lra]. f_equal. unfold Rdiv; ring.
    + intros b. apply average_map. apply (average_ext _ _ (fun w => exp (- lam * nth i b 0 ^ 2) * exp (- lam * fold_right Rplus 0 (map (fun c => nth i c 0 ^ 2) w)))).
      * intros w. cbn [map fold_right]. rewrite <- exp_plus. f_equal. ring.
      * rewrite (Rmult_comm P). apply average_scal. exact IH.
Qed.
Lemma besselbr_law : forall t T x dim lam i, time_grid t -> Forall (fun s => s < T) t -> (0 < dim)%nat -> 0 <= lam -> (i < length t)%nat ->
  average (sample_besselbr t T x dim) (fun xs => exp (- lam * nth i xs 0 ^ 2))
    (radius_laplace dim (x * nth i t 0 / T) (nth i t 0 * (T - nth i t 0) / T) lam).
Proof.
  intros t T x dim lam i Ht HT Hd Hl Hi. set (l := repeat 0 (dim - 1) ++ [x]).
  apply (average_comp _ (do w <- map_m (fun f => sample_brownbr t T 0 f) l; ret (map (norm_at w) (seq 0 (length t))))).
  { intros o k _. unfold sample_besselbr. destruct Ht as (Hne & Hs & Hp). destruct (arr_min_ok t Hne) as (mn & Em & Hm & _). destruct (arr_max_ok t Hne) as (mx & Ex & Hx & _).
    rewrite Forall_forall in Hp, HT. rewrite Em, b_lift, Ex, b_lift. rewrite (proj2 (Rltb_true 0 mn) (Hp _ Hm)), (proj2 (Rltb_true mx T) (HT _ Hx)). cbn [andb]. rewrite b_assert, (proj2 (Nat.ltb_lt 0 dim) Hd), b_assert. reflexivity. }
  apply average_map.
  apply (average_ext _ _ (fun w => exp (- lam * fold_right Rplus 0 (map (fun c => nth i c 0 ^ 2) w)))).
  { intros w. rewrite nth_map_seq by exact Hi. rewrite norm_square. reflexivity. }
  eapply average_eq; [|apply (bridges_chi t T lam i Ht HT Hl Hi l)].
  assert (LL : length l = dim) by (unfold l; rewrite app_length, repeat_length; cbn; lia).
  rewrite <- (radial dim lam (nth i t 0 * (T - nth i t 0) / T) (x * nth i t 0 / T) 0 (fun _ => nth i t 0 * (T - nth i t 0) / T) (fun j => nth j l 0 * nth i t 0 / T) Hd).
  - rewrite <- rprod_list, <- LL. clear. induction l as [|y l IH]; [reflexivity|]. cbn [length seq map fold_right nth]. rewrite <- seq_shift, map_map, IH. reflexivity.
  - intros; reflexivity.
  - intros j Hj. unfold l. rewrite nth_last_only. destruct (Nat.eqb j (dim - 1)); [reflexivity|]. unfold Rdiv; ring.
Qed.
Lemma bridge_middle : forall lam, 0 <= lam ->
  average (sample_besselbr [1/2] 1 0 3) (fun xs => exp (- lam * nth 0 xs 0 ^ 2)) (/ (sqrt (1 + lam / 2) * sqrt (1 + lam / 2) * sqrt (1 + lam / 2))).
Proof.
  intros lam Hl. eapply average_eq; [|apply (besselbr_law [1/2] 1 0 3 lam 0)]; [|split; [easy|split; repeat constructor; lra]|repeat constructor; lra|lia|exact Hl|cbn; lia].
  unfold radius_laplace. cbn [nth]. replace (1 + 2 * lam * (1 / 2 * (1 - 1 / 2) / 1)) with (1 + lam / 2) by field.
  replace (- lam * (0 * (1 / 2) / 1) ^ 2 / (1 + lam / 2)) with 0 by (field; lra). rewrite exp_0. unfold Rdiv at 1. rewrite Rmult_1_l. f_equal. ring.
Qed.
