(** Laws of the Brownian samplers and of sampled generators. *)
From Coq Require Import Reals List Bool Arith Lra Lia Psatz Sorted.
From Verif Require Import Base Rng M_mjp M_inf SpecInf L_inf M_hit M_path SpecPath L_sde L_sde2 L_sde3 SpecLin SpecLaw L_rng L_law L_law2 L_law5 L_fdd3 L_gauss L_gauss2 SpecGauss Mat L_mat.
Import ListNotations.
Local Open Scope R_scope.

Lemma rsum_block : forall n d (h : nat -> R), rsum (n * d) h = rsum n (fun k => rsum d (fun j => h (k * d + j)%nat)).
Proof.
  induction n as [|n IH]; intros d h; [reflexivity|]. cbn [rsum]. rewrite <- IH. cbn [Nat.mul]. rewrite Nat.add_comm.
  generalize (n * d)%nat. intros m. induction d as [|d IHd]; [rewrite Nat.add_0_r; cbn; ring|].
  rewrite Nat.add_succ_r. cbn [rsum]. rewrite IHd. ring.
Qed.
Lemma draw_normals : forall n o k, draw_rs (repeat DNormal n) o k = (Ok (normals o k n), (k + n)%nat).
Proof.
  induction n as [|n IH]; intros o k; [cbn; rewrite Nat.add_0_r; reflexivity|]. cbn [repeat draw_rs]. unfold bind, draw_r, ret. rewrite IH.
  unfold normals. cbn [seq map]. rewrite <- seq_shift, map_map, Nat.add_0_r. f_equal; [|lia]. f_equal. f_equal. apply map_ext. intros i. f_equal. lia.
Qed.
(** the exponent of a Gaussian vector as a sum over its draws *)
Lemma gaussian_square : forall n (A : nat -> nat -> R) (th : nat -> R),
  rsum n (fun k => (rsum n (fun i => th i * A i k)) ^ 2) = rsum n (fun i => rsum n (fun i' => th i * th i' * rsum n (fun k => A i k * A i' k))).
Proof.
  intros n A th. transitivity (rsum n (fun k => rsum n (fun i => rsum n (fun i' => th i * th i' * (A i k * A i' k))))).
  - apply rsum_ext. intros k _. cbn [pow]. rewrite Rmult_1_r, <- rsum_scal_r. apply rsum_ext. intros i _. rewrite <- rsum_scal_l. apply rsum_ext. intros i' _. ring.
  - rewrite rsum_swap. apply rsum_ext. intros i _. rewrite rsum_swap. apply rsum_ext. intros i' _. apply rsum_scal_l.
Qed.
Lemma gaussian_linear : forall n X m c, gaussian n X m c -> forall th, exists b, (forall z, length z = n ->
    rsum n (fun i => th i * nth i (X z) 0) = rsum n (fun i => th i * nth i m 0) + rsum n (fun k => b k * nth k z 0)) /\
  rsum n (fun k => b k ^ 2) = rsum n (fun i => rsum n (fun i' => th i * th i' * entry c i i')).
Proof.
  intros n X m c (_ & _ & _ & A & HX & HC) th. exists (fun k => rsum n (fun i => th i * A i k)). split.
  - intros z Hz. destruct (HX z Hz) as [_ H]. rewrite (rsum_ext n _ (fun i => th i * nth i m 0 + th i * rsum n (fun k => A i k * nth k z 0))).
    + rewrite rsum_plus. f_equal. transitivity (rsum n (fun i => rsum n (fun k => th i * A i k * nth k z 0))).
      * apply rsum_ext. intros i _. rewrite <- rsum_scal_l. apply rsum_ext. intros k _. ring.
      * rewrite rsum_swap. apply rsum_ext. intros k _. apply rsum_scal_r.
    + intros i Hi. rewrite (H i Hi). ring.
  - rewrite gaussian_square. apply rsum_ext. intros i Hi. apply rsum_ext. intros i' Hi'. rewrite HC by assumption. reflexivity.
Qed.
Lemma every_length : forall z n d j, length (every z n d j) = n.
Proof. intros. unfold every. rewrite map_length, seq_length. reflexivity. Qed.
Lemma every_nth : forall z n d j k, (k < n)%nat -> nth k (every z n d j) 0 = nth (k * d + j) z 0.
Proof.
  intros z n d j k H. unfold every. rewrite (nth_indep _ 0 (nth (0 * d + j) z 0)) by (rewrite map_length, seq_length; exact H).
  rewrite (map_nth (fun i => nth (i * d + j) z 0)), seq_nth by exact H. reflexivity.
Qed.
Lemma nth_map_seq : forall {A} (f : nat -> A) n i d, (i < n)%nat -> nth i (map f (seq 0 n)) d = f i.
Proof.
  intros A f n i d H. rewrite (nth_indep _ d (f 0%nat)) by (rewrite map_length, seq_length; exact H).
  rewrite map_nth, seq_nth by exact H. reflexivity.
Qed.

(** independent Gaussian vectors sharing one array of normals *)
Lemma interleaved_mgf : forall n d (X : nat -> list R -> list R) (m : nat -> list R) (c : nat -> list (list R)) (th : nat -> nat -> R),
  (0 < d)%nat -> (forall j, (j < d)%nat -> gaussian n (X j) (m j) (c j)) ->
  average (draw_rs (repeat DNormal (n * d)))
    (fun z => exp (rsum d (fun j => rsum n (fun i => th j i * nth i (X j (every z n d j)) 0))))
    (exp (rsum d (fun j => rsum n (fun i => th j i * nth i (m j) 0) + / 2 * rsum n (fun i => rsum n (fun i' => th j i * th j i' * entry (c j) i i'))))).
Proof.
  intros n d X m c th Hd HG.
  assert (HB : exists B : nat -> nat -> R, forall j, (j < d)%nat -> (forall z, length z = n ->
      rsum n (fun i => th j i * nth i (X j z) 0) = rsum n (fun i => th j i * nth i (m j) 0) + rsum n (fun k => B j k * nth k z 0)) /\
      rsum n (fun k => B j k ^ 2) = rsum n (fun i => rsum n (fun i' => th j i * th j i' * entry (c j) i i'))).
  { clear Hd. induction d as [|d IH]; [exists (fun _ _ => 0); intros j Hj; lia|].
    destruct IH as [B HB]; [intros; apply HG; lia|]. destruct (gaussian_linear n _ _ _ (HG d (Nat.lt_succ_diag_r d)) (th d)) as [b Hb].
    exists (fun j => if Nat.eqb j d then b else B j). intros j Hj. destruct (Nat.eqb_spec j d) as [->|N]; [exact Hb|apply HB; lia]. }
  destruct HB as [B HB].
  set (c0 := fun r => B (r mod d)%nat (r / d)%nat).
  assert (C0 : forall k j, (j < d)%nat -> c0 (k * d + j)%nat = B j k).
  { intros k j Hj. unfold c0. rewrite Nat.add_comm, Nat.mod_add, Nat.mod_small by lia. rewrite Nat.div_add, Nat.div_small by lia. reflexivity. }
  set (a0 := rsum d (fun j => rsum n (fun i => th j i * nth i (m j) 0))).
  apply (average_ext _ _ (fun z => exp a0 * exp (rsum (n * d) (fun r => c0 r * nth r z 0)))).
  - intros z. rewrite <- exp_plus. f_equal. unfold a0. rewrite rsum_block, (rsum_swap n d), <- rsum_plus. apply rsum_ext. intros j Hj.
    rewrite (proj1 (HB j Hj) (every z n d j) (every_length z n d j)). f_equal. apply rsum_ext. intros k Hk. rewrite C0, every_nth by assumption. reflexivity.
  - apply (average_eq _ _ _ (exp a0 * exp (rsum (n * d) (fun r => c0 r ^ 2) / 2))).
    + rewrite <- exp_plus. f_equal. rewrite rsum_plus. unfold a0. f_equal. rewrite rsum_block, (rsum_swap n d), rsum_scal_l. unfold Rdiv. rewrite Rmult_comm. f_equal.
      apply rsum_ext. intros j Hj. rewrite <- (proj2 (HB j Hj)). apply rsum_ext. intros k _. rewrite C0 by exact Hj. reflexivity.
    + apply average_scal. apply normals_mgf.
Qed.
Lemma wiener_law : forall t init mu (th : nat -> nat -> R), time_grid t -> init <> [] ->
  average (sample_wiener t init mu)
    (fun w => exp (rsum (length init) (fun j => rsum (length t) (fun i => th j i * nth i (nth j w []) 0))))
    (rprod (length init) (fun j => gaussian_mgf (length t) (fun i => nth j init 0 + nth j mu 0 * nth i t 0) (fun i i' => Rmin (nth i t 0) (nth i' t 0)) (th j))).
Proof.
  intros t init mu th Ht Hi. destruct (wiener_statement t init mu Ht) as (X & HX & HM).
  set (n := length t) in *. set (d := length init) in *.
  assert (Hd : (0 < d)%nat) by (unfold d; destruct init; [contradiction|cbn; lia]).
  assert (HG : exists (m : nat -> list R) (c : nat -> list (list R)), forall j, (j < d)%nat ->
    moments_wiener t (nth j init 0) (nth j mu 0) = Ok (m j, c j) /\ gaussian n (X j) (m j) (c j)).
  { clear HX Hd. revert HM. generalize d. clear d. intros d HM. induction d as [|d IH]; [exists (fun _ => []), (fun _ => []); intros j Hj; lia|].
    destruct IH as (m & c & H); [intros; apply HM; lia|]. destruct (HM d ltac:(lia)) as (m0 & c0 & H0).
    exists (fun j => if Nat.eqb j d then m0 else m j), (fun j => if Nat.eqb j d then c0 else c j). intros j Hj.
    destruct (Nat.eqb_spec j d) as [->|N]; [exact H0|apply H; lia]. }
  destruct HG as (m & c & HG).
  apply (average_comp _ (do z <- draw_rs (repeat DNormal (n * d)); ret (map (fun j => X j (every z n d j)) (seq 0 d)))).
  { intros o k _. rewrite HX. unfold bind. rewrite draw_normals. reflexivity. }
  apply average_map.
  apply (average_ext _ _ (fun z => exp (rsum d (fun j => rsum n (fun i => th j i * nth i (X j (every z n d j)) 0))))).
  { intros z. f_equal. apply rsum_ext. intros j Hj. apply rsum_ext. intros i _. rewrite nth_map_seq by exact Hj. reflexivity. }
  eapply average_eq; [|apply (interleaved_mgf n d X m c th Hd); intros j Hj; apply (HG j Hj)].
  assert (EP : forall q (g : nat -> R), exp (rsum q g) = rprod q (fun j => exp (g j))).
  { induction q as [|q IH]; intros g; [apply exp_0|]. cbn [rsum rprod]. rewrite exp_plus, IH. reflexivity. }
  rewrite EP. apply rprod_ext. intros j Hj. unfold gaussian_mgf. f_equal.
  pose proof (wiener_moment_values t _ _ _ _ (proj1 (HG j Hj))) as V. f_equal.
  - apply rsum_ext. intros i Hi'. destruct (V i i Hi' Hi') as [-> _]. reflexivity.
  - f_equal. apply rsum_ext. intros i Hi'. apply rsum_ext. intros i' Hi2. destruct (V i i' Hi' Hi2) as [_ ->]. reflexivity.
Qed.
Lemma brownbr_law : forall t T a b (th : nat -> R), time_grid t -> Forall (fun s => s < T) t ->
  average (sample_brownbr t T a b) (fun x => exp (rsum (length t) (fun i => th i * nth i x 0)))
    (gaussian_mgf (length t) (fun i => a + (b - a) * nth i t 0 / T) (fun i j => Rmin (nth i t 0) (nth j t 0) * (T - Rmax (nth i t 0) (nth j t 0)) / T) th).
Proof.
  intros t T a b th Ht HT. destruct (brownbr_statement t T a b Ht HT) as (X & HX & m & c & HM & HG).
  set (n := length t) in *.
  destruct (gaussian_linear n X m c HG th) as (w & Hw & Hs).
  apply (average_comp _ (do z <- draw_rs (repeat DNormal n); ret (X z))).
  { intros o k _. rewrite HX. unfold bind. rewrite draw_normals. reflexivity. }
  apply average_map.
  apply (average_swap _ _ (fun z => exp (rsum n (fun i => th i * nth i m 0)) * exp (rsum n (fun k => w k * nth k z 0)))).
  { intros o k Ho. rewrite draw_normals. cbn [fst]. rewrite <- exp_plus, <- Hw; [reflexivity|]. unfold normals. rewrite map_length, seq_length. reflexivity. }
  eapply average_eq; [|apply average_scal, normals_mgf]. rewrite <- exp_plus, Hs. unfold gaussian_mgf. f_equal.
  pose proof (bridge_moment_values t T a b m c HM) as V. f_equal.
  - apply rsum_ext. intros i Hi'. destruct (V i i Hi' Hi') as [-> _]. reflexivity.
  - unfold Rdiv at 1. rewrite Rmult_comm. f_equal. apply rsum_ext. intros i Hi'. apply rsum_ext. intros i' Hi2. destruct (V i i' Hi' Hi2) as [_ ->]. reflexivity.
Qed.
(** means and covariances *)
Lemma gaussian_moments : forall n X m c, gaussian n X m c -> forall i j, (i < n)%nat -> (j < n)%nat ->
  average (do z <- draw_rs (repeat DNormal n); ret (X z)) (fun x => nth i x 0) (nth i m 0) /\
  average (do z <- draw_rs (repeat DNormal n); ret (X z)) (fun x => (nth i x 0 - nth i m 0) * (nth j x 0 - nth j m 0)) (entry c i j).
Proof.
  intros n X m c (_ & _ & _ & A & HX & HC) i j Hi Hj.
  assert (L : forall o k, length (normals o k n) = n) by (intros; unfold normals; rewrite map_length, seq_length; reflexivity).
  split; apply average_map.
  - apply (average_swap _ _ (fun z => nth i m 0 + rsum n (fun k => A i k * nth k z 0))); [|apply normals_linear].
    intros o k Ho. rewrite draw_normals. cbn [fst]. rewrite (proj2 (HX _ (L o k)) i Hi). reflexivity.
  - apply (average_swap _ _ (fun z => (0 + rsum n (fun k => A i k * nth k z 0)) * (0 + rsum n (fun k => A j k * nth k z 0)))).
    + intros o k Ho. rewrite draw_normals. cbn [fst]. rewrite (proj2 (HX _ (L o k)) i Hi), (proj2 (HX _ (L o k)) j Hj). ring.
    + eapply average_eq; [|apply normals_product]. rewrite HC by assumption. ring.
Qed.
Lemma brownbr_moments : forall t T a b i j, time_grid t -> Forall (fun s => s < T) t -> (i < length t)%nat -> (j < length t)%nat ->
  exists m c, moments_brownbr t T a b = Ok (m, c) /\
  average (sample_brownbr t T a b) (fun x => nth i x 0) (nth i m 0) /\
  average (sample_brownbr t T a b) (fun x => (nth i x 0 - nth i m 0) * (nth j x 0 - nth j m 0)) (entry c i j).
Proof.
  intros t T a b i j Ht HT Hi Hj. destruct (brownbr_statement t T a b Ht HT) as (X & HX & m & c & HM & HG).
  exists m, c. split; [exact HM|]. destruct (gaussian_moments _ X m c HG i j Hi Hj) as [H1 H2].
  assert (E : forall o k, valid o -> sample_brownbr t T a b o k = (do z <- draw_rs (repeat DNormal (length t)); ret (X z)) o k).
  { intros o k _. rewrite HX. unfold bind. rewrite draw_normals. reflexivity. }
  split; [apply (average_comp _ _ _ _ _ E H1)|apply (average_comp _ _ _ _ _ E H2)].
Qed.

(** * sampled generators *)
Definition num (o : option R) : R := match o with Some x => x | None => 0 end.
Lemma no_negative : forall dim alp bet, hyper dim (Rlt 0) alp -> hyper dim (Rlt 0) bet ->
  existsb (fun p => neg_entry (alp (fst p) (snd p)) || neg_entry (bet (fst p) (snd p))) (list_prod (seq 0 dim) (seq 0 dim)) = false.
Proof.
  intros dim alp bet [DA OA] [DB OB].
  destruct (existsb _ _) eqn:E; [|reflexivity]. apply existsb_exists in E as ([i j] & HI & HE). exfalso.
  apply in_prod_iff in HI as [HI HJ]. apply in_seq in HI, HJ. cbn [fst snd] in HE.
  destruct (Nat.eq_dec i j) as [<-|N]; [rewrite DA, DB in HE by lia; discriminate|].
  destruct (OA i j ltac:(lia) ltac:(lia) N) as (a & Ea & Pa). destruct (OB i j ltac:(lia) ltac:(lia) N) as (b & Eb & Pb).
  rewrite Ea, Eb in HE. cbn in HE. rewrite (proj2 (Rltb_false a 0)), (proj2 (Rltb_false b 0)) in HE by lra. discriminate.
Qed.
Lemma sample_param_law : forall dim alp bet (f : nat -> nat -> R -> R) (v : nat -> nat -> R),
  hyper dim (Rlt 0) alp -> hyper dim (Rlt 0) bet ->
  (forall i j a b, (i < dim)%nat -> (j < dim)%nat -> i <> j -> alp i j = Some a -> bet i j = Some b -> expect_r (DGamma a (1 / b)) (f i j) (v i j)) ->
  average (sample_param dim alp bet)
    (fun g => rprod dim (fun i => rprod dim (fun j => if Nat.eqb i j then 1 else match g i j with Some x => f i j x | None => 0 end)))
    (rprod dim (fun i => rprod dim (fun j => if Nat.eqb i j then 1 else v i j))).
Proof.
  intros dim alp bet f v HA HB HE. unfold sample_param. rewrite no_negative by assumption.
  set (idx := list_prod (seq 0 dim) (seq 0 dim)).
  apply average_map.
  set (h := fun (p : nat * nat) (x : option R) => if Nat.eqb (fst p) (snd p) then 1 else match x with Some y => f (fst p) (snd p) y | None => 0 end).
  apply (average_swap _ _ (fun bs => fold_right Rmult 1 (map (fun p => h (fst p) (snd p)) (combine idx bs)))).
  - assert (LEN : forall (l : list (nat * nat)) o k, match fst (mapM (fun p => gamma_entry (alp (fst p) (snd p)) (bet (fst p) (snd p))) l o k) with Ok bs => length bs = length l | _ => True end).
    { induction l as [|p l IH]; intros o k; [reflexivity|]. cbn [mapM]. unfold bind at 1. destruct (gamma_entry _ _ o k) as [[x| |] k1]; try exact Logic.I.
      unfold bind. specialize (IH o k1). destruct (mapM _ l o k1) as [[xs| |] k2]; cbn in *; auto. }
    intros o k _. specialize (LEN idx o k). destruct (mapM _ idx o k) as [[bs| |] k']; cbn [fst] in *; try exact Logic.I.
    transitivity (fold_right Rmult 1 (map (fun p => h p (nth (fst p * dim + snd p) bs None)) idx)).
    + f_equal.
      assert (NTH : forall q p, nth_error idx q = Some p -> (fst p * dim + snd p)%nat = q).
      { intros q [i j] Hq. cbn [fst snd]. assert (q < dim * dim)%nat.
        { assert (q < length idx)%nat by (apply nth_error_Some; rewrite Hq; discriminate). unfold idx in H. rewrite prod_length, !seq_length in H. exact H. }
        assert (Hd : (0 < dim)%nat) by nia.
        pose proof (nth_list_prod dim dim (q / dim) (q mod dim) ltac:(apply Nat.div_lt_upper_bound; lia) ltac:(apply Nat.mod_upper_bound; lia)) as E.
        assert (EQ : (q / dim * dim + q mod dim)%nat = q) by (rewrite Nat.mul_comm; symmetry; apply Nat.div_mod; lia).
        fold idx in E. rewrite EQ, Hq in E. injection E as -> ->. exact EQ. }
      revert NTH LEN. generalize idx. clear. intros idx.
      enough (G : forall s l bs', (forall q p, nth_error l q = Some p -> (fst p * dim + snd p)%nat = (s + q)%nat) -> length bs' = length l ->
        (forall q, nth q bs' None = nth (s + q) bs None) -> map (fun p => h (fst p) (snd p)) (combine l bs') = map (fun p => h p (nth (fst p * dim + snd p) bs None)) l)
        by (intros H1 H2; apply (G 0%nat idx bs); auto).
      intros s l. revert s. induction l as [|p l IH]; intros s bs' H1 H2 H3; destruct bs' as [|x bs']; try discriminate; [reflexivity|].
      cbn [combine map fst snd]. f_equal.
      * rewrite (H1 0%nat p eq_refl), <- H3. reflexivity.
      * apply (IH (S s)); [|cbn in H2; lia|].
        -- intros q p' Hq. rewrite (H1 (S q) p' Hq). lia.
        -- intros q. replace (S s + q)%nat with (s + S q)%nat by lia. rewrite <- H3. reflexivity.
    + rewrite <- (rprod_cells dim dim). fold idx. f_equal. apply map_ext. intros [i j]. unfold h. cbn [fst snd]. unfold fill_neg_rows.
      destruct (Nat.eqb i j); reflexivity.
  - eapply average_eq; [|apply (average_mapM_prod _ _ _ h (fun p => if Nat.eqb (fst p) (snd p) then 1 else v (fst p) (snd p)))].
    + unfold idx. apply (rprod_cells dim dim (fun i j => if Nat.eqb i j then 1 else v i j)).
    + intros [i j] HI. unfold idx in HI. apply in_prod_iff in HI as [HI HJ]. apply in_seq in HI, HJ. unfold h. cbn [fst snd].
      destruct HA as [DA OA], HB as [DB OB]. destruct (Nat.eqb_spec i j) as [<-|N].
      * rewrite DA by lia. cbn [gamma_entry]. apply (average_ret _ None (fun _ => 1)).
      * destruct (OA i j ltac:(lia) ltac:(lia) N) as (a & Ea & Pa). destruct (OB i j ltac:(lia) ltac:(lia) N) as (b & Eb & Pb).
        rewrite Ea, Eb. cbn [gamma_entry]. apply average_map. apply average_draw_r. apply HE; auto; lia.
Qed.

Lemma entry_mean : forall dim alp bet i j a b, hyper dim (Rlt 0) alp -> hyper dim (Rlt 0) bet -> (i < dim)%nat -> (j < dim)%nat -> i <> j ->
  alp i j = Some a -> bet i j = Some b -> average (sample_param dim alp bet) (fun g => num (g i j)) (a / b).
Proof.
  intros dim alp bet i j a b HA HB Hi Hj N Ea Eb.
  pose proof (sample_param_ok dim alp bet HA HB) as OK.
  set (sel := fun i' j' => Nat.eqb i' i && Nat.eqb j' j).
  pose proof (sample_param_law dim alp bet (fun i' j' x => if sel i' j' then x else 1) (fun i' j' => if sel i' j' then a / b else 1) HA HB) as L.
  assert (SEL : forall i' j', sel i' j' = true <-> i' = i /\ j' = j).
  { intros i' j'. unfold sel. rewrite andb_true_iff, !Nat.eqb_eq. reflexivity. }
  assert (S0 : forall i' j', (i' <> i \/ j' <> j) -> sel i' j' = false).
  { intros i' j' H. destruct (sel i' j') eqn:E; [|reflexivity]. apply SEL in E. lia. }
  assert (PICK : forall h : nat -> nat -> R, (forall i' j', (i' < dim)%nat -> (j' < dim)%nat -> (i' <> i \/ j' <> j) -> h i' j' = 1) -> rprod dim (fun i' => rprod dim (h i')) = h i j).
  { intros h H. rewrite (rprod_pick dim _ i Hi).
    - apply (rprod_pick dim _ j Hj). intros j' Hj' Nj. apply H; auto.
    - intros i' Hi' Ni. apply rprod_1. intros j' Hj'. apply H; auto. }
  eapply average_eq; [|eapply average_swap; [|apply L]].
  - rewrite PICK.
    + rewrite (proj2 (Nat.eqb_neq i j) N), (proj2 (SEL i j)) by auto. reflexivity.
    + intros i' j' _ _ H. rewrite S0 by exact H. destruct (Nat.eqb i' j'); reflexivity.
  - intros o k Ho. specialize (OK o k Ho). cbn beta in *. destruct (fst (sample_param dim alp bet o k)) as [g| |]; try exact Logic.I.
    destruct OK as (G & HG & _). rewrite PICK.
    + rewrite (proj2 (Nat.eqb_neq i j) N), (proj2 (SEL i j)), (HG i j Hi Hj) by auto. reflexivity.
    + intros i' j' Hi' Hj' H. rewrite S0, HG by assumption. destruct (Nat.eqb i' j'); reflexivity.
  - intros i' j' a' b' Hi' Hj' N' Ea' Eb'. destruct HA as [_ OA], HB as [_ OB].
    destruct (OA i' j' Hi' Hj' N') as (a2 & E1 & P1). destruct (OB i' j' Hi' Hj' N') as (b2 & E2 & P2).
    rewrite Ea' in E1. injection E1 as <-. rewrite Eb' in E2. injection E2 as <-.
    assert (0 < 1 / b') by (apply Rmult_lt_0_compat; [lra|apply Rinv_0_lt_compat; lra]).
    destruct (sel i' j') eqn:E.
    + apply SEL in E as [-> ->]. rewrite Ea in Ea'. injection Ea' as <-. rewrite Eb in Eb'. injection Eb' as <-.
      replace (a / b) with (a * (1 / b)) by (field; lra). apply gamma_mean; assumption.
    + apply (expect_r_normal _ _ _ 1 (gamma_mean a' (1 / b') P1 H)).
Qed.
Lemma zero_mean : forall dim alp bet, hyper dim (Rlt 0) alp -> hyper dim (Rlt 0) bet -> average (sample_param dim alp bet) (fun _ => 0) 0.
Proof.
  intros dim alp bet HA HB.
  assert (L : average (sample_param dim alp bet) (fun g => 0 * rprod dim (fun i => rprod dim (fun j => if Nat.eqb i j then 1 else match g i j with Some x => 1 | None => 0 end)))
    (0 * rprod dim (fun i => rprod dim (fun j => if Nat.eqb i j then 1 else 1)))).
  { apply average_scal. apply (sample_param_law dim alp bet (fun _ _ _ => 1) (fun _ _ => 1) HA HB).
    intros i' j' a' b' Hi' Hj' N' Ea' Eb'. destruct HA as [_ OA], HB as [_ OB].
    destruct (OA i' j' Hi' Hj' N') as (a2 & E1 & P1). destruct (OB i' j' Hi' Hj' N') as (b2 & E2 & P2).
    rewrite Ea' in E1. injection E1 as <-. rewrite Eb' in E2. injection E2 as <-.
    assert (0 < 1 / b') by (apply Rmult_lt_0_compat; [lra|apply Rinv_0_lt_compat; lra]).
    apply (expect_r_normal _ _ _ 1 (gamma_mean a' (1 / b') P1 H)). }
  rewrite Rmult_0_l in L. revert L. apply average_ext. intros g. apply Rmult_0_l.
Qed.
Lemma ev_is_mean : forall dim alp bet i j, hyper dim (Rlt 0) alp -> hyper dim (Rlt 0) bet -> (i < dim)%nat -> (j < dim)%nat ->
  exists e, get_ev dim alp bet i j = Some e /\ average (sample_param dim alp bet) (fun g => num (g i j)) e.
Proof.
  intros dim alp bet i j HA HB Hi Hj. destruct (Nat.eq_dec i j) as [<-|N].
  - exists (- nansum_row dim (fun i0 j0 => nandiv (alp i0 j0) (bet i0 j0)) i). split; [unfold get_ev, fill_neg_rows; rewrite Nat.eqb_refl; reflexivity|].
    set (v := fun j => nan0 (nandiv (alp i j) (bet i j))).
    destruct dim as [|d]; [lia|].
    apply (average_swap _ _ (fun g => -1 * rsum (S d) (fun k => if Nat.eqb k i then 0 else num (g i k)))).
    + intros o k Ho. pose proof (sample_param_ok _ alp bet HA HB o k Ho) as OK. cbn beta in *. destruct (sample_param (S d) alp bet o k) as [[g| |] k']; cbn [fst] in *; try exact Logic.I.
      destruct OK as (G & HG & [_ HR] & _). rewrite (HG i i Hi Hi). cbn [num]. specialize (HR i Hi).
      rewrite (rsum_ext (S d) _ (fun k => G i k - (if Nat.eqb k i then G i k else 0))).
      * rewrite rsum_minus, HR, rsum_delta_r by exact Hi. ring.
      * intros q Hq. rewrite (HG i q Hi Hq). destruct (Nat.eqb q i); cbn [num]; ring.
    + eapply average_eq; [|apply average_scal, (average_rsum _ _ d (fun k g => if Nat.eqb k i then 0 else num (g i k)) v)].
      * unfold nansum_row, v. ring.
      * intros q Hq. unfold v. destruct (Nat.eqb_spec q i) as [->|N].
        -- rewrite (proj1 HA i Hi). cbn [nandiv nan0]. apply zero_mean; assumption.
        -- destruct (proj2 HA i q Hi Hq (not_eq_sym N)) as (a & Ea & Pa). destruct (proj2 HB i q Hi Hq (not_eq_sym N)) as (b & Eb & Pb).
           rewrite Ea, Eb. cbn [nandiv]. destruct (Reqb b 0) eqn:E; [apply Reqb_true in E; lra|]. cbn [nan0].
           apply entry_mean; auto.
  - destruct (proj2 HA i j Hi Hj N) as (a & Ea & Pa). destruct (proj2 HB i j Hi Hj N) as (b & Eb & Pb).
    exists (a / b). split; [|apply entry_mean; auto]. unfold get_ev, fill_neg_rows. rewrite (proj2 (Nat.eqb_neq i j) N), Ea, Eb. cbn [nandiv].
    destruct (Reqb b 0) eqn:E; [apply Reqb_true in E; lra|]. reflexivity.
Qed.
