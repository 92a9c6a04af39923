(** Feasibility of the exact samplers and of the sampler of ito/mcmc.py. *)
From Coq Require Import Reals List Bool Arith Lia Lra Sorted.
From Verif Require Import Base Np Rng Mat M_mjp M_bf M_hit M_path M_skel M_seed M_models M_sw M_mcem M_ito SpecHit SpecSkel SpecSeed SpecEm SpecIto SpecCan
  L_rng L_hit L_hit8 L_sde3 L_skel4 L_skel5 L_seed L_seed2 L_seed3 L_bf L_step L_step3 L_ito L_can L_can2.
Import ListNotations.
Local Open Scope R_scope.

(** no points *)
Lemma start_quiet I T m o k : 0 < I -> 0 < T -> (0 < m)%nat -> ora_n o k (DPoisson (1 * np_prod [I; T])) = 0%nat ->
  ppp_start 1 [I; T] m o k = (Ok (mk_ppp 0 [] 0), S k).
Proof.
  intros HI HT Hm HO. unfold ppp_start. rewrite (proj2 (Rltb_true 0 1)) by lra. unfold assert_ at 1. rewrite (run_bind _ _ _ _ _ _ (eq_refl : ret tt o k = (Ok tt, k))).
  cbn [hd_error tl]. rewrite (run_bind _ _ _ _ _ _ (eq_refl : lift_opt ValueError (Some I) o k = (Ok I, k))).
  rewrite min2, (proj2 (Rltb_true 0 (Rmin I T))) by (unfold Rmin; destruct (Rle_dec I T); lra). unfold assert_ at 1. rewrite (run_bind _ _ _ _ _ _ (eq_refl : ret tt o k = (Ok tt, k))).
  rewrite (proj2 (Nat.ltb_lt 0 m) Hm). unfold assert_ at 1. rewrite (run_bind _ _ _ _ _ _ (eq_refl : ret tt o k = (Ok tt, k))).
  unfold bind, draw_n, ret. rewrite HO. unfold batch_sizes. rewrite Nat.div_0_l, Nat.mod_0_l by lia. reflexivity.
Qed.
Lemma can_start I T m : 0 < I -> 0 < T -> (0 < m)%nat -> can (fun _ => ppp_start 1 [I; T] m) (eq (mk_ppp 0 [] 0)).
Proof.
  intros HI HT Hm. apply (can_step _ _ (fun u => mk_ans u 1 (1/2) 0 1 1 1 0 0 0) (mk_ppp 0 [] 0)); auto.
  - intros u Hu. constructor; cbn; lra.
  - intros s k u H. apply start_quiet; auto. cbn [oracle_of ora_n]. injection H as _ _ _ _ _ _ _ H _ _. destruct (Reqb _ 0); auto.
Qed.
(** the unrefined skeletons of can_raw *)
Lemma raw_plain_wf t a b mt mx ue : 0 < mt < t -> mx < Rmin a b -> Rmax a b < ue -> well_formed (mk_skel [0; mt; t] [a; mx; b] mx ue (Rmax a b) None).
Proof. intros H1 H2 H3. exact (raw_wf t a b mt mx (Rmax a b) ue None H1 H2 (conj (Rle_refl _) H3) ltac:(discriminate)). Qed.
Lemma can_raw_plain mp n t a b lb ub : (0 < mp)%nat -> (0 < n)%nat -> 0 < t -> elt lb (Fin (Rmin a b)) -> elt (Fin (Rmax a b)) ub ->
  can (fun fuel => sample_raw_skeleton fuel mp n t a b lb ub) (fun s => well_formed s /\ ends t a b s /\ k_tight s < k_loose s /\ elt lb (Fin (k_tight s)) /\ elt (Fin (k_loose s)) ub).
Proof.
  intros Hm Hn Ht L U. eapply can_weaken; [apply (can_raw mp n t a b lb ub Hm Hn Ht L U false 0 1); lra|].
  intros s (le & ue & mt & mx & p & E & M1 & M2 & _ & _ & ->). cbn [k_tight k_loose].
  destruct (edges_inside t a b lb ub Ht L U 1) as (le' & ue' & E' & B1 & B2 & _ & _ & S1). rewrite E in E'. injection E' as <- <-. destruct (S1 ltac:(lia)) as (S2 & S3).
  split; [apply raw_plain_wf; auto; lra|]. split; [repeat split; reflexivity|]. pose proof (Rmin_l a b). pose proof (Rmax_l a b). split; [lra|].
  split; auto. destruct lb; cbn in *; auto; lra.
Qed.
(** ** ea3lib/skeleton.py: sample_skeleton *)
Lemma can_flip_coin mp n s disc bd m : (0 < m)%nat -> well_formed s -> (let '(inf, _, hi) := bd (Rmin (k_loose s) (k_tight s)) (Rmax (k_loose s) (k_tight s)) in inf < hi) ->
  can (fun fuel => flip_poisson_coin fuel mp n s disc bd m) (eq (true, s)).
Proof.
  intros Hm W HB. unfold flip_poisson_coin. destruct (bd _ _) as [[cent le] ue].
  assert (HT : 0 < horizon s) by (apply horizon_pos; apply W).
  assert (HL : last_opt (k_t s) = Some (horizon s)). { apply last_opt_last. intros E. pose proof (wf_two s W). rewrite E in *. cbn in *. lia. }
  eapply can_bind0; [apply (can_lift_opt _ _ (horizon s) (eq (horizon s))); eauto|]. intros ? <-.
  eapply can_bind0; [apply can_start; auto; lra|]. intros p <-. cbn [pp_sizes length poisson_loop].
  eapply can_bind0; [apply (can_ret None (eq None)); auto|]. intros r <-. apply can_ret. reflexivity.
Qed.
Lemma can_sample_skeleton mp n k T a lb ub endpoint disc bd (P : R -> Prop) : (0 < mp)%nat -> (0 < n)%nat -> 0 < T -> can (fun _ => endpoint) P ->
  (forall b, P b -> elt lb (Fin (Rmin a b)) /\ elt (Fin (Rmax a b)) ub) -> spread_skel lb ub bd ->
  can (fun fuel => sample_skeleton fuel mp n (S k) T a lb ub endpoint disc bd) (fun s => well_formed s /\ horizon s = T /\ nth 0 (k_x s) 0 = a /\ P (last (k_x s) 0)).
Proof.
  intros Hm Hn HT HE HP HS. cbn [sample_skeleton].
  eapply can_bind0; [exact HE|]. intros b Hb. destruct (HP b Hb) as (L & U).
  eapply can_bind; [apply (can_raw_plain mp n T a b lb ub); auto|]. intros s (W & (E1 & E2 & E3) & TL & B1 & B2).
  eapply can_bind; [apply (can_flip_coin mp n s disc bd 2); auto|].
  - rewrite Rmin_right, Rmax_left by lra. apply (HS _ _ TL B1 B2).
  - intros r <-. cbn [fst snd]. apply can_ret. rewrite E3. auto.
Qed.
(** ** ea3lib/seed.py *)
Section Seeds.
Context (norm denorm : normop) (T c x0 x1 : R).
Hypothesis (OP : operators norm denorm T c x0 x1) (HT : 0 < T) (HC : 0 < c).
(** the layers of the seed give a path within the bounds *)
Definition kept_in (lb ub : ext) (s : skel) : Prop := inside lb ub (low_z s * c + Rmin x0 x1) /\ inside lb ub (high_z s * c + Rmax x0 x1) /\ low_z s < high_z s.
Lemma ends_of_path z : (exists u, 0 <= u <= 1 /\ path_at c x0 x1 u z = z * c + Rmin x0 x1) /\ (exists u, 0 <= u <= 1 /\ path_at c x0 x1 u z = z * c + Rmax x0 x1).
Proof.
  clear OP HT HC. unfold path_at, Rmin, Rmax. destruct (Rle_dec x0 x1).
  - split; [exists 0|exists 1]; split; try lra; ring.
  - split; [exists 1|exists 0]; split; try lra; ring.
Qed.
Lemma elt_le_trans a b d : elt a (Fin b) -> b <= d -> elt a (Fin d).
Proof. clear. destruct a; cbn; intros; auto; lra. Qed.
Lemma le_elt_trans a b d : a <= b -> elt (Fin b) d -> elt (Fin a) d.
Proof. clear. destruct d; cbn; intros; auto; lra. Qed.
Lemma can_raw_seed mp n lb ub : (0 < mp)%nat -> (0 < n)%nat -> elt lb (Fin (Rmin x0 x1)) -> elt (Fin (Rmax x0 x1)) ub ->
  can (fun fuel => sample_raw_seed fuel mp n lb ub norm denorm) (fun s => standard s /\ ends 1 0 0 s /\ kept_in lb ub s).
Proof.
  intros Hm Hn L U. assert (o0 : oracle) by exact (oracle_of (fill [] 1)).
  destruct (bound_lo norm denorm T c x0 x1 OP HT HC lb (o0) 0%nat) as (lzz & Y1 & F1 & G1 & _).
  destruct (bound_hi norm denorm T c x0 x1 OP HT HC ub (o0) 0%nat) as (uzz & Y2 & F2 & G2 & _).
  assert (D1 : forall o k, bound_z arr_max norm [0; T] lb o k = (Ok lzz, k)).
  { intros o k. clear - Y1 OP. destruct lb; cbn [bound_z] in *; try (unfold ret in *; injection Y1 as <-; reflexivity). rewrite (op_norm_some _ _ _ _ _ _ OP) in *.
    cbn [map combine fst snd] in *. unfold bind, values_of, lift_opt, ret, lift in *. cbn [snd arr_max] in *. injection Y1 as <-. reflexivity. }
  assert (D2 : forall o k, bound_z arr_min norm [0; T] ub o k = (Ok uzz, k)).
  { intros o k. clear - Y2 OP. destruct ub; cbn [bound_z] in *; try (unfold ret in *; injection Y2 as <-; reflexivity). rewrite (op_norm_some _ _ _ _ _ _ OP) in *.
    cbn [map combine fst snd] in *. unfold bind, values_of, lift_opt, ret, lift in *. cbn [snd arr_min] in *. injection Y2 as <-. reflexivity. }
  unfold sample_raw_seed. rewrite (op_denorm_none _ _ _ _ _ _ OP). cbn [fst map]. replace (0 * T) with 0 by ring. replace (1 * T) with T by ring.
  eapply can_bind0; [apply (can_det _ (eq lzz) lzz eq_refl); exists 0%nat; intros; apply D1|]. intros ? <-.
  eapply can_bind0; [apply (can_det _ (eq uzz) uzz eq_refl); exists 0%nat; intros; apply D2|]. intros ? <-.
  eapply can_weaken; [apply (can_raw_plain mp n 1 0 0 lzz uzz Hm Hn Rlt_0_1); rewrite ?Rmin_left, ?Rmax_left by lra; auto|].
  intros s (W & E & TL & K1 & K2). split; [split; [auto|apply E]|]. split; auto.
  unfold kept_in, low_z, high_z. rewrite Rmin_right, Rmax_left by lra.
  destruct (ends_of_path (k_tight s)) as ((u1 & U1 & P1) & (u2 & U2 & P2)). destruct (ends_of_path (k_loose s)) as ((u3 & U3 & P3) & (u4 & U4 & P4)).
  assert (M : Rmin x0 x1 <= Rmax x0 x1) by (pose proof (Rmin_l x0 x1); pose proof (Rmax_l x0 x1); lra).
  assert (Q1 := F1 _ _ U1 K1). assert (Q4 := F2 _ _ U4 K2). rewrite P1 in Q1. rewrite P4 in Q4.
  assert (K : k_tight s * c + Rmin x0 x1 <= k_loose s * c + Rmax x0 x1) by nra.
  split; [split; [exact Q1|exact (le_elt_trans _ _ _ K Q4)]|]. split; [split; [exact (elt_le_trans _ _ _ Q1 K)|exact Q4]|]. exact TL.
Qed.
Lemma kept_spread lb ub bounds s : kept_in lb ub s -> spread lb ub bounds ->
  exists inf lo hi, bounds (low_z s * c + Rmin x0 x1) (high_z s * c + Rmax x0 x1) = (inf, lo, Fin hi) /\ lo < hi.
Proof.
  clear OP HT. intros (K1 & K2 & K3) HS. apply HS; auto. pose proof (Rmin_l x0 x1). pose proof (Rmax_l x0 x1). nra.
Qed.
Lemma seed_coin_quiet fuel mp n s disc bounds m o k inf lo hi : (0 < m)%nat -> bounds (low_z s * c + Rmin x0 x1) (high_z s * c + Rmax x0 x1) = (inf, lo, Fin hi) -> lo < hi ->
  (forall lam, ora_n o k (DPoisson lam) = 0%nat) -> seed_poisson_coin fuel mp n norm denorm s disc bounds m o k = (Ok (true, - T * lo, s), S k).
Proof.
  intros Hm B HG HO. unfold seed_poisson_coin. rewrite (run_bind _ _ _ _ _ _ (disc_path_one _ _ _ _ _ _ OP _ _ _ _ _ o k B)). cbv beta iota. cbn [gaps all_some].
  rewrite (run_bind _ _ _ _ _ _ (eq_refl : lift (arr_max [hi - lo]) o k = (Ok (hi - lo), k))).
  rewrite (op_denorm_none _ _ _ _ _ _ OP). cbn [map fst hd_error]. rewrite (run_bind _ _ _ _ _ _ (eq_refl : lift_opt ValueError (Some (1 * T)) o k = (Ok (1 * T), k))).
  rewrite (run_bind _ _ _ _ _ _ (start_quiet (hi - lo) (1 * T) m o k ltac:(lra) ltac:(lra) Hm (HO _))). cbn [pp_sizes length seed_loop ppp_next].
  unfold bind, ret. cbn. do 3 f_equal. unfold neg_dot. cbn. f_equal. ring.
Qed.
Lemma can_seed_coin mp n s disc bounds m inf lo hi : (0 < m)%nat -> bounds (low_z s * c + Rmin x0 x1) (high_z s * c + Rmax x0 x1) = (inf, lo, Fin hi) -> lo < hi ->
  can (fun fuel => seed_poisson_coin fuel mp n norm denorm s disc bounds m) (eq (true, - T * lo, s)).
Proof.
  intros Hm B HG F. destruct (avoid F 0 1 Rlt_0_1) as (u & Hu1 & Hu2). exists [mk_ans u 1 (1/2) 0 1 1 1 0 0 0], 0%nat, (true, - T * lo, s). cbn [map n_u].
  split; [constructor; [constructor; cbn; lra|constructor]|]. split; [constructor; [intros []|constructor]|]. split; [intros v [<-|[]]; auto|]. split; auto.
  intros sc k fuel HA _. rewrite (seed_coin_quiet fuel mp n s disc bounds m (oracle_of sc) k inf lo hi Hm B HG).
  - cbn [length]. f_equal. lia.
  - intros lam. cbn [oracle_of ora_n]. specialize (HA 0%nat _ eq_refl). injection HA as _ _ _ _ _ _ _ HA _ _. rewrite Nat.add_0_r in HA. rewrite HA. destruct (Reqb lam 0); auto.
Qed.
(** sample_bridge: the first proposal is accepted *)
Lemma can_bridge mp n k lb ub disc bounds : (0 < mp)%nat -> (0 < n)%nat -> elt lb (Fin (Rmin x0 x1)) -> elt (Fin (Rmax x0 x1)) ub -> spread lb ub bounds ->
  can (fun fuel => sample_seed_bridge fuel mp n (S k) lb ub norm denorm disc bounds) (fun s => standard s /\ ends 1 0 0 s).
Proof.
  intros Hm Hn L U HS. unfold sample_seed_bridge.
  assert (LU : eltb lb ub = true).
  { assert (M : Rmin x0 x1 <= Rmax x0 x1) by (pose proof (Rmin_l x0 x1); pose proof (Rmax_l x0 x1); lra).
    destruct lb, ub; cbn in *; auto; try contradiction. apply Rltb_true. lra. }
  eapply can_bind0; [apply (can_assert _ (fun _ => True)); auto|]. intros _ _. cbn [bridge_props].
  eapply can_bind; [apply (can_raw_seed mp n lb ub); auto|]. intros s (ST & EN & K).
  destruct (kept_spread lb ub bounds s K HS) as (inf & lo & hi & B & HG).
  eapply can_bind; [apply (can_seed_coin mp n s disc bounds 2 inf lo hi); auto|]. intros r <-. cbv beta iota.
  eapply (can_bind0 _ _ (fun u => (Reqb u 0 || Rltb (ln u) (- T * lo)) = true)).
  - apply (can_unif01 0 (Rmin 1 (exp (- T * lo)))); try lra.
    + pose proof (exp_pos (- T * lo)). unfold Rmin. destruct (Rle_dec _ _); lra.
    + apply Rmin_l.
    + intros u Hu. apply orb_true_intro. right. apply Rltb_true. pose proof (Rmin_r 1 (exp (- T * lo))). rewrite <- (ln_exp (- T * lo)). apply ln_increasing; lra.
  - intros u ->. apply can_ret. auto.
Qed.
End Seeds.
(** ** ito/mcmc.py *)
Lemma quiet_exists : exists o, valid o /\ generic o /\ quiet o.
Proof.
  exists (oracle_of {| sc_u := fun k => / INR (k + 2); sc_e := fun _ => 1; sc_b := fun _ => 1/2; sc_n := fun _ => 0; sc_w := fun _ => 1; sc_g := fun _ => 1; sc_l := fun _ => 1;
    sc_p := fun _ => 0%nat; sc_c := fun _ => 0%nat; sc_k := fun _ => 0%nat |}).
  assert (P : forall k, 0 < INR (k + 2)) by (intros; apply lt_0_INR; lia). split; [|split].
  - apply oracle_of_valid. constructor; simpl; intros; try lra. rewrite plus_INR; simpl. pose proof (pos_INR k). split; [apply Rlt_le, Rinv_0_lt_compat; lra|].
    rewrite <- Rinv_1. apply Rinv_lt_contravar; lra.
  - split.
    + intros k lo hi L. simpl. pose proof (Rinv_0_lt_compat _ (P k)). nra.
    + intros k k' lo hi L N E. simpl in E. apply N. assert (H : / INR (k + 2) = / INR (k' + 2)) by nra. apply (f_equal Rinv) in H. rewrite !Rinv_inv in H. apply INR_eq in H. lia.
  - intros k lam. cbn. destruct (Reqb lam 0); auto.
Qed.
Section Ito.
Context (mp maxp : nat) (lb ub : ext) (reduce disc : list R -> R -> R) (bounds : list R -> bounds_fun)
  (grad : list R -> list R -> R -> R -> R -> R -> R -> list R) (log_prior : list R -> R) (loglik : list R -> list R -> list R -> R)
  (batch : nat) (pr : R) (maxf : nat) (t vt : list R) (thi : list R).
Hypothesis HS : series t vt.
Hypothesis (Hmp : (0 < mp)%nat) (Hm : (0 < maxp)%nat) (Hb : (0 < batch)%nat) (Hf : (0 < maxf)%nat).
Hypothesis HIN : forall v, In v vt -> inside lb ub (reduce thi v).
Hypothesis HSP : spread lb ub (bounds thi).
Definition fits (i : nat) (s : skel) : Prop := standard s /\ ends 1 0 0 s /\
  kept_in (sqrt (nth (S i) t 0 - nth i t 0)) (reduce thi (nth i vt 0)) (reduce thi (nth (S i) vt 0)) lb ub s.
Definition all_fit (z : partition) : Prop := S (length z) = length t /\ forall i s, nth_error z i = Some s -> fits i s.
Lemma can_aug : can (fun fuel => ito_sample_aug fuel mp maxp lb ub reduce t vt thi) all_fit.
Proof using HS Hmp Hm HIN. clear HSP Hb Hf.
  unfold ito_sample_aug.
  assert (G : forall l i, (forall j n, nth_error l j = Some n -> nth_error (ito_normops reduce t vt thi) (i + j) = Some n) ->
    can (fun fuel => map_m (fun n => sample_raw_seed fuel mp maxp lb ub (fst n) (snd n)) l) (fun z => length z = length l /\ forall j s, nth_error z j = Some s -> fits (i + j) s)).
  { induction l as [|n l IH]; intros i Hl; cbn [map_m].
    - apply can_ret. split; auto. intros j s E. destruct j; discriminate.
    - pose proof (Hl 0%nat n eq_refl) as E. destruct (normops_nth _ _ _ _ _ _ E) as (a & b & v0 & v1 & T1 & T2 & V1 & V2 & ->). rewrite Nat.add_0_r in *. cbn [fst snd].
      pose proof (series_pos _ _ _ _ _ HS T1 T2) as HP.
      destruct (HIN v0 ltac:(eapply nth_error_In; eauto)) as [A1 A2]. destruct (HIN v1 ltac:(eapply nth_error_In; eauto)) as [B1 B2].
      eapply (can_bind (fun fuel => sample_raw_seed fuel mp maxp lb ub (ito_norm (b - a) (reduce thi v0) (reduce thi v1)) (ito_denorm (b - a) (reduce thi v0) (reduce thi v1)))
        (fun fuel s => do bs <- map_m (fun n => sample_raw_seed fuel mp maxp lb ub (fst n) (snd n)) l; ret (s :: bs))).
      + apply (can_raw_seed _ _ (b - a) _ _ _ (ito_operators _ _ _) HP (sqrt_lt_R0 _ HP)); auto.
        * unfold Rmin. destruct (Rle_dec _ _); auto.
        * unfold Rmax. destruct (Rle_dec _ _); auto.
      + intros s Hs. eapply (can_bind _ (fun fuel bs => ret (s :: bs))); [apply (IH (S i)); intros j n Hj; replace (S i + j)%nat with (i + S j)%nat by lia; apply Hl; exact Hj|].
        intros z (LZ & HZ). apply can_ret. cbn [length]. split; [lia|]. intros [|j] s' Es.
        * injection Es as <-. rewrite Nat.add_0_r. unfold fits. rewrite (nth_error_nth _ _ _ T1), (nth_error_nth _ _ _ T2), (nth_error_nth _ _ _ V1), (nth_error_nth _ _ _ V2). exact Hs.
        * replace (i + S j)%nat with (S i + j)%nat by lia. apply HZ. exact Es. }
  eapply can_weaken; [apply (G _ 0%nat)|].
  - intros j n Hj. exact Hj.
  - intros z (LZ & HZ). split; [|exact HZ]. rewrite LZ, normops_length by apply HS. destruct HS as [_ H2 _]. lia.
Qed.
(** one job on a quiet oracle: the result is one of the two seeds *)
Lemma weight_det i a b v0 v1 s o k : nth_error t i = Some a -> nth_error t (S i) = Some b -> nth_error vt i = Some v0 -> nth_error vt (S i) = Some v1 ->
  exists w, eval_sde_weight reduce bounds thi [s] [0; b - a] [v0; v1] o k = (Ok w, k).
Proof.
  clear. intros. unfold eval_sde_weight. rewrite sub_normops. cbn [combine map_m fst snd].
  pose proof (integral_value _ _ (b - a) _ _ _ (bounds thi) s (ito_operators (b - a) (reduce thi v0) (reduce thi v1)) o k) as E.
  eexists. unfold bind at 1 2. rewrite E. unfold bind, ret. reflexivity.
Qed.
Lemma coin_quiet fuel i a b v0 v1 s o k : quiet o -> fits i s ->
  nth_error t i = Some a -> nth_error t (S i) = Some b -> nth_error vt i = Some v0 -> nth_error vt (S i) = Some v1 ->
  flip_sde_coins fuel mp maxp reduce disc bounds batch thi [s] [0; b - a] [v0; v1] o k = (Ok (true, [s]), S k).
Proof using HS Hb HSP Hmp Hm.
  intros HQ (ST & EN & K) T1 T2 V1 V2. unfold flip_sde_coins. rewrite sub_normops. cbn [combine map_m fst snd].
  pose proof (series_pos _ _ _ _ _ HS T1 T2) as HP.
  rewrite (nth_error_nth _ _ _ T1), (nth_error_nth _ _ _ T2), (nth_error_nth _ _ _ V1), (nth_error_nth _ _ _ V2) in K.
  destruct (kept_spread _ _ _ (sqrt_lt_R0 _ HP) _ _ (bounds thi) s K HSP) as (inf & lo & hi & B & HG).
  pose proof (seed_coin_quiet _ _ (b - a) _ _ _ (ito_operators (b - a) (reduce thi v0) (reduce thi v1)) HP fuel mp maxp s (disc thi) (bounds thi) batch o k inf lo hi Hb B HG (HQ k)) as E.
  unfold bind at 1 2 3. rewrite E. reflexivity.
Qed.
Lemma job_quiet i a b v0 v1 zn zp o : quiet o -> fits i zn -> fits i zp ->
  nth_error t i = Some a -> nth_error t (S i) = Some b -> nth_error vt i = Some v0 -> nth_error vt (S i) = Some v1 ->
  exists z k, (z = zn \/ z = zp) /\ forall fuel, update_sde_bridge fuel mp maxp reduce disc bounds batch pr maxf i thi zn zp t vt o 0%nat = (Ok z, k).
Proof using HS Hb HSP Hf Hmp Hm.
  intros HQ F1 F2 T1 T2 V1 V2.
  destruct (weight_det i a b v0 v1 zn o 0%nat T1 T2 V1 V2) as (w1 & E1). destruct (weight_det i a b v0 v1 zp o 0%nat T1 T2 V1 V2) as (w2 & E2).
  exists (if log_lt (ora_r o 0%nat (DUniform 0 1)) (w2 - logaddexp w2 w1) then zp else zn), 2%nat. split; [destruct (log_lt _ _); auto|]. intros fuel.
  unfold update_sde_bridge. rewrite (sub_t_two _ _ _ _ T1 T2), (sub_v_two _ _ _ _ V1 V2).
  rewrite (run_bind _ _ _ _ _ _ (eq_refl : lift_opt IndexError (Some [0; b - a]) o 0%nat = (Ok [0; b - a], 0%nat))). cbv zeta.
  rewrite (run_bind _ _ _ _ _ _ E1), (run_bind _ _ _ _ _ _ E2).
  unfold sample_twocoin, twocoin. destruct maxf as [|m]; [lia|]. cbn [twocoin_loop].
  unfold bind at 1 2 3. unfold o_ulog_lt at 1. unfold bind at 1, draw_r at 1, ret at 1.
  destruct (log_lt _ _); cbn [fst snd].
  - unfold bind at 1 2 3. rewrite (coin_quiet fuel i a b v0 v1 zp o 1 HQ F2 T1 T2 V1 V2). reflexivity.
  - unfold bind at 1 2 3. rewrite (coin_quiet fuel i a b v0 v1 zn o 1 HQ F1 T1 T2 V1 V2). reflexivity.
Qed.
Lemma jobs_quiet omes : (forall j, quiet (omes j)) -> forall zn zp i, length zn = length zp -> (i + length zn < length t)%nat ->
  (forall j s, nth_error zn j = Some s -> fits (i + j) s) -> (forall j s, nth_error zp j = Some s -> fits (i + j) s) ->
  exists l, (length l = length zn /\ forall j s, nth_error l j = Some s -> fits (i + j) s) /\ forall fuel,
    run_jobs i omes (map (fun p => update_sde_bridge fuel mp maxp reduce disc bounds batch pr maxf (fst (fst p)) thi (snd (fst p)) (snd p) t vt) (zip3 (seq i (length zn)) zn zp)) = Ok l.
Proof using HS Hb HSP Hf Hmp Hm.
  intros HQ zn. induction zn as [|x zn IH]; intros [|y zp] i HL LT H1 H2; try discriminate HL.
  - exists []. split; [split; [reflexivity|intros [|j] s Hs; discriminate Hs]|reflexivity].
  - cbn [length] in *. pose proof (se_len _ _ HS) as LE.
    destruct (nth_error t i) as [a|] eqn:T1; [|apply nth_error_None in T1; lia]. destruct (nth_error t (S i)) as [b|] eqn:T2; [|apply nth_error_None in T2; lia].
    destruct (nth_error vt i) as [v0|] eqn:V1; [|apply nth_error_None in V1; lia]. destruct (nth_error vt (S i)) as [v1|] eqn:V2; [|apply nth_error_None in V2; lia].
    assert (F1 : fits i x) by (rewrite <- (Nat.add_0_r i); apply H1; reflexivity). assert (F2 : fits i y) by (rewrite <- (Nat.add_0_r i); apply H2; reflexivity).
    destruct (job_quiet i a b v0 v1 x y (omes i) (HQ i) F1 F2 T1 T2 V1 V2) as (z & k & EZ & E).
    destruct (IH zp (S i)) as (l & (LL & HF) & EL); try lia.
    + intros j s Hj. replace (S i + j)%nat with (i + S j)%nat by lia. apply H1. exact Hj.
    + intros j s Hj. replace (S i + j)%nat with (i + S j)%nat by lia. apply H2. exact Hj.
    + exists (z :: l). split.
      * cbn [length]. split; [lia|]. intros [|j] s Hs.
        -- injection Hs as <-. rewrite Nat.add_0_r. destruct EZ as [-> | ->]; auto.
        -- replace (i + S j)%nat with (S i + j)%nat by lia. apply HF. exact Hs.
      * intros fuel. unfold zip3 in *. cbn [seq combine map run_jobs fst snd]. rewrite E. cbn [fst]. rewrite EL. reflexivity.
Qed.
Lemma can_sde omes z : (forall j, quiet (omes j)) -> all_fit z -> can (fun fuel => update_sde fuel mp maxp lb ub reduce disc bounds batch pr maxf omes thi z t vt) all_fit.
Proof using HS Hb HSP Hf HIN Hmp Hm.
  intros HQ (LZ & FZ). unfold update_sde. eapply (can_bind (fun fuel => ito_sample_aug fuel mp maxp lb ub reduce t vt thi) (fun fuel z_prime => lift (run_jobs 0 omes (map (fun p => update_sde_bridge fuel mp maxp reduce disc bounds batch pr maxf (fst (fst p)) thi (snd (fst p)) (snd p) t vt) (zip3 (seq 0 (length z)) z z_prime))))); [apply can_aug; auto|]. intros z' (LZ' & FZ').
  destruct (jobs_quiet omes HQ z z' 0%nat ltac:(lia) ltac:(lia) FZ FZ') as (l & (LL & HF) & EL).
  apply (can_det _ _ l); [split; [lia|exact HF]|]. exists 0%nat. intros fuel _ o k. rewrite EL. reflexivity.
Qed.
End Ito.
Lemma can_ext {A} (m m' : nat -> M A) P : (forall n, m n = m' n) -> can m P -> can m' P.
Proof. intros E H F. destruct (H F) as (l & n0 & a & H1 & H2 & H3 & H4 & H5). exists l, n0, a. repeat (split; auto). intros. rewrite <- E. auto. Qed.
(** either outcome of a Barker coin *)
Lemma can_barker w1 w2 (b : bool) : can (fun _ => o_ulog_lt (w1 - logaddexp w1 w2)) (eq b).
Proof.
  unfold o_ulog_lt. pose proof (share_range w1 w2) as HR. rewrite <- share in HR.
  assert (CL : clip01 (exp (w1 - logaddexp w1 w2)) = exp (w1 - logaddexp w1 w2)) by (apply clip_id; lra).
  eapply (can_bind0 _ _ (fun u => log_lt u (w1 - logaddexp w1 w2) = b)); [|intros u <-; apply can_ret; reflexivity].
  destruct b.
  - apply (can_unif01 0 (exp (w1 - logaddexp w1 w2))); try lra. intros u Hu. apply log_lt_interval; [lra|]. rewrite CL. lra.
  - apply (can_unif01 (exp (w1 - logaddexp w1 w2)) 1); try lra. intros u Hu. apply not_true_iff_false. rewrite log_lt_interval, CL by lra. lra.
Qed.
Section Params.
Context (mp maxp : nat) (reduce disc : list R -> R -> R) (bounds : list R -> bounds_fun)
  (grad : list R -> list R -> R -> R -> R -> R -> R -> list R) (log_prior : list R -> R) (loglik : list R -> list R -> list R -> R)
  (batch : nat) (precoin : bool) (pr : R) (maxf : nat) (t vt : list R).
Hypothesis HS : series t vt.
Hypothesis (Hb : (0 < batch)%nat) (Hf : (0 < maxf)%nat).
Lemma can_dual thi thi' d v0 v1 z up : 0 < d -> 0 < ito_intensity thi thi' (grad thi thi' d v0 v1 (k_loose z) (k_tight z)) -> can (fun fuel => ito_param_coin fuel mp maxp reduce disc grad thi thi' d v0 v1 z up batch) (eq (true, z)).
Proof using Hb.
  intros HD HA. assert (HD1 : 0 < 1 * (d - 0)) by lra. unfold ito_param_coin, flip_dual_coin. rewrite (op_denorm_none _ _ _ _ _ _ (ito_operators _ _ _)). cbn [map fst hd_error].
  eapply can_bind0; [exact (can_lift_opt _ _ (1 * (d - 0)) (eq (1 * (d - 0))) eq_refl eq_refl)|]. intros ? <-.
  eapply can_bind0; [apply (can_start _ _ batch HA HD1 Hb)|]. intros p <-. cbn [pp_sizes length dual_loop ppp_next].
  eapply can_bind0; [apply (can_ret None (eq None)); auto|]. intros r <-. apply can_ret. reflexivity.
Qed.
Lemma can_flips thi thi' z up : S (length z) = length t -> Forall (fun s => low_z s < high_z s) z -> coins_alive grad t vt thi thi' -> can (fun fuel => ito_flip_param_coins fuel mp maxp reduce disc grad batch thi thi' z t vt up) (eq (true, z)).
Proof using HS Hb. clear Hf.
  intros HL HZ HA. unfold ito_flip_param_coins. pose proof HS as [L1 L2 L3].
  eapply (can_bind _ (fun _ rs => collect_coins rs) (eq (map (fun s => (true, s)) z))).
  - assert (G : forall l i, (i + length l < length t)%nat -> Forall (fun s => low_z s < high_z s) l -> can (fun fuel => map_m (fun p => do ts <- lift_opt IndexError (sub_t t (fst p));
                           do fin <- lift_opt IndexError (last_opt ts);
                           do v0 <- lift_opt IndexError (hd_error (sub_v vt (fst p)));
                           do v1 <- lift_opt IndexError (last_opt (sub_v vt (fst p)));
                           ito_param_coin fuel mp maxp reduce disc grad thi thi' fin v0 v1 (snd p) up batch) (combine (seq i (length l)) l)) (eq (map (fun s => (true, s)) l))).
    { induction l as [|s l IH]; intros i Hi Hl; cbn [length seq combine map map_m] in *; [apply can_ret; auto|].
      pose proof (Forall_inv Hl) as H1. pose proof (Forall_inv_tail Hl) as H2. cbv beta in H1.
      destruct (nth_error t i) as [a|] eqn:T1; [|apply nth_error_None in T1; lia]. destruct (nth_error t (S i)) as [b|] eqn:T2; [|apply nth_error_None in T2; lia].
      destruct (nth_error vt i) as [v0|] eqn:V1; [|apply nth_error_None in V1; lia]. destruct (nth_error vt (S i)) as [v1|] eqn:V2; [|apply nth_error_None in V2; lia].
      cbn [fst snd]. rewrite (sub_t_two _ _ _ _ T1 T2), (sub_v_two _ _ _ _ V1 V2).
      eapply (can_bind _ (fun fuel q => do bs <- map_m _ _; ret (q :: bs)) (eq (true, s))).
      - eapply can_bind0; [exact (can_lift_opt _ _ [0; b - a] (eq [0; b - a]) eq_refl eq_refl)|]. intros ? <-. cbn [last_opt hd_error].
        eapply can_bind0; [exact (can_lift_opt _ _ (b - a) (eq (b - a)) eq_refl eq_refl)|]. intros ? <-.
        eapply can_bind0; [exact (can_lift_opt _ _ v0 (eq v0) eq_refl eq_refl)|]. intros ? <-.
        eapply can_bind0; [exact (can_lift_opt _ _ v1 (eq v1) eq_refl eq_refl)|]. intros ? <-.
        apply can_dual; [exact (series_pos t vt i a b HS T1 T2)|apply (HA i a b v0 v1); auto; unfold low_z, high_z, Rmin, Rmax in H1; destruct (Rle_dec _ _); lra].
      - intros q <-. eapply can_bind; [apply (IH (S i)); [lia|exact H2]|]. intros bs <-. apply can_ret. reflexivity. }
    apply (G z 0%nat); [lia|exact HZ].
  - intros rs <-. destruct z as [|s z]; [cbn in HL; lia|]. unfold collect_coins. cbn [map]. apply can_ret. cbn [forallb fst]. f_equal.
    + symmetry. clear. induction z; auto.
    + cbn [snd]. f_equal. rewrite map_map. cbn. symmetry. apply map_id.
Qed.
(** update_params with a given move *)
Lemma can_params propose thi z s q lf lk d : S (length z) = length t -> Forall (fun s => low_z s < high_z s) z -> (s < length thi)%nat -> can (fun _ => propose s) (eq (q, lf, lk)) -> coins_alive grad t vt thi (list_set thi s q) ->
  can (fun fuel => ito_params fuel mp maxp reduce disc grad log_prior loglik batch precoin pr maxf propose thi z t vt)
    (eq (s, d, if d : bool then list_set thi s q else thi, z)).
Proof using HS Hb Hf.
  intros HL HZ HT HP HA. unfold ito_params. destruct (Nat.eqb_spec (length thi) 0) as [E|_]; [lia|].
  eapply can_bind0; [apply (can_pick _ s (eq s)); auto|]. intros i <-.
  eapply can_bind0; [exact HP|]. intros r <-. cbv beta iota zeta. unfold ito_step.
  set (w1 := loglik _ _ _ + _ + _). set (w2 := loglik _ _ _ + _ + _). set (p1 := _ + lk). set (p2 := _ + lf).
  eapply (can_weaken _ (eq (s, d, if d then list_set thi s q else thi, z))); [|auto].
  assert (RUN : forall a b, can (fun fuel => do r <- sample_twocoin_joint (fun up s0 => do r <- ito_flip_param_coins fuel mp maxp reduce disc grad batch thi (list_set thi s q) s0 t vt up; ret (r, snd r)) (fun s => ret s) a b pr maxf z;
     let '((accept, _, z'), _) := r in ret ((fun (accept : bool) z_acc => (s, accept, if accept then list_set thi s q else thi, z_acc)) accept z')) (eq (s, d, if d then list_set thi s q else thi, z))).
  { intros a b. eapply (can_bind _ _ (eq (d, false, z, z))).
    - unfold sample_twocoin_joint, twocoin_joint. destruct maxf as [|m]; [lia|]. cbn [twocoin_loop].
      eapply (can_bind _ (fun fuel r => _) (eq (Some (d, false, z), z))).
      + eapply can_bind0; [apply (can_ret z (eq z)); auto|]. intros ? <-.
        eapply can_bind0; [apply (can_barker a b d)|]. intros ? <-.
        eapply (can_bind _ (fun fuel r => _) (eq ((true, z), z))).
        * eapply can_bind; [apply (can_flips thi (list_set thi s q) z d HL HZ HA)|]. intros ? <-. apply can_ret. reflexivity.
        * intros ? <-. cbv beta iota. apply can_ret. reflexivity.
      + intros ? <-. cbv beta iota. apply can_ret. reflexivity.
    - intros ? <-. cbv beta iota. apply can_ret. reflexivity. }
  eapply can_ext; [intros fuel; symmetry; apply joint_old|]. cbv zeta. destruct precoin.
  - eapply can_bind0; [apply (can_barker _ _ true)|]. intros ? <-. apply RUN.
  - apply RUN.
Qed.
End Params.
(** ** the chain *)
Lemma can_gaussian c d lf lk s q : d s <> 0 -> can (fun _ => gaussian c d lf lk s) (eq (q, lf s ((q - c s) / d s), lk s ((q - c s) / d s))).
Proof.
  intros H. unfold gaussian. eapply can_bind0; [apply (can_normal ((q - c s) / d s) (eq ((q - c s) / d s))); reflexivity|]. intros x <-. apply can_ret. f_equal. f_equal. field. auto.
Qed.
Lemma list_set_length {A} (l : list A) i v : length (list_set l i v) = length l.
Proof. revert i. induction l; intros [|i]; cbn; auto. Qed.
Section Chain.
Context (mp maxp : nat) (reduce disc : list R -> R -> R) (bounds : list R -> bounds_fun)
  (grad : list R -> list R -> R -> R -> R -> R -> R -> list R) (log_prior : list R -> R) (loglik : list R -> list R -> list R -> R)
  (batch : nat) (precoin : bool) (pr : R) (maxf : nat) (t vt : list R).
Hypothesis HS : series t vt.
Hypothesis (Hmp : (0 < mp)%nat) (Hm : (0 < maxp)%nat) (Hb : (0 < batch)%nat) (Hf : (0 < maxf)%nat).
Definition free_fit (z : partition) : Prop := S (length z) = length t /\ forall i s, nth_error z i = Some s -> standard s /\ ends 1 0 0 s /\ low_z s < high_z s.
Lemma fit_free thi z : all_fit NegInf PosInf reduce t vt thi z <-> free_fit z.
Proof.
  unfold all_fit, free_fit, fits, kept_in, inside. cbn. split; intros (L & H); split; auto; intros i s E; destruct (H i s E) as (A & B & C); tauto.
Qed.
Lemma free_low z : free_fit z -> Forall (fun s => low_z s < high_z s) z.
Proof. clear. intros (_ & H). apply Forall_forall. intros s Hs. apply In_nth_error in Hs as (i & E). apply (H i s E). Qed.
Lemma can_resume : forall moves ins thi z, length ins = length moves -> Forall live ins -> free_fit z -> spread NegInf PosInf (bounds thi) ->
  along (fun a b => coins_alive grad t vt a b /\ spread NegInf PosInf (bounds b)) thi moves ->
  can (fun fuel => ito_resume fuel mp maxp NegInf PosInf reduce disc bounds grad log_prior loglik batch precoin pr maxf ins thi z t vt)
    (fun l => map fst l = follow thi moves).
Proof using HS Hmp Hm Hb Hf.
  induction moves as [|[[s q] d] moves IH]; intros [|i ins] thi z HL HI HF HP HA; try discriminate HL; cbn [ito_resume].
  - apply can_ret. reflexivity.
  - cbn [along] in HA. destruct HA as (H1 & (H2 & H3) & H4). pose proof (Forall_inv HI) as ((c & dd & lf & lk & D & EP) & Q). pose proof (Forall_inv_tail HI) as HI'.
    set (thi' := if d then list_set thi s q else thi) in *.
    assert (HP' : spread NegInf PosInf (bounds thi')) by (unfold thi'; destruct d; auto).
    eapply (can_bind _ (fun fuel c => do l <- ito_resume fuel mp maxp NegInf PosInf reduce disc bounds grad log_prior loglik batch precoin pr maxf ins (fst c) (snd c) t vt; ret (c :: l))
      (fun c => fst c = thi' /\ free_fit (snd c))).
    + unfold ito_update_joint.
      eapply (can_bind _ (fun fuel p => let '(_, _, thi', z') := p in do z'' <- update_sde fuel mp maxp NegInf PosInf reduce disc bounds batch pr maxf (ii_omes i) thi' z' t vt; ret (thi', z''))
        (eq (s, d, thi', z))).
      * rewrite EP. apply (can_params mp maxp reduce disc grad log_prior loglik batch precoin pr maxf t vt HS Hb Hf _ thi z s q _ _ d (proj1 HF) (free_low z HF) H1 (can_gaussian c dd lf lk s q (D s)) H2).
      * intros r <-. cbv beta iota.
        eapply (can_bind _ (fun fuel z'' => ret (thi', z''))); [apply (can_sde mp maxp NegInf PosInf reduce disc bounds batch pr maxf t vt thi' HS Hmp Hm Hb Hf)|].
        -- intros v _. split; exact Logic.I.
        -- exact HP'.
        -- exact Q.
        -- apply fit_free. exact HF.
        -- intros z'' Hz. apply can_ret. split; auto. apply (fit_free thi'). exact Hz.
    + intros [th zz] (E & FF). cbn [fst snd] in *. subst th.
      eapply (can_bind _ (fun fuel l => ret ((thi', zz) :: l))); [apply (IH ins thi' zz); auto|].
      intros l Hl. apply can_ret. cbn [map fst follow]. fold thi'. rewrite Hl. reflexivity.
Qed.
Lemma can_posterior moves ins init : length ins = length moves -> Forall live ins -> spread NegInf PosInf (bounds init) ->
  along (fun a b => coins_alive grad t vt a b /\ spread NegInf PosInf (bounds b)) init moves ->
  can (fun fuel => ito_sample_posterior fuel mp maxp NegInf PosInf reduce disc bounds grad log_prior loglik batch precoin pr maxf init t vt ins)
    (fun l => map fst l = follow init moves).
Proof using HS Hmp Hm Hb Hf.
  intros. unfold ito_sample_posterior.
  eapply (can_bind _ (fun fuel z => ito_resume fuel mp maxp NegInf PosInf reduce disc bounds grad log_prior loglik batch precoin pr maxf ins init z t vt)).
  - apply (can_aug mp maxp NegInf PosInf reduce t vt init HS Hmp Hm). intros v _. split; exact Logic.I.
  - intros z Hz. apply can_resume; auto. apply (fit_free init). exact Hz.
Qed.
End Chain.
