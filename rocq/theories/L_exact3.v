(** The Poisson coin on a known path: how far its probability is from exp(- integral). *)
From Coquelicot Require Import Rcomplements Hierarchy Rbar Lim_seq Continuity Derive RInt RInt_analysis Series.
From Coq Require Import Reals List Bool Arith ZArith Lra Lia Psatz Permutation.
From Verif Require Import Base Np Rng L_list L_rng M_mjp M_hit M_path M_skel M_seed SpecSkel SpecSeed L_seed L_seed3 SpecLaw SpecCoin SpecEst SpecExact L_ppp L_skel6 L_law L_law2 L_law3 L_law4 L_law5 L_exact L_exact2 L_sde3.
Import ListNotations.
Local Open Scope R_scope.

Lemma small_batch : forall n m, (n <= m)%nat -> (0 < m)%nat -> batch_sizes n m = match n with O => [] | S _ => [n] end.
Proof.
  intros n m H Hm. unfold batch_sizes. destruct (Nat.eq_dec n m) as [->|N].
  - rewrite Nat.div_same, Nat.mod_same by lia. cbn. destruct m; [lia|reflexivity].
  - rewrite Nat.div_small, Nat.mod_small by lia. cbn [repeat app]. destruct n; reflexivity.
Qed.
Lemma tail_series : forall lam m, 0 <= lam -> expect_n (DPoisson lam) (fun n => if (n <=? m)%nat then 0 else 1) (poisson_tail lam m).
Proof.
  intros lam m Hl. split; [exact Hl|].
  set (a := fun n => exp (- lam) * (lam ^ n / INR (fact n)) * (if (n <=? m)%nat then 1 else 0)).
  assert (SA : is_series a (exp (- lam) * rs (S m) (fun k => lam ^ k / INR (fact k)))).
  { unfold is_series. apply (filterlim_ext_loc (fun _ => exp (- lam) * rs (S m) (fun k => lam ^ k / INR (fact k)))); [|apply filterlim_const].
    exists m. intros n Hn. induction Hn as [|n Hn IH].
    - assert (P : forall j, (j <= m)%nat -> exp (- lam) * rs (S j) (fun k => lam ^ k / INR (fact k)) = sum_n a j).
      { induction j as [|j IHj]; intros Hj.
        - rewrite rs_S, sum_O. unfold rs, a; cbn [seq map fold_right]. rewrite (proj2 (Nat.leb_le 0 m)) by lia. ring.
        - rewrite rs_S, sum_Sn, <- IHj by lia. unfold a. rewrite (proj2 (Nat.leb_le (S j) m)) by lia. unfold plus; cbn -[fact pow]. ring. }
      apply P. lia.
    - rewrite sum_Sn, <- IH. unfold a. rewrite (proj2 (Nat.leb_gt (S n) m)) by lia. rewrite Rmult_0_r. unfold plus; cbn -[fact pow rs]. ring. }
  pose proof (is_series_minus _ _ _ _ (poisson_total lam 1) SA) as P. unfold plus, opp in P; cbn -[fact pow rs] in P.
  refine (is_series_ext _ _ _ _ P). intros n. unfold a, plus, opp. cbn -[fact pow Nat.leb]. destruct (n <=? m)%nat; ring.
Qed.
Lemma poisson_mean : forall lam (g : nat -> R), 0 <= lam -> (forall n, 0 <= g n <= 1) -> exists p, expect_n (DPoisson lam) g p.
Proof.
  intros lam g Hl Hg. assert (E : ex_series (fun n => exp (- lam) * (lam ^ n / INR (fact n)) * g n)).
  { apply (ex_series_le (V := R_CompleteNormedModule) _ (fun n => exp (- lam) * (lam ^ n / INR (fact n)) * 1)).
    - intros n. unfold norm; cbn -[fact pow]. unfold abs; cbn -[fact pow]. assert (P : 0 <= exp (- lam) * (lam ^ n / INR (fact n))).
      { apply Rmult_le_pos; [apply Rlt_le, exp_pos|]. apply Rmult_le_pos; [apply pow_le; exact Hl|apply Rlt_le, Rinv_0_lt_compat, INR_fact_lt_0]. }
      rewrite Rabs_pos_eq by (apply Rmult_le_pos; [exact P|apply Hg]). apply Rmult_le_compat_l; [exact P|apply Hg].
    - exists 1. apply poisson_total. }
  destruct E as [p Hp]. exists p. split; [exact Hl|exact Hp].
Qed.
Lemma expect_n_minus : forall d g g' v v', expect_n d g v -> expect_n d g' v' -> expect_n d (fun x => g x - g' x) (v - v').
Proof.
  intros d g g' v v' H H'. pose proof (expect_n_plus d _ _ _ _ H (expect_n_scal d _ _ (-1) H')) as P. replace (v - v') with (v + -1 * v') by ring.
  replace (fun x => g x - g' x) with (fun x => g x + -1 * g' x); [exact P|]. apply FunctionalExtensionality.functional_extensionality. intros x. ring.
Qed.
Lemma poisson_close : forall lam (g : nat -> R) q m, 0 <= lam -> 0 <= q <= 1 -> (forall n, 0 <= g n <= 1) -> (forall n, (n <= m)%nat -> g n = q ^ n) ->
  exists p, expect_n (DPoisson lam) g p /\ Rabs (p - exp (- (lam * (1 - q)))) <= poisson_tail lam m.
Proof.
  intros lam g q m Hl Hq Hg E. destruct (poisson_mean lam g Hl Hg) as [p Hp]. exists p. split; [exact Hp|].
  pose proof (poisson_mix lam q Hl) as Hm. pose proof (tail_series lam m Hl) as Ht.
  assert (Q : forall n, 0 <= q ^ n <= 1). { induction n as [|n IH]; cbn [pow]; [lra|nra]. }
  assert (X : 0 <= p - exp (- (lam * (1 - q))) + poisson_tail lam m).
  { refine (expect_n_pos _ _ _ _ (expect_n_plus _ _ _ _ _ (expect_n_minus _ _ _ _ _ Hp Hm) Ht)). intros n _. cbv beta. destruct (Nat.leb_spec n m) as [L|L]; [rewrite E by lia; lra|]. specialize (Hg n). specialize (Q n). lra. }
  assert (Y : 0 <= exp (- (lam * (1 - q))) - p + poisson_tail lam m).
  { refine (expect_n_pos _ _ _ _ (expect_n_plus _ _ _ _ _ (expect_n_minus _ _ _ _ _ Hm Hp) Ht)). intros n _. cbv beta. destruct (Nat.leb_spec n m) as [L|L]; [rewrite E by lia; lra|]. specialize (Hg n). specialize (Q n). lra. }
  apply Rabs_le. lra.
Qed.
(** ** the coin on a frozen path *)
Lemma pos_continuous : forall h, continuous (fun h => Rmax 0 h) h.
Proof.
  intros h. apply (continuous_ext (fun h => (h + Rabs h) / 2)).
  - intros x. change ((x + Rabs x) / 2 = Rmax 0 x). unfold Rmax, Rabs. destruct (Rle_dec 0 x), (Rcase_abs x); lra.
  - apply continuity_pt_filterlim. reg.
Qed.
Lemma frozen_law : forall w disc cent T b v m, regular (fun u => disc (w u) - cent) T b v -> (0 < m)%nat ->
  exists p, chance (do p <- ppp_start 1 [b; T] m; coin_with (frozen w) (S (length (pp_sizes p))) disc [b; T] cent p tt) fst p /\ Rabs (p - exp (- v)) <= poisson_tail (b * T) m.
Proof.
  intros w disc cent T b v m (HT & Hb & Hf & Hv & G0 & HG0 & HL0) Hm.
  set (f := fun u => disc (w u) - cent) in *.
  set (G := fun h => G0 (Rmax 0 h)).
  assert (HG : forall h, continuous G h). { intros h. apply (continuous_comp (fun h => Rmax 0 h) G0); [|apply HG0]. apply pos_continuous. }
  assert (HL : forall h, 0 <= h -> is_RInt (fun u => ind (negb (Rltb h (f u)))) 0 T (T * G h)). { intros h Hh. unfold G. rewrite Rmax_right by exact Hh. apply HL0, Hh. }
  assert (GM : forall h, G (Rmax 0 h) = G h). { intros h. unfold G. f_equal. apply Rmax_right, Rmax_l. }
  assert (UG : unit1 G). { intros h. rewrite <- GM. apply (G_range f G T HT HL), Rmax_l. }
  assert (CG : ucont G). { apply (G_ucont G b Hb HG); [|apply (G_high f G T b HT Hb Hf HL)]. intros h Hh. unfold G. rewrite Rmax_left, (Rmax_left 0 0) by lra. reflexivity. }
  pose proof (levels f G T b v HT Hb Hf Hv HG HL) as LV.
  set (q := RInt G 0 b / b).
  assert (VN : forall n, chance (coin_with (frozen w) (S (length (batch_sizes n m))) disc [b; T] cent (mk_ppp n (batch_sizes n m) 0) tt) fst (value_of G b n (batch_sizes n m) 0)).
  { intros n. apply (coin_value G b Hb HG UG CG w disc cent T HT GM HL); [lra|]. apply (proj1 (batch_sizes_spec n m Hm)). }
  assert (EQ : forall n, (n <= m)%nat -> value_of G b n (batch_sizes n m) 0 = q ^ n).
  { intros n Hn. specialize (VN n). rewrite (small_batch n m Hn Hm) in *. destruct n as [|n]; [reflexivity|].
    exact (average_unique _ _ _ _ _ VN (proj1 (coin_one_batch w disc cent T b G n HT Hb (fun h Hh => HL h (proj1 Hh)) HG))). }
  assert (BT : 0 < b * T) by nra.
  assert (Eq : b * T * (1 - q) = v). { unfold q. replace (b * T * (1 - RInt G 0 b / b)) with (T * b - T * RInt G 0 b) by (field; lra). lra. }
  assert (Hq : 0 <= q <= 1). { rewrite <- (pow_1 q), <- (EQ 1%nat) by lia. apply (value_facts G b Hb HG UG CG). }
  destruct (poisson_close (b * T) (fun n => value_of G b n (batch_sizes n m) 0) q m ltac:(lra) Hq (fun n => proj1 (value_facts G b Hb HG UG CG n (batch_sizes n m)) 0) EQ) as (p & Hp & HE).
  rewrite Eq in HE. exists p. split; [|exact HE]. unfold chance.
  apply (average_comp _ (do n <- draw_n (DPoisson (b * T)); coin_with (frozen w) (S (length (batch_sizes n m))) disc [b; T] cent (mk_ppp n (batch_sizes n m) 0) tt)).
  { intros o k _. unfold ppp_start. rewrite (proj2 (Rltb_true 0 1)) by lra. cbn [hd_error tl np_min_from]. unfold bind, assert_, lift_opt, ret.
    match goal with |- context [Rltb 0 ?x] => replace (Rltb 0 x) with true end.
    - rewrite (proj2 (Nat.ltb_lt 0 m)) by exact Hm. unfold draw_n. unfold np_prod. cbn [fold_right]. replace (1 * (b * (T * 1))) with (b * T) by ring. reflexivity.
    - symmetry. apply Rltb_true. pose proof (start_run b T m o k) as SR. unfold ppp_start, bind, assert_, lift_opt, ret, raise in SR. cbn [hd_error tl np_min_from] in SR.
      rewrite (proj2 (Rltb_true 0 1)) in SR by lra. match goal with |- 0 < ?x => destruct (Rltb_dec 0 x) as [[X _]|[_ X]]; [exact X|rewrite X in SR] end.
      destruct SR as (_ & _ & [Y|[Y|Y]]); lra || lia. }
  apply (average_n _ _ _ _ (fun n => value_of G b n (batch_sizes n m) 0)); [cbn; exact Logic.I|exact Hp|]. intros n _. apply VN.
Qed.
(** ** the coin of a seed on a pinned path *)
Section Seed.
Context (path : skel -> R -> R) (norm denorm : normop) (T scale x0 x1 : R) (OP : operators norm denorm T scale x0 x1) (HT : 0 < T).
Lemma interp_pinned : forall s new_t o k, interp_seed_with (pinned path) norm denorm s new_t o k = (Ok (s, map (segment_path path s T scale x0 x1) new_t), k).
Proof using OP.
  clear HT. intros s new_t o k. unfold interp_seed_with, bind, pinned, ret, values_of, lift_opt. rewrite (op_norm_none _ _ _ _ _ _ OP). cbn [fst snd]. rewrite (op_denorm_some _ _ _ _ _ _ OP). cbn [fst snd].
  do 3 f_equal. induction new_t as [|u l IH]; [reflexivity|]. cbn [map combine fst snd]. f_equal. exact IH.
Qed.
Lemma levels_zero le new o k : Forall (fun u => 0 <= u < T) new -> map_m (fun u => lift_opt IndexError (level_at [0; T] [le] u)) new o k = (Ok (map (fun _ => le) new), k).
Proof.
  revert k. induction new as [|u new IH]; intros k F; [reflexivity|]. inversion F as [|? ? Fu Fr]; subst. cbn [map_m map].
  assert (E : level_at [0; T] [le] u = Some le). { unfold level_at, searchsorted_right. cbn [filter]. simpl nleb. rewrite (proj2 (Rleb_true 0 u)) by lra. rewrite (proj2 (Rleb_false T u)) by lra. reflexivity. }
  rewrite E. unfold lift_opt. erewrite run_bind by reflexivity. erewrite run_bind by (apply IH; exact Fr). reflexivity.
Qed.
Lemma pinned_loop : forall disc b le s, 0 < b -> forall n m sizes u, sizes_ok m sizes -> 0 <= u -> forall o k, valid o ->
  seed_loop_with (pinned path) n norm denorm disc [b; T] [0; T] [le] (mk_ppp m sizes u) s o k =
  (do r <- coin_with (frozen (segment_path path s T scale x0 x1)) n disc [b; T] le (mk_ppp m sizes u) tt; ret (fst r, s)) o k.
Proof.
  intros disc b le s Hb n. induction n as [|n IH]; intros m sizes u SZ HU o k V; [reflexivity|]. cbn [seed_loop_with coin_with].
  destruct sizes as [|i rest]; [reflexivity|]. inversion SZ as [|? ? Si Sr]; subst.
  pose proof (ppp_next_ok b [T] Hb ltac:(constructor; [exact HT|constructor]) (fun _ => True) (mk_ppp m (i :: rest) u) i rest eq_refl Si HU o k V Logic.I) as N.
  unfold bind at 1. symmetry. unfold bind at 1. unfold bind at 1. symmetry. destruct (ppp_next [b; T] (mk_ppp m (i :: rest) u) o k) as [[r|e|] k1]; try contradiction.
  cbn [fst] in N. destruct N as (bt & p' & -> & N1 & N2 & N3 & _ & N5 & _). cbv zeta. cbn [pp_n pp_ub pp_sizes] in *.
  rewrite (run_bind _ _ _ _ _ _ (interp_pinned s _ o k1)). cbn [fst snd].
  assert (F : Forall (fun u => 0 <= u < T) (map (fun r => nth 1 r 0) (col1_sort bt))).
  { apply Forall_forall. intros x Hx. apply in_map_iff in Hx as (r & <- & Hr). apply (Permutation_in r (col1_sort_perm' bt)) in Hr. rewrite Forall_forall in N5. destruct (N5 r Hr) as (t & l & -> & _ & BX).
    inversion BX as [|? y ? ? By]; subst. cbn. exact By. }
  rewrite (run_bind _ _ _ _ _ _ (levels_zero le _ o k1 F)). rewrite (run_bind _ _ _ _ _ _ (eq_refl : frozen _ tt _ o k1 = (Ok _, k1))). cbn [fst snd].
  assert (EX : existsb (fun c : R * R * R => Rltb (snd c) (disc (fst (fst c)) - snd (fst c)))
    (combine (combine (map (segment_path path s T scale x0 x1) (map (fun r => nth 1 r 0) (col1_sort bt))) (map (fun _ : R => le) (map (fun r => nth 1 r 0) (col1_sort bt)))) (map (fun r => nth 0 r 0) (col1_sort bt))) =
    existsb (fun c : R * R => Rltb (snd c) (disc (fst c) - le)) (combine (map (segment_path path s T scale x0 x1) (map (fun r => nth 1 r 0) (col1_sort bt))) (map (fun r => nth 0 r 0) (col1_sort bt)))).
  { generalize (col1_sort bt). intros l. induction l as [|r l IHl]; [reflexivity|]. cbn [map combine existsb fst snd]. rewrite IHl. reflexivity. }
  rewrite EX. match goal with |- (if ?c then _ else _) o k1 = (let (_, _) := (if ?c' then _ else _) o k1 in _) => change c' with c; destruct c end; [reflexivity|]. destruct p' as [m' sz u']. cbn [pp_n pp_ub pp_sizes] in *. subst m' sz. apply (IH m rest u' Sr ltac:(lra) o k1 V).
Qed.
End Seed.
Lemma seed_coin_law : forall path norm denorm disc bounds s T scale x0 x1 v le ue batch, operators norm denorm T scale x0 x1 -> exact_on path disc bounds s T scale x0 x1 v le ue -> (0 < batch)%nat ->
  returns (seed_coin_with (pinned path) norm denorm s disc bounds batch) (fun r => snd (fst r) = - T * le /\ snd r = s) /\
  total (seed_coin_with (pinned path) norm denorm s disc bounds batch) (fun _ => True) /\
  exists p, chance (seed_coin_with (pinned path) norm denorm s disc bounds batch) (fun r => fst (fst r)) p /\ Rabs (p - exp (- (v - T * le))) <= poisson_tail ((ue - le) * T) batch.
Proof.
  intros path norm denorm disc bounds s T scale x0 x1 v le ue batch OP [[inf EB] RG] HB.
  destruct (frozen_law (segment_path path s T scale x0 x1) disc le T (ue - le) (v - T * le) batch RG HB) as (p & Hp & HE).
  pose proof RG as (HT & Hb & _).
  set (c := do p <- ppp_start 1 [ue - le; T] batch; coin_with (frozen (segment_path path s T scale x0 x1)) (S (length (pp_sizes p))) disc [ue - le; T] le p tt) in *.
  assert (RUN : forall o k, valid o -> seed_coin_with (pinned path) norm denorm s disc bounds batch o k = (do r <- c; ret (fst r, - T * le, s)) o k).
  { intros o k V. unfold seed_coin_with. rewrite (run_bind _ _ _ _ _ _ (disc_path_one norm denorm T scale x0 x1 OP bounds s inf le (Fin ue) o k EB)). cbv beta iota.
    assert (SE : neg_dot (np_diff [0; T]) [le] = - T * le). { unfold neg_dot. cbn [np_diff combine map fold_right fst snd]. simpl nsub. ring. }
    rewrite SE. cbn [gaps all_some]. erewrite run_bind by reflexivity. rewrite (op_denorm_none _ _ _ _ _ _ OP). cbn [map fst hd_error np_max_from]. erewrite run_bind by reflexivity.
    replace (1 * T) with T by ring. unfold c. pose proof (start_run (ue - le) T batch o k) as SR. unfold bind. destruct (ppp_start 1 [ue - le; T] batch o k) as [[q|e|] k1]; try reflexivity.
    destruct SR as (_ & _ & _ & _ & SZ & _ & UB). destruct q as [m sizes u]. cbn [pp_n pp_sizes pp_ub] in *. subst u.
    rewrite (pinned_loop path norm denorm T scale x0 x1 OP HT disc (ue - le) le s Hb _ m sizes 0 SZ (Rle_refl 0) o k1 V). unfold bind.
    destruct (coin_with _ _ _ _ _ _ _ o k1) as [[r|e|] k2]; reflexivity. }
  assert (TC : total c (fun _ => True)).
  { intros o k V. pose proof (start_run (ue - le) T batch o k) as SR. unfold c, bind. destruct (ppp_start 1 [ue - le; T] batch o k) as [[q|e|] k1]; [|destruct SR as (_ & _ & [X|[X|X]]); lra || lia|contradiction].
    destruct SR as (_ & _ & _ & _ & SZ & _ & UB). destruct q as [m sizes u]. cbn [pp_n pp_sizes pp_ub] in *. assert (HU : 0 <= u) by lra. clear UB. revert u HU k1. clear k.
    induction sizes as [|i rest IH]; intros u HU k1; [cbn; exact Logic.I|]. inversion SZ as [|? ? Si Sr]; subst. cbn [length]. remember (S (length rest)) as n. cbn [coin_with].
    pose proof (ppp_next_ok (ue - le) [T] Hb ltac:(constructor; [exact HT|constructor]) (fun _ => True) (mk_ppp m (i :: rest) u) i rest eq_refl Si HU o k1 V Logic.I) as N.
    unfold bind at 1. destruct (ppp_next [ue - le; T] (mk_ppp m (i :: rest) u) o k1) as [[r|e|] k2]; try contradiction.
    cbn [fst] in N. destruct N as (bt & p' & -> & N1 & N2 & N3 & _). cbv zeta. rewrite (run_bind _ _ _ _ _ _ (eq_refl : frozen _ tt _ o k2 = (Ok _, k2))).
    destruct (existsb _ _); [cbn; exact Logic.I|]. destruct p' as [m' sz u']. cbn [pp_n pp_ub pp_sizes fst snd] in *. subst m' sz n. apply (IH Sr u'). lra. }
  split; [|split].
  - intros o k V. rewrite RUN by exact V. unfold bind. destruct (c o k) as [[r|e|] k1]; cbn; auto.
  - intros o k V. rewrite RUN by exact V. specialize (TC o k V). unfold bind. destruct (c o k) as [[r|e|] k1]; cbn in *; auto.
  - exists p. split; [|exact HE]. unfold chance. apply (average_comp _ _ _ _ _ RUN). apply average_map. exact Hp.
Qed.
