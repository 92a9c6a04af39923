(** Runs with chosen draws: the hidden update of the switching sampler. *)
From Coq Require Import Reals List Bool Arith ZArith Lia Lra Sorting.Sorted.
From Verif Require Import Base Np Rng Mat L_rng M_mjp M_bf M_adapt M_hit M_path M_skel M_seed M_models M_sw SpecMjp SpecLin SpecSkel SpecSeed SpecSw SpecSupport SpecPath L_seed SpecCan SpecIrr L_can L_can2 L_can3 L_can5
  L_list L_path L_path2 L_part L_prop L_occ L_sde L_step3 L_anch L_sw L_sw2 L_sw3 L_sw4 L_sw8 L_sw9 L_sw10 L_sde3 L_irr L_irr2.
Import ListNotations.
Local Open Scope R_scope.

Lemma can_ext_at {A} (m m' : nat -> M A) P : (forall n o k, m n o k = m' n o k) -> can m P -> can m' P.
Proof. intros E H F. destruct (H F) as (l & n0 & a & H1 & H2 & H3 & H4 & H5). exists l, n0, a. repeat split; auto. intros. rewrite <- E. auto. Qed.
Lemma can_normals n : can (fun _ => draw_rs (repeat DNormal n)) (fun _ => True).
Proof.
  induction n as [|n IH]; cbn [repeat draw_rs]; [apply can_ret; auto|].
  eapply can_bind0; [apply (can_normal 0 (fun _ => True)); auto|]. intros x _. eapply can_bind; [apply IH|]. intros xs _. apply can_ret. auto.
Qed.
Lemma can_anchors vol s a b : timed s -> (forall y, In y (sk_x s) -> 0 < vol y) ->
  can (fun _ => sample_anchors vol (sk_t s) (sk_x s) (sk_fin s) a b) (fun xs => length xs = length (sk_t s) /\ exists r, xs = a :: r).
Proof.
  intros HS HV. destruct (timed_len_t s HS) as [HL HN]. eapply can_weaken; [apply can_returns with (P := fun _ => True)|intros ? [_ X]; exact X].
  - destruct (sk_t s) as [|t0 [|t1 ts]] eqn:E; [congruence|unfold sample_anchors; cbn [length Nat.eqb]; apply can_ret; auto|].
    destruct (anchor_law vol s a b HS HV (length ts)) as (X & m & c & HR & _); [rewrite E; reflexivity|]. rewrite E in HR.
    apply (can_ext_at (fun _ => do xs <- draw_rs (repeat DNormal (S (length ts))); ret (a :: X xs))).
    + intros _ o k. rewrite HR. rewrite (run_bind _ _ _ _ _ _ (L_sde.draw_normals o (S (length ts)) k)). reflexivity.
    + eapply can_bind0; [apply can_normals|]. intros xs _. apply can_ret. auto.
  - intros _. apply anchors_ok; auto.
Qed.
Lemma wf_jumping dim gen y : wf_skel y -> Forall (fun s => (s < dim)%nat) (sk_x y) -> pos_off dim gen ->
  exists x js, y = path (sk_fin y) x js /\ (x < dim)%nat /\ jumping dim gen (sk_fin y) 0 x js.
Proof.
  intros [[HL HF HS HBl] NR] FD HP. destruct y as [ts xs fin]. cbn [sk_t sk_x sk_fin] in *.
  destruct ts as [|t0 ts]; [discriminate|]. destruct xs as [|x xs]; [discriminate|]. injection HF as ->. exists x, (combine ts xs).
  injection HL as HL. inversion FD; subst. split; [unfold path; rewrite combine_fst_len, combine_snd_len by auto; reflexivity|]. split; auto.
  assert (G : forall ts xs u x, length ts = length xs -> StronglySorted Rlt (u :: ts) -> (forall a, In a (u :: ts) -> a < fin) -> no_repeat (x :: xs) -> Forall (fun s => (s < dim)%nat) (x :: xs) ->
    jumping dim gen fin u x (combine ts xs)).
  { clear -HP. induction ts as [|v ts IH]; intros [|y xs] u x HL HS HB NR FD; try discriminate; [exact Logic.I|]. cbn [combine jumping].
    inversion HS as [|? ? H1 H2]; subst. inversion H2; subst. inversion FD as [|? ? F1 F2]; subst. inversion F2; subst.
    assert (NE : y <> x) by (intros E; exact (NR 0%nat x y eq_refl eq_refl (eq_sym E))).
    split; [split; [assumption|apply HB; right; left; auto]|]. split; [assumption|]. split; [exact NE|]. split; [apply HP; auto|].
    apply IH; auto; [intros a Ha; apply HB; right; exact Ha|]. intros i a b Ha Hb. exact (NR (S i) a b Ha Hb). }
  apply G; auto.
Qed.
Lemma paste_one dim gen T x js : 0 < T -> jumping dim gen T 0 x js -> paste_partition [path T x js] = Ok (path T x js).
Proof.
  intros HT HJ. unfold paste_partition. cbn [filter path sk_fin]. change (neqb T n0) with (Reqb T 0). assert (E : Reqb T 0 = false) by (destruct (Reqb T 0) eqn:E; auto; apply Reqb_true in E; lra).
  rewrite E. cbn [negb map sk_fin np_cumsum np_cumsum_from but_last combine fst snd sk_t sk_x concat]. rewrite !app_nil_r.
  destruct (jumps_real dim gen T js 0 x HJ) as [J1 J2].
  change (sk_x (path T x js)) with (x :: map snd js). change (sk_t (path T x js)) with (0 :: map fst js).
  rewrite (mask_all (x :: map snd js)) by (auto; rewrite J2; cbn [length]; rewrite map_length; reflexivity).
  replace (concat _) with (0 :: map fst js).
  2:{ cbn. rewrite app_nil_r. f_equal; [ring|]. rewrite map_map. apply map_ext. intros [a b]. cbn. ring. }
  rewrite mask_all by (auto; rewrite J2; cbn [map length]; rewrite !map_length; reflexivity).
  reflexivity.
Qed.
Lemma can_reject p n : 0 < p < 1 -> can (fun _ => draw_rs (repeat (DUniform 0 1) n)) (fun us => length us = n /\ Forall (fun u => p < u) us).
Proof.
  intros Hp. induction n as [|n IH]; cbn [repeat draw_rs]; [apply can_ret; auto|].
  eapply can_bind0; [apply (can_unif01 p 1 (fun u => p < u)); try lra; intros; lra|]. intros u Hu. eapply can_bind; [apply IH|]. intros xs [H1 H2]. apply can_ret. split; [cbn; congruence|auto].
Qed.
Lemma mask_none {A} (l : list A) : forall bs, length bs = length l -> Forall (fun b => b = false) bs -> mask l bs = Some [].
Proof. induction l as [|a l IH]; intros [|b bs] HL HF; try discriminate; [reflexivity|]. inversion HF; subst. cbn [mask]. rewrite IH; auto. Qed.
Lemma can_hidden_propose L sp dim lam t y : wf_skel y -> Forall (fun s => (s < dim)%nat) (sk_x y) -> (2 <= dim)%nat -> generator dim lam -> pos_off dim lam ->
  solve_ok L dim (stat_matrix lam) stat_rhs -> (4 <= length t)%nat -> sk_fin (rw_state sp) = sk_fin y ->
  can (fun fuel => hidden_propose L fuel sp dim lam t) (eq (y, [])).
Proof.
  intros W FD HD HG HP HS HL4 HFin. unfold hidden_propose, mjp_propose.
  assert (L1 : length (pyslice t 1 (-1)) = (length t - 2)%nat). { destruct t as [|a t']; [cbn in HL4; lia|]. rewrite slice_inner_removelast, removelast_len. cbn [length]. lia. }
  destruct (Nat.ltb_spec (length (pyslice t 1 (-1))) 2) as [X|_]; [lia|].
  set (p := 1 / (1 + exp (last (rw_scale sp) 0))).
  assert (Hp : 0 < p < 1). { unfold p. pose proof (exp_pos (last (rw_scale sp) 0)). split; [apply Rdiv_lt_0_compat; lra|]. apply Rmult_lt_reg_r with (1 + exp (last (rw_scale sp) 0)); [lra|]. unfold Rdiv. rewrite Rmult_assoc, Rinv_l by lra. lra. }
  assert (HT : 0 < sk_fin y). { pose proof (td_first y (proj1 W)) as F0. apply (td_below y (proj1 W)). apply nth_error_In with 0%nat. exact F0. }
  destruct (wf_jumping dim lam y W FD HP) as (x & js & Ey & Hx & HJ).
  eapply can_bind0; [apply (can_reject p _ Hp)|]. intros us [U1 U2].
  assert (EM : mask (pyslice (pyslice t 1 (-1)) 1 (-1)) (map (fun u => Rltb u p) us) = Some []).
  { apply mask_none.
    - rewrite map_length, U1. destruct (pyslice t 1 (-1)) as [|a r]; [cbn in L1; lia|]. rewrite slice_inner_removelast, removelast_len. cbn [length]. lia.
    - apply Forall_forall. intros b Hb. apply in_map_iff in Hb as (u & <- & Hu). rewrite Forall_forall in U2. specialize (U2 u Hu). apply Rltb_false. lra. }
  rewrite EM. eapply can_bind0; [exact (can_lift_opt _ _ [] (eq []) eq_refl eq_refl)|]. intros ? <-.
  rewrite partition_pieces. cbn [app pieces]. unfold mutate_partition.
  assert (EF : sk_fin (piece (rw_state sp) 0 (sk_fin (rw_state sp))) = sk_fin y) by (unfold piece; cbn [sk_fin]; rewrite HFin; ring). rewrite EF.
  eapply can_bind with (P := eq [y]).
  - eapply can_bind; [apply (can_forwards_stat dim lam (sk_fin y) HD HG L x js HT HP HS Hx HJ)|]. intros ? <-. apply can_ret. congruence.
  - intros ? <-. rewrite Ey. rewrite (paste_one dim lam _ x js HT HJ). eapply can_bind0; [exact (can_lift _ (path (sk_fin y) x js) (eq (path (sk_fin y) x js)) eq_refl eq_refl)|]. intros ? <-. apply can_ret. reflexivity.
Qed.
Definition wide (s : M_skel.skel) : Prop := (standard s /\ ends 1 0 0 s) /\ low_z s < high_z s.
Section Hidden.
Context (dim mp maxp : nat) (vol : nat -> R) (disc : nat -> R -> R) (bounds : nat -> bounds_fun) (loglik : anchorage -> option nat -> R * R)
  (batch : nat) (precoin : bool) (pr : R) (maxf : nat) (t vt : list R) (opt decay : R) (air : nat).
Hypothesis (Hmp : (0 < mp)%nat) (Hm : (0 < maxp)%nat) (Hb : (0 < batch)%nat) (Hf : (0 < maxf)%nat).
Hypothesis HV : forall y, (y < dim)%nat -> 0 < vol y.
Hypothesis HB : forall y, (y < dim)%nat -> spread NegInf PosInf (bounds y).
Lemma can_sw_aug y : obs_grid t vt (sk_fin y) -> wf_skel y -> Forall (fun s => (s < dim)%nat) (sk_x y) ->
  can (fun fuel => sample_aug fuel mp maxp NegInf PosInf vol y t vt) (fun r => exists K, snd r = anch_of K /\ good dim t vt K /\ path_of K = y /\ length K = S (length (fst r)) /\ Forall wide (fst r)).
Proof using Hmp Hm HV. clear HB Hb Hf.
  intros OG W FD. pose proof (sorted_last_pos _ _ _ OG) as HT. destruct (grid_shape _ _ _ OG) as (m & Et & Es & HI).
  pose proof (og_len _ _ _ OG) as HL. pose proof (og_sorted _ _ _ OG) as HS. rewrite Et in HS.
  destruct (partition_raw y m W HS) as [ED FT].
  unfold sample_aug. rewrite Es. pose proof (partition_states y m) as PS. rewrite partition_pieces in PS |- *. rewrite <- Et in ED, FT, PS |- *.
  eapply can_bind0 with (P := fun xs => anchored y t vt xs).
  { unfold anchored. apply (can_map_m (fun _ p => let '(s, x0, x1) := p in sample_anchors vol (M_mjp.sk_t s) (M_mjp.sk_x s) (M_mjp.sk_fin s) x0 x1)) with (P := fun p x => length x = length (sk_t (fst (fst p))) /\ exists r, x = snd (fst p) :: r).
    intros [[s x0] x1] Hin. unfold zip3 in Hin. apply in_combine_l in Hin. apply in_combine_l in Hin. cbn [fst snd].
    rewrite Forall_forall in FT. specialize (FT s Hin). apply can_anchors; auto. intros q Hq. apply HV. rewrite Forall_forall in FD. apply FD. apply (PS s); auto. }
  intros xs HX.
  assert (NV : vt <> []) by (intros ->; rewrite Et in HL; discriminate). assert (NT : t <> []) by (rewrite Et; discriminate).
  assert (NY : sk_x y <> []) by (intros E; pose proof (td_len y (proj1 W)) as L1; pose proof (td_first y (proj1 W)) as L2; rewrite E in L1; destruct (sk_t y); discriminate).
  destruct (last_opt vt) as [vlast|] eqn:Ev; [|exfalso; destruct vt as [|? ?] using rev_ind; [congruence|rewrite last_opt_app in Ev; discriminate]].
  destruct (last_opt t) as [tlast|] eqn:Etl; [|exfalso; rewrite Et in Etl; change (0 :: m ++ [sk_fin y]) with ((0 :: m) ++ [sk_fin y]) in Etl; rewrite last_opt_app in Etl; discriminate].
  destruct (last_opt (sk_x y)) as [ylast|] eqn:Ey; [|exfalso; destruct (sk_x y) as [|? ?] using rev_ind; [congruence|rewrite last_opt_app in Ey; discriminate]].
  eapply can_bind0; [exact (can_lift_opt _ _ vlast (eq vlast) eq_refl eq_refl)|]. intros ? <-.
  eapply can_bind0; [exact (can_lift_opt _ _ tlast (eq tlast) eq_refl eq_refl)|]. intros ? <-.
  eapply can_bind0; [exact (can_lift_opt _ _ ylast (eq ylast) eq_refl eq_refl)|]. intros ? <-.
  destruct (aug_good dim y t vt xs vlast tlast ylast OG W FD HX Ev Etl Ey) as (K & Eh & GK & PK). rewrite Eh.
  assert (LK : length K = S (length K - 1)) by (destruct (g_first _ _ _ _ GK) as (e & K' & -> & _); simpl; lia).
  eapply can_bind with (P := fun z => length z = (length K - 1)%nat /\ Forall wide z).
  { eapply can_weaken; [apply (can_map_m (fun fuel n => sample_raw_seed fuel mp maxp NegInf PosInf (fst n) (snd n))) with (P := fun _ s => wide s)|].
    - intros q Hq. apply normops_in in Hq as (dt & yy & x0 & x1 & Hd & Hyy & ->); [|apply (good_sorted _ _ _ _ GK)]. cbn [fst snd].
      assert (Hy : (yy < dim)%nat). { apply in_map_iff in Hyy as (e & <- & He). pose proof (g_dim _ _ _ _ GK) as FG. rewrite Forall_forall in FG. apply FG; auto. }
      assert (Hc : 0 < sqrt dt * vol yy) by (apply Rmult_lt_0_compat; [apply sqrt_lt_R0; auto|auto]).
      eapply can_weaken; [apply (can_raw_seed _ _ dt (sqrt dt * vol yy) x0 x1 (sw_operators (vol yy) dt x0 x1) Hd Hc mp maxp NegInf PosInf Hmp Hm I I)|].
      intros s (A1 & A2 & _ & _ & A3). split; auto.
    - intros z Hz. cbv beta in Hz. split.
      + apply Forall2_length in Hz. rewrite <- Hz. apply normops_len; unfold anch_of; cbn [a_t a_y a_v]; rewrite map_length; exact LK.
      + clear -Hz. induction Hz; constructor; auto. }
  intros z [Hz HPz]. apply can_ret. exists K. cbn [fst snd]. split; [reflexivity|]. split; [exact GK|]. split; [exact PK|]. split; [rewrite Hz; exact LK|exact HPz].
Qed.
Lemma can_hidden_coins z h : sized3 z h -> z <> [] -> StronglySorted Rlt (a_t h) -> Forall (fun y => (y < dim)%nat) (a_y h) -> Forall wide z ->
  can (fun fuel => flip_hidden_coins fuel mp maxp vol disc bounds batch z h) (eq (true, z)).
Proof using Hb HV HB. clear Hmp Hm Hf.
  intros HS HN HT HY HZ. unfold flip_hidden_coins. eapply (can_bind _ (fun _ rs => collect_coins rs) (eq (map (fun s => (true, s)) z))).
  - assert (G : forall l, (forall q, In q l -> let '(s, y, n) := q in wide s /\ (y < dim)%nat /\ exists dt x0 x1, 0 < dt /\ n = (sw_norm (vol y) dt x0 x1, sw_denorm (vol y) dt x0 x1)) ->
      can (fun fuel => map_m (fun p => let '(z_, y0, n) := p in
                    do r <- seed_poisson_coin fuel mp maxp (fst n) (snd n) z_ (disc y0) (bounds y0) batch;
                    ret (fst (fst r), snd r)) l) (eq (map (fun q => (true, fst (fst q))) l))).
    { induction l as [|[[s y] n] l IH]; intros Hl; cbn [map map_m]; [apply can_ret; auto|].
      destruct (Hl _ (or_introl eq_refl)) as (H1 & H2 & dt & x0 & x1 & H3 & ->). cbn [fst snd].
      assert (Hc : 0 < sqrt dt * vol y) by (apply Rmult_lt_0_compat; [apply sqrt_lt_R0; auto|auto]).
      destruct (kept_spread (sqrt dt * vol y) x0 x1 Hc NegInf PosInf (bounds y) s) as (inf & lo & hi & E1 & E2); [split; [split; exact Logic.I|]; split; [split; exact Logic.I|apply H1]|apply HB; auto|].
      eapply (can_bind _ (fun fuel q => do bs <- map_m _ _; ret (q :: bs)) (eq (true, s))).
      - eapply can_bind; [apply (can_seed_coin _ _ dt (sqrt dt * vol y) x0 x1 (sw_operators (vol y) dt x0 x1) H3 mp maxp s (disc y) (bounds y) batch inf lo hi Hb E1 E2)|]. intros ? <-. apply can_ret. reflexivity.
      - intros q <-. eapply can_bind; [apply IH; intros q Hq; apply Hl; right; exact Hq|]. intros bs <-. apply can_ret. reflexivity. }
    assert (LN : length (sw_normops vol h) = length z) by (destruct HS as (E1 & E2 & E3); apply normops_len; auto).
    eapply can_weaken; [apply G|].
    + intros [[s y] n] Hq. unfold zip3 in Hq. destruct (In_nth_error _ _ Hq) as [j Hj]. rewrite !nth_error_combine in Hj.
      destruct (nth_error z j) as [s'|] eqn:N1; [|discriminate]. destruct (nth_error (a_y h) j) as [y'|] eqn:N2; [|discriminate]. destruct (nth_error (sw_normops vol h) j) as [n'|] eqn:N3; [|discriminate]. injection Hj as -> -> ->.
      split; [rewrite Forall_forall in HZ; apply HZ; eapply nth_error_In; eauto|]. split; [rewrite Forall_forall in HY; apply HY; eapply nth_error_In; eauto|].
      assert (Hj : (j < length z)%nat) by (apply nth_error_Some; congruence). destruct HS as (E1 & E2 & E3). rewrite (sw_normops_nth _ _ (length z)) in N3 by auto. cbv zeta in N3. injection N3 as <-.
      apply nth_error_nth with (d := 0%nat) in N2. rewrite N2. eexists _, _, _. split; [|reflexivity].
      pose proof (sorted_nth (a_t h) j (S j) HT ltac:(lia)). lra.
    + intros ? <-. rewrite <- (map_map (fun q => fst (fst q)) (fun s => (true, s))). f_equal. unfold zip3. rewrite <- (map_map fst fst).
      destruct HS as (E1 & E2 & E3).
      assert (CF : forall A B (l : list A) (m : list B), (length l <= length m)%nat -> map fst (combine l m) = l). { clear. induction l as [|a l IH]; intros [|b m] H; cbn in *; try lia; auto. f_equal. apply IH. lia. }
      rewrite !CF; auto; rewrite ?combine_length; lia.
  - intros rs <-. destruct z as [|s z]; [congruence|]. unfold collect_coins. cbn [map]. apply can_ret. cbn [forallb fst]. f_equal.
    + symmetry. clear. induction z; auto.
    + cbn [snd]. f_equal. rewrite map_map. cbn. symmetry. apply map_id.
Qed.
Lemma can_hidden_section z h zp hp : sized3 z h -> sized3 zp hp -> zp <> [] -> StronglySorted Rlt (a_t hp) -> Forall (fun y => (y < dim)%nat) (a_y hp) -> Forall wide zp ->
  can (fun fuel => update_hidden_section fuel mp maxp vol disc bounds loglik batch precoin pr maxf z h zp hp) (eq (true, zp, hp)).
Proof using Hb Hf HV HB. clear Hmp Hm.
  intros S1 S2 HN HT HY HZ. unfold update_hidden_section. cbv zeta.
  pose proof S1 as (A1 & A2 & A3). pose proof S2 as (B1 & B2 & B3).
  assert (CW : forall zz hh, sized3 zz hh -> can (fun _ => eval_hidden_weight vol bounds loglik zz hh) (fun _ => True)).
  { clear. intros zz hh (C1 & C2 & C3). pose proof (hidden_weight_value vol bounds loglik zz hh (length zz) eq_refl C1 C2 C3) as E. eapply can_det; [exact Logic.I|]. exists 0%nat. intros fuel _ o k. apply E. }
  eapply can_bind0; [apply (CW z h S1)|]. intros w1 _. eapply can_bind0; [apply (CW zp hp S2)|]. intros w2 _.
  eapply (can_bind _ (fun fuel r => _) (eq (Some (Some (true, false, zp)), (zp, z)))).
  - apply (can_hidden_step w2 w1 precoin (fun fuel (first : bool) s => if first then do r <- flip_hidden_coins fuel mp maxp vol disc bounds batch (fst s) hp; ret (r, (snd r, snd s))
    else do r <- flip_hidden_coins fuel mp maxp vol disc bounds batch (snd s) h; ret (r, (fst s, snd r)))); auto. cbv iota.
    eapply can_bind; [cbn [fst]; apply can_hidden_coins; auto|]. intros ? <-. apply can_ret. reflexivity.
  - intros ? <-. unfold after_step. cbn [fst]. apply can_ret. reflexivity.
Qed.
Lemma split_nil (z : partition) K : good dim t vt K -> length K = S (length z) -> split_hidden z (anch_of K) [] = ([z], [anch_of K]).
Proof using.
  clear. intros GK LK. destruct (g_first _ _ _ _ GK) as (e & K' & -> & NK & E0).
  unfold split_hidden. assert (EB : break_r (a_t (anch_of (e :: K'))) [] = [0%nat; length z]).
  { unfold break_r. replace (filter _ _) with (@nil (nat * R)). 2:{ symmetry. match goal with |- filter _ ?l = _ => generalize l end. intros l0. induction l0 as [|q l0 IH]; [reflexivity|exact IH]. }
    cbn [map app]. unfold anch_of. cbn [a_t]. rewrite map_length, LK. do 2 f_equal. lia. }
  rewrite EB. cbn [combine tl map fst snd]. f_equal; f_equal.
  - unfold cut. change 0%Z with (Z.of_nat 0). rewrite pyslice_nat by lia. rewrite Nat.sub_0_r. cbn [skipn]. apply firstn_all.
  - assert (C : forall A (l : list A), length l = S (length z) -> cut l 0 (length z + 1) = l).
    { intros A l Hl. unfold cut. change (Z.of_nat 0) with (Z.of_nat 0). rewrite pyslice_nat by lia. rewrite Nat.sub_0_r. cbn [skipn]. replace (length z + 1)%nat with (length l) by lia. apply firstn_all. }
    unfold anch_of. cbn [a_t a_y a_v]. rewrite !C by (rewrite map_length; exact LK). f_equal.
    cbn [map nth]. rewrite E0. change (nsub (T := R)) with Rminus. cbn [map]. f_equal; [lra|]. rewrite map_map. apply map_ext. intros a. cbn. lra.
Qed.
Lemma runs_det {A} F (m : nat -> M A) n0 a : (forall fuel, (n0 <= fuel)%nat -> forall o k, m fuel o k = (Ok a, k)) -> runs F m [] n0 a.
Proof using. clear. intros H. split; [constructor|]. split; [constructor|]. split; [intros u []|]. intros s k fuel _ Hn. rewrite H by auto. cbn [length]. rewrite Nat.add_0_r. reflexivity. Qed.
Lemma runs_update_hidden L lam sp z K y F : obs_grid t vt (last t 0) -> (4 <= length t)%nat -> (2 <= dim)%nat -> generator dim lam -> pos_off dim lam -> solve_ok L dim (stat_matrix lam) stat_rhs ->
  good dim t vt K -> length K = S (length z) -> rw_state sp = path_of K -> wf_skel y -> sk_fin y = last t 0 -> Forall (fun s => (s < dim)%nat) (sk_x y) ->
  exists omes l n0 z' K' sp', (forall i, valid (omes i) /\ generic (omes i)) /\
    runs F (fun fuel => update_hidden L fuel mp maxp NegInf PosInf vol disc bounds loglik batch precoin pr maxf t vt opt decay air dim lam omes sp z (anch_of K)) l n0 ((y, []), (z', anch_of K', sp')) /\
    good dim t vt K' /\ length K' = S (length z') /\ Forall wide z' /\ path_of K' = y /\ rw_state sp' = y.
Proof using Hmp Hm Hb Hf HV HB.
  intros OG H4 HD HG HP HS GK LK ES W EF FD.
  assert (OGy : obs_grid t vt (sk_fin y)) by (rewrite EF; exact OG).
  assert (EFK : sk_fin (rw_state sp) = sk_fin y). { rewrite ES, EF. unfold path_of. cbn [sk_fin]. rewrite (g_last _ _ _ _ GK). reflexivity. }
  destruct (can_runs _ _ F (can_hidden_propose L sp dim lam t y W FD HD HG HP HS H4 EFK)) as (l1 & n1 & a1 & R1 & <-).
  destruct (can_runs _ _ (F ++ map n_u l1) (can_sw_aug y OGy W FD)) as (l2 & n2 & [z' h'] & R2 & K' & Eh & GK' & PK' & LK' & WZ). cbn [fst snd] in *. subst h'.
  assert (NZ : forall (zz : partition) KK, good dim t vt KK -> length KK = S (length zz) -> zz <> []). { clear. intros zz KK G E ->. destruct (g_first _ _ _ _ G) as (e & K1 & -> & N & _). destruct K1; [congruence|discriminate]. }
  assert (CS := can_hidden_section z (anch_of K) z' (anch_of K') (sized_anch K z LK) (sized_anch K' z' LK') (NZ z' K' GK' LK') (good_sorted _ _ _ _ GK')).
  specialize (CS ltac:(cbn [anch_of a_y]; pose proof (g_dim _ _ _ _ GK') as D; rewrite Forall_forall in D |- *; intros x Hx; apply in_map_iff in Hx as (e & <- & He); auto) WZ).
  destruct (can_runs _ _ [] CS) as (l3 & n3 & a3 & R3 & <-). apply runs_oracle in R3 as (o & V & G & RO).
  set (sp' := mjp_adapt opt decay air sp y (np_mean [1])).
  exists (fun _ => o), (l1 ++ (l2 ++ [])), (Nat.max n1 (Nat.max n2 n3)), z', K', sp'. split; [split; [exact V|exact G]|]. split.
  - unfold update_hidden. apply (runs_bind F _ (fun fuel p => do r <- update_hidden_with fuel mp maxp NegInf PosInf vol disc bounds loglik batch precoin pr maxf t vt opt decay air (fun _ => o) sp z (anch_of K) (fst p) (snd p); ret (p, r)) l1 n1 (y, [])); [exact R1|].
    cbn [fst snd]. unfold update_hidden_with.
    set (rest := fun fuel (a : partition * anchorage) => let '(z_prime, h_prime) := a in let '(zn, hn) := split_hidden z (anch_of K) [] in let '(zp, hp) := split_hidden z_prime h_prime [] in
          do acc <- lift (run_jobs 0 (fun _ => o) (map (fun q => let '(zn_, zp_, hn_, hp_) := q in
                    update_hidden_section fuel mp maxp vol disc bounds loglik batch precoin pr maxf zn_ hn_ zp_ hp_) (zip4 zn zp hn hp)));
          do r <- lift (paste_hidden (map (fun q => snd (fst q)) acc) (map (fun q => snd q) acc));
          do y0 <- lift (prune_anchorage (snd r));
          ret (fst r, snd r, mjp_adapt opt decay air sp y0 (np_mean (map (fun q => if (fst (fst q) : bool) then 1 else 0) acc)))).
    apply (runs_ext _ (fun fuel => bind (sample_aug fuel mp maxp NegInf PosInf vol y t vt) (fun a => bind (rest fuel a) (fun r => ret ((y, []), r))))).
    2:{ apply (runs_bind _ _ (fun fuel a => bind (rest fuel a) (fun r => ret ((y, []), r))) l2 n2 (z', anch_of K')); [exact R2|]. unfold rest.
        apply runs_det. intros fuel Hn o' k'. rewrite (split_nil z K GK LK), (split_nil z' K' GK' LK'). unfold zip4. cbn [combine map run_jobs]. rewrite RO by auto. cbn [fst rbind].
        unfold bind, lift. cbn [map fst snd paste_hidden concat fold_left]. rewrite app_nil_r. rewrite (prune_of K'). 2:{ destruct (g_first _ _ _ _ GK') as (e & K1 & -> & _). discriminate. }
        rewrite PK'. unfold ret. reflexivity. }
    intros n _ o' k'. unfold bind. destruct (sample_aug n mp maxp NegInf PosInf vol y t vt o' k') as [[[a b]| |] k2]; reflexivity.
  - split; [exact GK'|]. split; [exact LK'|]. split; [exact WZ|]. split; [exact PK'|]. unfold sp', mjp_adapt. destruct (Nat.eqb _ _); reflexivity.
Qed.
End Hidden.
