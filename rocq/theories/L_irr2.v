(** Runs with chosen draws: the parameter update of the switching sampler. *)
From Coq Require Import Reals List Bool Arith Lia Lra Sorting.Sorted.
From Verif Require Import Base Np Rng Mat L_rng M_mjp M_bf M_hit M_path M_skel M_seed M_models M_sw SpecSkel SpecSeed L_seed SpecCan SpecIrr L_can L_can2 L_can3 L_list L_sw L_sw2 L_sw3 L_sw4 L_sw8 L_sw9 L_em2 L_irr.
Import ListNotations.
Local Open Scope R_scope.

Section Step.
Context {T A St : Type}.
Lemma can_switching_step (prior lik : T -> R) (thi thi' : T) lf lk precoin (flip : nat -> bool -> St -> M ((bool * A) * St)) (pr : R) maxf (s : St) (d : bool) (a : A) : (0 < maxf)%nat ->
  can (fun fuel => flip fuel d s) (eq ((true, a), s)) ->
  can (fun fuel => switching_step (m := M) (@ret) (@bind) o_ulog_lt prior lik thi thi' lf lk precoin (run_twocoin_joint (flip fuel) (fun s => ret s) pr maxf s) s) (eq (Some (Some (d, false, a)), s)).
Proof.
  intros Hf HF. assert (RUN : forall w1 w2, can (fun fuel => run_twocoin_joint (flip fuel) (fun s => ret s) pr maxf s w1 w2) (eq (Some (d, false, a), s))).
  { intros w1 w2. unfold run_twocoin_joint, sample_twocoin_joint, twocoin_joint. destruct maxf as [|m]; [lia|]. cbn [twocoin_loop].
    eapply (can_bind _ (fun fuel r => _) (eq (d, false, a, s))).
    - eapply (can_bind _ (fun fuel r => _) (eq (Some (d, false, a), s))).
      + eapply can_bind0; [apply (can_ret s (eq s)); auto|]. intros ? <-.
        eapply can_bind0; [apply (can_barker w1 w2 d)|]. intros ? <-.
        eapply (can_bind _ (fun fuel r => _) (eq ((true, a), s))); [exact HF|]. intros ? <-. cbv beta iota. apply can_ret. reflexivity.
      + intros ? <-. cbv beta iota. apply can_ret. reflexivity.
    - intros ? <-. apply can_ret. reflexivity. }
  unfold switching_step, barker_step. destruct precoin.
  - eapply can_bind0; [apply (can_barker _ _ true)|]. intros ? <-. eapply (can_bind _ (fun fuel r => _) (eq (Some (d, false, a), s))); [apply RUN|]. intros ? <-. apply can_ret. reflexivity.
  - eapply (can_bind _ (fun fuel r => _) (eq (Some (d, false, a), s))); [apply RUN|]. intros ? <-. apply can_ret. reflexivity.
Qed.
Lemma can_hidden_step w1 w2 precoin (flip : nat -> bool -> St -> M ((bool * A) * St)) (pr : R) p0 maxf (s : St) (d : bool) (a : A) : (0 < maxf)%nat ->
  can (fun fuel => flip fuel d s) (eq ((true, a), s)) ->
  can (fun fuel => hidden_step (m := M) (@ret) (@bind) o_ulog_lt precoin w1 w2 (run_twocoin (flip fuel) pr p0 maxf s) s) (eq (Some (Some (d, false, a)), s)).
Proof.
  intros Hf HF. assert (RUN : forall w1 w2, can (fun fuel => run_twocoin (flip fuel) pr p0 maxf s w1 w2) (eq (Some (d, false, a), s))).
  { intros v1 v2. unfold run_twocoin, sample_twocoin, twocoin. destruct maxf as [|m]; [lia|]. cbn [twocoin_loop].
    eapply (can_bind _ (fun fuel r => _) (eq (d, false, a, s))).
    - eapply (can_bind _ (fun fuel r => _) (eq (Some (d, false, a), s))).
      + eapply can_bind0; [apply (can_barker v1 v2 d)|]. intros ? <-.
        eapply (can_bind _ (fun fuel r => _) (eq ((true, a), s))); [exact HF|]. intros ? <-. cbv beta iota. apply can_ret. reflexivity.
      + intros ? <-. cbv beta iota. apply can_ret. reflexivity.
    - intros ? <-. apply can_ret. reflexivity. }
  unfold hidden_step, barker_step. destruct precoin.
  - eapply can_bind0; [apply (can_barker _ _ true)|]. intros ? <-. eapply (can_bind _ (fun fuel r => _) (eq (Some (d, false, a), s))); [apply RUN|]. intros ? <-. apply can_ret. reflexivity.
  - eapply (can_bind _ (fun fuel r => _) (eq (Some (d, false, a), s))); [apply RUN|]. intros ? <-. apply can_ret. reflexivity.
Qed.
End Step.
Lemma fin_choice {A} (P : nat -> A -> Prop) (Q : A -> Prop) (d : A) n : Q d -> (forall j, (j < n)%nat -> exists a, Q a /\ P j a) ->
  exists f : nat -> A, (forall j, Q (f j)) /\ forall j, (j < n)%nat -> P j (f j).
Proof.
  intros Hd. induction n as [|n IH]; intros H; [exists (fun _ => d); split; [auto|intros; lia]|].
  destruct IH as (f & F1 & F2); [intros j Hj; apply H; lia|]. destruct (H n ltac:(lia)) as (a & A1 & A2).
  exists (fun j => if Nat.eqb j n then a else f j). split; intros j; [destruct (Nat.eqb j n); auto|]. intros Hj. destruct (Nat.eqb_spec j n) as [->|N]; auto. apply F2. lia.
Qed.
Lemma run_jobs_values {A} omes (jobs : list (M A)) : forall i0 l, length l = length jobs -> (forall i j a, nth_error jobs i = Some j -> nth_error l i = Some a -> fst (j (omes (i0 + i)%nat) 0%nat) = Ok a) ->
  run_jobs i0 omes jobs = Ok l.
Proof.
  induction jobs as [|j jobs IH]; intros i0 [|a l] HL H; try discriminate; [reflexivity|]. simpl. pose proof (H 0%nat j a eq_refl eq_refl) as E. rewrite Nat.add_0_r in E. rewrite E. simpl.
  rewrite (IH (S i0) l); [reflexivity|simpl in HL; lia|]. intros i q b Hq Hb0. rewrite Nat.add_succ_comm. apply (H (S i)); auto.
Qed.
Section Params.
Context (dim mp maxp : nat) (vol : list (list R) -> nat -> R) (disc : list (list R) -> nat -> R -> R)
  (grad : list R -> list R -> R -> R -> R -> R -> R -> list R) (log_prior : list (list R) -> R) (loglik : list (list R) -> anchorage -> option nat -> R * R)
  (batch : nat) (precoin : bool) (pr : R) (maxf : nat).
Hypothesis (Hb : (0 < batch)%nat) (Hf : (0 < maxf)%nat).
Lemma can_sw_dual thi thi' d y v0 v1 z up : 0 < d -> alive grad (row thi y) (row thi' y) -> low_z z < high_z z ->
  can (fun fuel => sw_param_coin fuel mp maxp vol disc grad thi thi' d y v0 v1 z up batch) (eq (true, z)).
Proof using Hb. clear Hf.
  intros HD HA HZ. assert (HD1 : 0 < 1 * (d - 0)) by lra. unfold sw_param_coin, flip_dual_coin. rewrite (op_denorm_none _ _ _ _ _ _ (sw_operators _ _ _ _)). cbn [map fst hd_error].
  assert (HI : 0 < sw_intensity (row thi y) (row thi' y) (grad (row thi y) (row thi' y) d v0 v1 (k_loose z) (k_tight z))).
  { apply HA; auto. unfold low_z, high_z, Rmin, Rmax in HZ; destruct (Rle_dec _ _); lra. }
  eapply can_bind0; [exact (can_lift_opt _ _ (1 * (d - 0)) (eq (1 * (d - 0))) eq_refl eq_refl)|]. intros ? <-.
  eapply can_bind0; [apply (can_start _ _ batch HI HD1 Hb)|]. intros p <-. cbn [pp_sizes length dual_loop ppp_next].
  eapply can_bind0; [apply (can_ret None (eq None)); auto|]. intros r <-. apply can_ret. reflexivity.
Qed.
Lemma can_sw_flips thi thi' z h up state : sized3 z h -> z <> [] -> StronglySorted Rlt (a_t h) -> Forall (fun s => low_z s < high_z s) z -> alive grad (row thi state) (row thi' state) ->
  can (fun fuel => flip_param_coins fuel mp maxp vol disc grad batch thi thi' z h up state) (eq (true, z)).
Proof using Hb. clear Hf.
  intros HS HN HT HZ HA. unfold flip_param_coins. eapply (can_bind _ (fun _ rs => collect_coins rs) (eq (map (fun s => (true, s)) z))).
  - assert (G : forall l, (forall q, In q l -> let '((dt, y, v0, v1), s) := q in 0 < dt /\ low_z s < high_z s) ->
      can (fun fuel => map_m (fun p => let '((dt, y0, v0, v1), z_) := p in
                    if Nat.eqb y0 state then sw_param_coin fuel mp maxp vol disc grad thi thi' dt y0 v0 v1 z_ up batch
                    else ret (true, z_)) l) (eq (map (fun q => (true, snd q)) l))).
    { induction l as [|[[[[dt y] v0] v1] s] l IH]; intros Hl; cbn [map map_m]; [apply can_ret; auto|].
      destruct (Hl _ (or_introl eq_refl)) as [H1 H2].
      eapply (can_bind _ (fun fuel q => do bs <- map_m _ _; ret (q :: bs)) (eq (true, s))).
      - destruct (Nat.eqb_spec y state) as [->|_]; [apply can_sw_dual; auto|apply can_ret; auto].
      - intros q <-. eapply can_bind; [apply IH; intros q Hq; apply Hl; right; exact Hq|]. intros bs <-. apply can_ret. reflexivity. }
    eapply can_weaken; [apply G|].
    + intros [[[[dt y] v0] v1] s] Hq. split; [|rewrite Forall_forall in HZ; apply HZ; eapply in_combine_r; eauto].
      apply in_combine_l in Hq. unfold zip4 in Hq. apply in_combine_l, in_combine_l, in_combine_l in Hq. eapply diff_pos; eauto.
    + intros ? <-. rewrite <- (map_map snd (fun s => (true, s))). f_equal. symmetry. apply combine_snd_len.
      pose proof (ivals_len z h HS) as E. rewrite combine_length in E. destruct HS as (E1 & E2 & E3).
      unfold zip4 in *. rewrite !combine_length in *. destruct (a_v h); cbn [tl length] in *; lia.
  - intros rs <-. destruct z as [|s z]; [congruence|]. unfold collect_coins. cbn [map]. apply can_ret. cbn [forallb fst]. f_equal.
    + symmetry. clear. induction z; auto.
    + cbn [snd]. f_equal. rewrite map_map. cbn. symmetry. apply map_id.
Qed.
Lemma can_section propose thi z h state q lf lk (d : bool) : sized3 z h -> z <> [] -> StronglySorted Rlt (a_t h) -> Forall (fun s => low_z s < high_z s) z ->
  can (fun _ => propose) (eq (q, lf, lk)) -> alive grad (row thi state) (row (list_set thi state q) state) ->
  can (fun fuel => update_params_section fuel mp maxp vol disc grad log_prior loglik batch precoin pr maxf propose thi z h state) (eq (d, if d then list_set thi state q else thi, z)).
Proof using Hb Hf.
  intros HS HN HT HZ HP HA. unfold update_params_section. eapply can_bind0; [exact HP|]. intros ? <-. cbv beta iota zeta.
  eapply (can_bind _ (fun fuel r => _) (eq (Some (Some (d, false, z)), z))).
  - apply (can_switching_step (T := list (list R)) log_prior (fun thi => fst (loglik thi h (Some state))) thi (list_set thi state q) lf lk precoin
      (fun fuel first s => do r <- flip_param_coins fuel mp maxp vol disc grad batch thi (list_set thi state q) s h first state; ret (r, snd r))); auto.
    eapply can_bind; [apply can_sw_flips; eauto|]. intros ? <-. apply can_ret. reflexivity.
  - intros ? <-. unfold after_step. cbn [fst]. apply can_ret. reflexivity.
Qed.
(** the rows [th] are reached from [thi] by proposing [q] and deciding [d] *)
Lemma can_update_params propose thi z h (q : nat -> list R) (d : nat -> bool) : sized3 z h -> z <> [] -> StronglySorted Rlt (a_t h) -> Forall (fun s => low_z s < high_z s) z ->
  Forall (fun y => (y < length thi)%nat) (a_y h) ->
  (forall j, (j < length thi)%nat -> alive grad (row thi j) (q j) /\ exists lf lk, can (fun _ => propose j) (eq (q j, lf, lk))) ->
  exists omes accs n0, (forall j, valid (omes j) /\ generic (omes j)) /\ forall fuel, (n0 <= fuel)%nat ->
    update_params fuel mp maxp vol disc grad log_prior loglik batch precoin pr maxf propose omes thi z h =
      Ok (accs, map (fun j => if d j then q j else row thi j) (seq 0 (length thi)), z).
Proof using Hb Hf.
  intros HS HN HT HZ HY HP. destruct quiet_exists as (o0 & O1 & O2 & _).
  set (res j := (d j, if d j then list_set thi j (q j) else thi, z)).
  destruct (fin_choice (fun j r => forall fuel, (snd r <= fuel)%nat -> fst (update_params_section fuel mp maxp vol disc grad log_prior loglik batch precoin pr maxf (propose j) thi z h j (fst r) 0%nat) = Ok (res j))
    (fun r => valid (fst r) /\ generic (fst r)) (o0, 0%nat) (length thi)) as (f & F1 & F2); [auto| |].
  { intros j Hj. destruct (HP j Hj) as (HA & lf & lk & HC).
    assert (HA' : alive grad (row thi j) (row (list_set thi j (q j)) j)).
    { replace (row (list_set thi j (q j)) j) with (q j); auto. unfold row. rewrite L_skel.list_set_nth, Nat.eqb_refl. apply Nat.ltb_lt in Hj. rewrite Hj. reflexivity. }
    destruct (can_runs _ _ [] (can_section (propose j) thi z h j (q j) lf lk (d j) HS HN HT HZ HC HA')) as (l & n0 & a & HR & <-).
    apply runs_oracle in HR as (o & V & G & HO). exists (o, n0). split; [split; [exact V|exact G]|]. cbn [fst snd]. intros fuel Hfu. rewrite HO by auto. reflexivity. }
  assert (MX : exists n0, forall j, (j < length thi)%nat -> (snd (f j) <= n0)%nat).
  { clear. induction (length thi) as [|n [m IH]]; [exists 0%nat; intros; lia|]. exists (Nat.max m (snd (f n))). intros j Hj. destruct (Nat.eq_dec j n) as [->|]; [lia|]. specialize (IH j ltac:(lia)). lia. }
  destruct MX as [n0 MX]. exists (fun j => fst (f j)), (map d (seq 0 (length thi))), n0. split; [exact F1|]. intros fuel Hfu.
  unfold update_params. rewrite (run_jobs_values _ _ 0%nat (map res (seq 0 (length thi)))).
  2:{ rewrite !map_length. reflexivity. }
  2:{ intros i j a Hj Ha. assert (Hi : (i < length thi)%nat). { assert (X : nth_error (map res (seq 0 (length thi))) i <> None) by congruence. apply nth_error_Some in X. rewrite map_length, seq_length in X. exact X. }
      rewrite nth_map_seq in Hj by auto. rewrite nth_map_seq in Ha by auto. injection Hj as <-. injection Ha as <-. cbn [Nat.add]. apply F2; auto. specialize (MX i Hi). lia. }
  cbn [rbind]. unfold assemble. rewrite map_length, seq_length.
  replace (map _ (seq 0 (length thi))) with (map Some (map (fun j => if d j then q j else row thi j) (seq 0 (length thi)))).
  2:{ rewrite map_map. apply map_ext_in. intros j Hj. apply in_seq in Hj. rewrite nth_map_seq by lia. unfold res. symmetry. destruct (d j).
      - rewrite nth_error_nth' with (d := []) by (rewrite L_skel.list_set_length; lia). rewrite L_skel.list_set_nth, Nat.eqb_refl. destruct (Nat.ltb_spec j (length thi)); [reflexivity|lia].
      - rewrite nth_error_nth' with (d := []) by lia. reflexivity. }
  rewrite all_ok_some. cbn [rbind].
  replace (map _ (combine _ _)) with (map Some z).
  2:{ destruct HS as (E1 & E2 & E3). rewrite E2. replace (S (length z) - 1)%nat with (length z) by lia.
      assert (G : forall (l : list skel) ys i, length ys = length l -> Forall (fun y => (y < length thi)%nat) ys -> (forall k, nth_error l k = nth_error z (i + k)) ->
        map Some l = map (fun p => match nth_error (map res (seq 0 (length thi))) (snd p) with Some (_, _, z) => nth_error z (fst p) | None => None end) (combine (seq i (length l)) ys)).
      { induction l as [|s l IH]; intros [|y ys] i HL HF HN'; try discriminate; [reflexivity|]. cbn [length seq combine map fst snd]. inversion HF; subst. rewrite nth_map_seq by auto. f_equal.
        - unfold res. specialize (HN' 0%nat). rewrite Nat.add_0_r in HN'. rewrite <- HN'. reflexivity.
        - apply IH; auto. intros k. rewrite Nat.add_succ_comm. apply (HN' (S k)). }
      apply G; auto.
      - rewrite removelast_len, E2. lia.
      - apply Forall_forall. intros y Hy. rewrite Forall_forall in HY. apply HY. apply in_rl. exact Hy. }
  rewrite all_ok_some. cbn [rbind fst snd]. rewrite map_map. unfold res. cbn [fst]. reflexivity.
Qed.
End Params.
