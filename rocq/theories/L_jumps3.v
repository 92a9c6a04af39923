(** eval_loglik against the density of a path; the posterior of the generator given a whole path. *)
From Coquelicot Require Import Hierarchy RInt.
From Coq Require Import Reals List Bool Arith Lia Lra.
From Verif Require Import Base Np Rng L_rng M_mjp M_inf SpecMjp SpecLin SpecInf SpecLaw SpecFdd SpecJumps L_inf L_law L_law2 L_law5 L_sim L_race L_stat L_law4 L_bridge L_fdd1 L_fdd2 L_fdd3 L_fdd4 L_fdd5 L_fwd3 L_fwd5 L_jumps1 L_jumps2 L_inf2 L_demo L_simdemo L_lindemo L_mat Mat.
Import ListNotations.
Local Open Scope R_scope.

Lemma path_law : forall L dim gen T fuel x xs bs, generator dim gen -> (2 <= dim)%nat -> 0 < T -> (x < dim)%nat ->
  Forall (fun y => (y < dim)%nat) xs -> moves_on x xs -> length bs = length xs -> (length xs + 2 <= fuel)%nat ->
  chance (sample_forwards L fuel T (Some x) dim gen) (goes (x :: xs) bs) (over_times T bs 0 (fun ts => path_density gen T 0 x ts xs)).
Proof.
  intros L dim gen T fuel x xs bs HG Hd HT Hx HS HM HL Hf.
  apply (average_comp _ (forwards_loop fuel T dim gen [] [] (Fin 0) x)); [intros; reflexivity|].
  refine (average_eq _ _ _ _ _ _ (path_loop dim gen T HG Hd xs fuel bs 0 x HT Hx HS HM HL Hf)).
  pose proof (over_W gen T xs bs 0 x 1 HL) as E. rewrite Rmult_1_l in E. rewrite <- E. apply over_ext. intros ts. ring.
Qed.
Lemma goes_head : forall u z s ts zs x xs bs, sk_t s = u :: ts -> sk_x s = z :: zs -> z <> x -> goes (x :: xs) bs s = false.
Proof. intros u z s ts zs x xs bs _ Hx N. unfold goes. rewrite Hx. destruct (list_eq_dec _ _ _); [congruence|reflexivity]. Qed.
Lemma path_law_stat : forall L dim gen T, generator dim gen -> (2 <= dim)%nat -> pos_off dim gen -> solve_ok L dim (stat_matrix gen) stat_rhs -> 0 < T ->
  exists p, rsum dim p = 1 /\ (forall i, (i < dim)%nat -> 0 < p i) /\ stationary dim gen p /\
  forall fuel x xs bs, (x < dim)%nat ->
  Forall (fun y => (y < dim)%nat) xs -> moves_on x xs -> length bs = length xs -> (length xs + 2 <= fuel)%nat ->
  chance (sample_forwards L fuel T None dim gen) (goes (x :: xs) bs) (p x * over_times T bs 0 (fun ts => path_density gen T 0 x ts xs)).
Proof.
  intros L dim gen T HG Hd HO HS HT.
  destruct (get_stat_prob dim gen ltac:(lia) (proj2 HG) HO L HS) as (p & E & P1 & P2 & P3).
  exists p. split; [exact P1|]. split; [exact P2|]. split; [exact P3|]. intros fuel x xs bs Hx HF HM HL Hf.
  set (v := over_times T bs 0 (fun ts => path_density gen T 0 x ts xs)).
  apply (average_comp _ (bind (choice (vec_list dim p)) (fun x0 => forwards_loop fuel T dim gen [] [] (Fin 0) x0))).
  { intros o n _. unfold sample_forwards. rewrite E. reflexivity. }
  pose proof (average_choice _ (vec_list dim p) (fun x0 => forwards_loop fuel T dim gen [] [] (Fin 0) x0) (fun s => ind (goes (x :: xs) bs s)) (fun z => if Nat.eqb z x then v else 0) (vec_prob dim p P1 P2)) as AC.
  assert (Ln : length (vec_list dim p) = dim) by (unfold vec_list; rewrite map_length, seq_length; reflexivity).
  rewrite Ln in AC. refine (average_eq _ _ _ _ _ _ (AC _)).
  - rewrite (rsum_ext dim _ (fun i => if Nat.eqb i x then p i * v else 0)).
    + apply (rsum_delta_r dim (fun i => p i * v)). exact Hx.
    + intros i Hi. rewrite (vec_nth dim p i Hi). destruct (Nat.eqb i x); ring.
  - intros z Hz _. destruct (Nat.eqb_spec z x) as [-> |N].
    + exact (path_law L dim gen T fuel x xs bs HG Hd HT Hx HF HM HL Hf).
    + refine (average_swap _ _ _ _ _ _ (average_false _ _ _ _ (loop_law dim gen T HG Hd fuel 0 z [] HT Hz ltac:(cbn; lra)))).
      refine (returns_weaken' _ _ _ _ (loop_first dim gen T fuel 0 z HT) _).
      intros s (ts & zs & Ht & Hzs). rewrite (goes_head 0 z s ts zs x xs bs Ht Hzs N). reflexivity.
Qed.

Lemma density_value : forall gen fin ts xs t x, length ts = length xs -> (forall a b, In (a, b) (combine (x :: xs) xs) -> 0 < gen a b) ->
  exp (move_sum (fun a b => ln (gen a b)) (x :: xs) + rdot (map (fun a => gen a a) (x :: xs)) (ediff1d_end (t :: ts) 0))
   * exp (gen (last xs x) (last xs x) * (fin - last ts t)) = path_density gen fin t x ts xs.
Proof.
  intros gen fin. induction ts as [|t' ts IH]; intros [|y xs] t x HL HP; try discriminate HL.
  - cbn [path_density last]. change (move_sum _ [x]) with 0. unfold ediff1d_end, rdot. cbn. rewrite Rmult_0_r, !Rplus_0_r, exp_0. ring.
  - injection HL as HL.
    change (path_density gen fin t x (t' :: ts) (y :: xs)) with (exp (gen x x * (t' - t)) * gen x y * path_density gen fin t' y ts xs).
    rewrite <- (IH xs t' y HL).
    + change (move_sum (fun a b => ln (gen a b)) (x :: y :: xs)) with (ln (gen x y) + move_sum (fun a b => ln (gen a b)) (y :: xs)).
      change (rdot (map (fun a => gen a a) (x :: y :: xs)) (ediff1d_end (t :: t' :: ts) 0)) with (gen x x * (t' - t) + rdot (map (fun a => gen a a) (y :: xs)) (ediff1d_end (t' :: ts) 0)).
      replace (last (y :: xs) x) with (last xs y) by (destruct xs as [|a xs]; [reflexivity|]; cbn [last]; clear; revert a; induction xs as [|c xs IX]; intros a; [reflexivity|apply IX]).
      replace (last (t' :: ts) t) with (last ts t') by (destruct ts as [|a ts']; [reflexivity|]; cbn [last]; clear; revert a; induction ts' as [|c ts' IX]; intros a; [reflexivity|apply IX]).
      rewrite !exp_plus, (exp_ln (gen x y)) by (apply HP; left; reflexivity). ring.
    + intros a b Hab. apply HP. right. exact Hab.
Qed.
Lemma density_of : forall dim s gen f tl_, wf_skel s -> Forall (fun i => (i < dim)%nat) (sk_x s) -> pos_off dim gen -> final_state s f -> last_jump s tl_ ->
  exists ll, eval_loglik dim s gen = Ok (Some ll) /\ exp ll * exp (gen f f * (sk_fin s - tl_)) = density gen s.
Proof.
  intros dim s gen f tl_ W HS HO [lx Hf] [lt Ht]. eexists. split; [apply (loglik_ok dim s gen W HS HO)|].
  destruct W as [TS NR]. pose proof (td_len s TS) as HL. unfold density.
  destruct (sk_t s) as [|t ts] eqn:Et; [destruct lt; discriminate Ht|]. destruct (sk_x s) as [|x xs] eqn:Ex; [discriminate HL|].
  injection HL as HL. rewrite <- (density_value gen (sk_fin s) ts xs t x HL).
  - assert (L1 : last xs x = f).
    { transitivity (last (x :: xs) x); [destruct xs; reflexivity|rewrite Hf; apply last_last]. }
    assert (L2 : last ts t = tl_).
    { transitivity (last (t :: ts) t); [destruct ts; reflexivity|rewrite Ht; apply last_last]. }
    rewrite L1, L2. reflexivity.
  - intros a b Hab. apply (In_nth_error) in Hab as [k Hk].
    assert (HA : nth_error (x :: xs) k = Some a /\ nth_error (x :: xs) (S k) = Some b).
    { cbn [nth_error]. clear - Hk. revert k xs Hk. assert (G : forall l m k (a b : nat), nth_error (combine l m) k = Some (a, b) -> nth_error l k = Some a /\ nth_error m k = Some b).
      { induction l as [|c l IL]; intros [|d m] [|k] a' b' H; try discriminate H; [injection H as -> ->; split; reflexivity|exact (IL m k a' b' H)]. }
      intros k xs Hk. exact (G _ _ _ _ _ Hk). }
    destruct HA as [HA HB]. rewrite Forall_forall in HS. apply HO; [apply HS; exact (nth_error_In _ _ HA)|apply HS; exact (nth_error_In _ _ HB)|exact (NR k a b HA HB)].
Qed.
Lemma density_pos : forall dim s gen, wf_skel s -> Forall (fun i => (i < dim)%nat) (sk_x s) -> pos_off dim gen -> 0 < density gen s.
Proof.
  intros dim s gen W HS HO.
  assert (NX : sk_x s <> []).
  { intros E. pose proof (td_len s (proj1 W)) as HL. pose proof (td_first s (proj1 W)) as HF. rewrite E in HL. destruct (sk_t s); [discriminate HF|discriminate HL]. }
  assert (NT : sk_t s <> []) by (intros E; pose proof (td_first s (proj1 W)) as HF; rewrite E in HF; discriminate HF).
  destruct (exists_last NX) as (lx & f & Ef). destruct (exists_last NT) as (lt & t & Et).
  destruct (density_of dim s gen f t W HS HO (ex_intro _ lx Ef) (ex_intro _ lt Et)) as (ll & _ & <-).
  apply Rmult_lt_0_compat; apply exp_pos.
Qed.
(** eval_loglik leaves out the time after the last jump *)
Lemma loglik_excess : forall dim s gen, wf_skel s -> Forall (fun i => (i < dim)%nat) (sk_x s) -> (2 <= dim)%nat -> generator dim gen -> pos_off dim gen ->
  exists ll, eval_loglik dim s gen = Ok (Some ll) /\ ln (density gen s) < ll.
Proof.
  intros dim s gen W HS Hd HG HO.
  assert (NX : sk_x s <> []).
  { intros E. pose proof (td_len s (proj1 W)) as HL. pose proof (td_first s (proj1 W)) as HF. rewrite E in HL. destruct (sk_t s); [discriminate HF|discriminate HL]. }
  assert (NT : sk_t s <> []) by (intros E; pose proof (td_first s (proj1 W)) as HF; rewrite E in HF; discriminate HF).
  destruct (exists_last NX) as (lx & f & Ef). destruct (exists_last NT) as (lt & t & Et).
  destruct (density_of dim s gen f t W HS HO (ex_intro _ lx Ef) (ex_intro _ lt Et)) as (ll & E & <-). exists ll. split; [exact E|].
  rewrite <- exp_plus, ln_exp.
  assert (Hf : (f < dim)%nat) by (rewrite Forall_forall in HS; apply HS; rewrite Ef; apply in_or_app; right; left; reflexivity).
  assert (HT : t < sk_fin s) by (apply (td_below s (proj1 W)); rewrite Et; apply in_or_app; right; left; reflexivity).
  assert (Gf : gen f f < 0).
  { pose proof (proj2 HG f Hf) as R0. rewrite (split_at dim (gen f) f Hf) in R0.
    set (g := if Nat.eqb f 0 then 1%nat else 0%nat). assert (Hg : (g < dim)%nat /\ g <> f) by (unfold g; destruct (Nat.eqb_spec f 0); lia).
    assert (0 < rsum dim (fun j => if Nat.eqb j f then 0 else gen f j)); [|lra].
    apply (rsum_pos dim (fun j => if Nat.eqb j f then 0 else gen f j) g).
    - intros j Hj. destruct (Nat.eqb_spec j f); [lra|]. apply Rlt_le. apply HO; auto.
    - apply Hg.
    - rewrite (proj2 (Nat.eqb_neq g f)) by apply Hg. apply HO; [exact Hf|apply Hg|]. intros Q. apply (proj2 Hg). symmetry. exact Q. }
  assert (gen f f * (sk_fin s - t) < 0); [|lra].
  replace 0 with (0 * (sk_fin s - t)) by ring. apply Rmult_lt_compat_r; lra.
Qed.
Lemma right_update : forall dim s gen alp0 bet0 f tl_, wf_skel s -> Forall (fun i => (i < dim)%nat) (sk_x s) ->
  generator dim gen -> pos_off dim gen -> hyper dim (fun _ => True) alp0 -> hyper dim (fun _ => True) bet0 -> final_state s f -> last_jump s tl_ ->
  exists alp1 bet1, update dim s alp0 bet0 = Ok (alp1, bet1) /\
    eval_logprior dim gen alp1 (fun i j => option_map (Rplus (if Nat.eqb i f then sk_fin s - tl_ else 0)) (bet1 i j)) = eval_logprior dim gen alp0 bet0 + ln (density gen s).
Proof.
  intros dim s gen alp0 bet0 f tl_ W HS HG HO HA HB Hf Ht.
  destruct (conjugacy dim s gen alp0 bet0 W HS HG HO HA HB) as (alp1 & bet1 & ll & EU & EL & EC). exists alp1, bet1. split; [exact EU|].
  destruct (density_of dim s gen f tl_ W HS HO Hf Ht) as (ll' & EL' & ED). rewrite EL in EL'. injection EL' as <-.
  rewrite <- ED, <- exp_plus, ln_exp. rewrite <- Rplus_assoc, <- EC. set (d := sk_fin s - tl_).
  destruct (update_ok dim s alp0 bet0 (proj1 W) HS) as (alp2 & bet2 & EU2 & U1 & U2 & U3). rewrite EU in EU2. injection EU2 as <- <-.
  unfold eval_logprior.
  assert (Hfd : (f < dim)%nat) by (destruct Hf as [lx Ef]; rewrite Forall_forall in HS; apply HS; rewrite Ef; apply in_or_app; right; left; reflexivity).
  assert (Gi : gen f f * d = rsum dim (fun i => rsum dim (fun j => if Nat.eqb i f then if Nat.eqb i j then 0 else - d * gen i j else 0))).
  { rewrite (rsum_ext dim _ (fun i => if Nat.eqb i f then rsum dim (fun j => if Nat.eqb i j then 0 else - d * gen i j) else 0)).
    - rewrite (rsum_delta_r dim (fun i => rsum dim (fun j => if Nat.eqb i j then 0 else - d * gen i j))) by exact Hfd.
      pose proof (proj2 HG f Hfd) as R0. rewrite (split_at dim (gen f) f Hfd) in R0.
      rewrite (rsum_ext dim _ (fun j => - d * (if Nat.eqb j f then 0 else gen f j))); [rewrite rsum_scal_l; nra|].
      intros j _. rewrite Nat.eqb_sym. destruct (Nat.eqb j f); ring.
    - intros i Hi. destruct (Nat.eqb i f); [reflexivity|]. apply rsum_0. reflexivity. }
  rewrite Gi, <- rsum_plus. apply rsum_ext. intros i Hi. rewrite <- rsum_plus. apply rsum_ext. intros j Hj.
  destruct (Nat.eqb_spec i j) as [<- |N].
  - assert (BN : bet1 i i = None) by (rewrite U3 by assumption; rewrite (proj1 HB i Hi); reflexivity). rewrite BN. cbn [option_map].
    destruct (nan2 Rminus (alp1 i i) (Some 1)); cbn; destruct (Nat.eqb i f); ring.
  - rewrite U2, U3 by assumption. destruct (proj2 HA i j Hi Hj N) as (a & -> & _), (proj2 HB i j Hi Hj N) as (b & -> & _).
    rewrite (proj2 (Rltb_true 0 (gen i j))) by (apply HO; auto). cbn. destruct (Nat.eqb i f); ring.
Qed.
Lemma jumps_example : generator 2 gen2 /\ pos_off 2 gen2 /\ solve_ok la0 2 (stat_matrix gen2) stat_rhs /\
  Forall (fun y => (y < 2)%nat) [1; 0]%nat /\ moves_on 0 [1; 0]%nat /\ goes [0; 1; 0]%nat [3/2; 5/2] demo = true /\
  wf_skel demo /\ Forall (fun i => (i < 2)%nat) (sk_x demo) /\ final_state demo 0 /\ last_jump demo 2 /\ hyper 2 (fun _ => True) (hyp2 1).
Proof.
  split; [exact gen2_generator|]. split; [exact gen2_pos|]. split; [exact la0_solve|].
  split; [repeat constructor|]. split; [cbn; lia|]. split.
  { unfold goes, demo. cbn [sk_x sk_t tl combine forallb fst snd]. destruct (list_eq_dec _ _ _); [|congruence].
    rewrite !(proj2 (Rleb_true _ _)) by lra. reflexivity. }
  split; [exact demo_wf|]. split; [exact demo_states|]. split; [exists [0; 1]%nat; reflexivity|]. split; [exists [0; 1]; reflexivity|exact (hyp2_ok 2 (fun _ => True) 1 Logic.I)].
Qed.
