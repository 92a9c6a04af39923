(** A prior that ties the regimes together, the error of a product, and concrete cases. *)
From Coquelicot Require Import Rcomplements Hierarchy Continuity RInt.
From Coq Require Import Reals List Bool Arith ZArith Lra Lia Psatz.
From Verif Require Import Base Np Rng L_list L_rng M_mjp M_hit M_path M_skel M_seed SpecSkel SpecSeed SpecSw L_seed M_bf M_models M_sw M_mcem M_ito SpecIto SpecLaw SpecCoin SpecEst SpecExact SpecExact2 SpecFactory Mat
  L_law L_law2 L_law6 L_exact5 L_exact7 L_exact8 L_sde3 L_exact9 L_exact11 SpecJobs L_jobs.
Import ListNotations.
Local Open Scope R_scope.

(** ** the error of a product *)
Lemma product_pos : forall n f, (forall j, (j < n)%nat -> 0 <= f j) -> 0 <= product n f.
Proof. induction n as [|n IH]; intros f H; [unfold product; cbn; lra|]. rewrite product_S. apply Rmult_le_pos; [apply H; lia|]. apply IH. intros j Hj. apply H. lia. Qed.
Lemma product_le : forall n f g, (forall j, (j < n)%nat -> 0 <= f j <= g j) -> product n f <= product n g.
Proof.
  induction n as [|n IH]; intros f g H; [unfold product; cbn; lra|]. rewrite !product_S. pose proof (H 0%nat ltac:(lia)) as H0. apply Rmult_le_compat; try lra.
  - apply product_pos. intros j Hj. apply (H (S j)). lia.
  - apply IH. intros j Hj. apply H. lia.
Qed.
Lemma product_error : forall n (w t e : nat -> R), (forall j, (j < n)%nat -> 0 <= t j /\ Rabs (w j - t j) <= e j) -> Rabs (product n w - product n t) <= product n (fun j => t j + e j) - product n t.
Proof.
  induction n as [|n IH]; intros w t e H; [unfold product; cbn; rewrite Rminus_diag_eq, Rabs_R0 by reflexivity; lra|]. rewrite !product_S.
  specialize (IH (fun j => w (S j)) (fun j => t (S j)) (fun j => e (S j)) ltac:(intros j Hj; apply (H (S j)); lia)). cbv beta in IH.
  pose proof (product_pos n (fun j => t (S j)) ltac:(intros j Hj; apply (H (S j)); lia)) as PT. destruct (H 0%nat ltac:(lia)) as [T0 E0].
  set (W := product n (fun j => w (S j))) in *. set (T := product n (fun j => t (S j))) in *. set (Z := product n (fun j => t (S j) + e (S j))) in *.
  assert (PE : 0 <= e 0%nat) by (eapply Rle_trans; [apply Rabs_pos|exact E0]).
  assert (BW : Rabs W <= Z). { replace W with (T + (W - T)) by ring. eapply Rle_trans; [apply Rabs_triang|]. rewrite (Rabs_pos_eq T) by exact PT. lra. }
  replace (w 0%nat * W - t 0%nat * T) with ((w 0%nat - t 0%nat) * W + t 0%nat * (W - T)) by ring.
  eapply Rle_trans; [apply Rabs_triang|]. rewrite !Rabs_mult, (Rabs_pos_eq (t 0%nat)) by exact T0.
  assert (Rabs (w 0%nat - t 0%nat) * Rabs W <= e 0%nat * Z) by (apply Rmult_le_compat; auto using Rabs_pos). nra.
Qed.
(** ** a prior that ties two regimes together *)
Definition tied (x : list (list R)) : R := if Reqb (par2 x 0 0) 2 && Reqb (par2 x 1 0) 2 then ln 3 else 0.
Definition third (s : skel) : partition * anchorage := ([s], mk_anch [0; 1] [2; 2]%nat [0; 0]).
Lemma absent : forall interp vol disc grad batch x x' s up i, (i < 2)%nat -> forall o k, sw_coins_with interp vol disc grad batch x x' (fst (third s)) (snd (third s)) up i o k = (Ok (true, [s]), k).
Proof. intros interp vol disc grad batch x x' s up i Hi o k. destruct i as [|[|i]]; [reflexivity|reflexivity|lia]. Qed.
Lemma absent_law : forall path vol disc grad log_prior (loglik : list (list R) -> anchorage -> option nat -> R * R) batch pre pr maxf x r i s, (i < 2)%nat -> (0 < maxf)%nat -> 0 <= pr <= 1 -> (forall y h q, fst (loglik y h q) = 0) ->
  let x' := list_set x i r in let c := exp (log_prior x') / (exp (log_prior x') + exp (log_prior x)) in let K := if (pre : bool) then 1 / 2 else 1 in
  forall f, average (params_section_with (pinned path) vol disc grad log_prior loglik batch pre pr maxf (ret (r, 0, 0)) x (fst (third s)) (snd (third s)) i) f (K * c * f (true, x', [s]) + (1 - K * c) * f (false, x, [s])).
Proof.
  intros path vol disc grad log_prior loglik batch pre pr maxf x r i s Hi Hf HP HL x' c K f. unfold params_section_with.
  eapply average_comp. { intros o k _. erewrite run_bind by reflexivity. cbv beta iota. fold x'. unfold switching_step. rewrite !HL, !Rplus_0_l, !Rplus_0_r. reflexivity. }
  set (coins := fun up s0 => sw_coins_with (pinned path) vol disc grad batch x x' s0 (snd (third s)) up i).
  assert (T : forall up, total (coins up [s]) (fun r => snd r = [s])) by (intros up o k V; unfold coins; change [s] with (fst (third s)); rewrite absent by exact Hi; reflexivity).
  assert (P : forall up, chance (coins up [s]) fst 1).
  { intros up. unfold chance. apply (average_comp _ (ret (true, [s]))); [intros o k V; unfold coins; exact (absent (pinned path) vol disc grad batch x x' s up i Hi o k)|]. apply (average_ret _ (true, [s]) (fun r => ind (fst r))). }
  pose proof (joint_section coins [s] 1 1 _ (true, x', [s]) (false, x, [s]) (fun accept z_acc => (accept, if (accept : bool) then x' else x, z_acc)) pre pr maxf (log_prior x') (log_prior x) (log_prior x') (log_prior x) HP (T true) (T false) (P true) (P false) eq_refl eq_refl f) as J.
  cbv zeta in J. fold c in J. refine (average_eq _ _ _ _ _ _ J). unfold total_hit, total_keep, hit, keep, gq. destruct maxf as [|n]; [lia|]. cbn [geometric]. unfold K. destruct pre; rewrite ?Rminus_diag_eq by reflexivity; ring.
Qed.
Lemma two_jobs : forall A (j1 j2 : M A) (x1 y1 x2 y2 : A) p1 q1 p2 q2 (F : list A -> R),
  (forall f, average j1 f (p1 * f x1 + q1 * f y1)) -> (forall f, average j2 f (p2 * f x2 + q2 * f y2)) ->
  F [x1; x2] = 1 -> F [x1; y2] = 0 -> F [y1; x2] = 0 -> F [y1; y2] = 0 -> independently [j1; j2] F (p1 * p2).
Proof.
  intros A j1 j2 x1 y1 x2 y2 p1 q1 p2 q2 F H1 H2 E1 E2 E3 E4. exists (fun a => p2 * F [a; x2] + q2 * F [a; y2]). split.
  - refine (average_eq _ _ _ _ _ _ (H1 (fun a => p2 * F [a; x2] + q2 * F [a; y2]))). rewrite E1, E2, E3, E4. ring.
  - intros a. exists (fun b => F [a; b]). split; [exact (H2 (fun b => F [a; b]))|]. intros b. reflexivity.
Qed.
Lemma tied_values : forall z, tied [[1]; [1]; z] = 0 /\ tied [[2]; [1]; z] = 0 /\ tied [[1]; [2]; z] = 0 /\ tied [[2]; [2]; z] = ln 3.
Proof.
  intros z. unfold tied, par2, par, row. cbn [nth]. replace (Reqb 1 2) with false by (symmetry; apply not_true_iff_false; rewrite Reqb_true; lra). replace (Reqb 2 2) with true by (symmetry; apply Reqb_true; reflexivity). cbn [andb]. auto.
Qed.
Lemma tied_jobs : forall path vol disc grad (loglik : list (list R) -> anchorage -> option nat -> R * R) batch pre pr maxf s, (0 < maxf)%nat -> 0 <= pr <= 1 -> (forall y h q, fst (loglik y h q) = 0) ->
  let both (a b : R) := map (fun i => params_section_with (pinned path) vol disc grad tied loglik batch pre pr maxf (ret ([b], 0, 0)) [[a]; [a]; [1]] (fst (third s)) (snd (third s)) i) [0%nat; 1%nat] in
  let moved (parts : list (bool * list (list R) * partition)) := ind (forallb (fun p => fst (fst p)) parts) in
  exists there back, independently (both 1 2) moved there /\ independently (both 2 1) moved back /\ exp (tied [[1]; [1]; [1]]) * there <> exp (tied [[2]; [2]; [1]]) * back.
Proof.
  intros path vol disc grad loglik batch pre pr maxf s Hf HP HL both moved. destruct (tied_values [1]) as (V11 & V21 & V12 & V22).
  set (K := if (pre : bool) then 1 / 2 else 1). assert (KP : 0 < K) by (unfold K; destruct pre; lra).
  pose proof (fun x r i Hi => absent_law path vol disc grad tied loglik batch pre pr maxf x r i s Hi Hf HP HL) as LAW. cbv zeta in LAW. fold K in LAW.
  eexists _, _. split; [|split].
  - cbn [map both]. eapply two_jobs; [apply (LAW [[1]; [1]; [1]] [2] 0%nat); lia|apply (LAW [[1]; [1]; [1]] [2] 1%nat); lia|reflexivity|reflexivity|reflexivity|reflexivity].
  - cbn [map both]. eapply two_jobs; [apply (LAW [[2]; [2]; [1]] [1] 0%nat); lia|apply (LAW [[2]; [2]; [1]] [1] 1%nat); lia|reflexivity|reflexivity|reflexivity|reflexivity].
  - cbn [list_set]. rewrite V11, V21, V12, V22, exp_ln, !exp_0 by lra. intros E. assert (K * K * (1/4) = K * K * (3/16)) by (match type of E with ?l = ?r => replace (K * K * (1/4)) with l by field; replace (K * K * (3/16)) with r by field end; exact E).
    assert (0 < K * K) by nra. nra.
Qed.
(** ** concrete cases *)
Definition ex_disc2 (thi : list (list R)) (y : nat) (x : R) : R := slope_disc (row thi y) (x - INR y).
Lemma slope_shifted : forall y x0 x1 c c', c = 1 -> c' = 1 -> x0 = INR y -> x1 = INR y + 1 ->
  compared two_paths (fun x => slope_disc [1] (x - INR y)) (fun x => slope_disc [2] (x - INR y)) seed_line 1 c x0 x1 c' x0 x1 2 (1/2) 1 0 (1/2).
Proof.
  intros y x0 x1 c c' -> -> -> ->. pose proof (slope_compared 1 1 eq_refl eq_refl) as (C1 & C2 & C3 & C4).
  assert (EP : forall u, segment_path two_paths seed_line 1 1 (INR y) (INR y + 1) u - INR y = segment_path two_paths seed_line 1 1 0 1 u) by (intros u; unfold segment_path, path_at; ring).
  unfold compared. cbv zeta. split; [|split; [|split]].
  - refine (is_RInt_ext _ _ _ _ _ _ C1). intros u _. rewrite EP. reflexivity.
  - refine (is_RInt_ext _ _ _ _ _ _ C2). intros u _. rewrite EP. reflexivity.
  - refine (regular_ext _ _ _ _ _ _ C3). intros u _. rewrite EP. reflexivity.
  - refine (regular_ext _ _ _ _ _ _ C4). intros u _. rewrite EP. reflexivity.
Qed.
Lemma ex_known_jobs : forall i, (i < 2)%nat -> let opt (i : nat) (b : bool) := if b then [2] else [1] in let thi := map (fun i => opt i (of_part [] i)) (seq 0 2) in
  known_params two_paths (fun _ _ => 1) ex_disc2 slope_grad thi (list_set thi i (opt i true)) [seed_line; seed_line] ex_h i 2 (fun _ => 2) (fun _ => 1/2) (fun _ => 1) (fun _ => 0) (fun _ => 1/2).
Proof.
  intros i Hi opt thi. split; [repeat split; cbn; lia|]. intros j s E Y. destruct j as [|[|j]]; cbn in E, Y; [| |destruct j; discriminate]; injection E as <-; subst i; cbv zeta; unfold span, thi, opt, ex_disc2; cbn [map seq of_part nth ex_h a_t a_y a_v row list_set].
  - split; [symmetry; apply slope_rate|]. replace (1 - 0) with 1 by ring. apply slope_shifted; rewrite ?sqrt_1; cbn [INR]; ring.
  - split; [symmetry; apply slope_rate|]. replace (2 - 1) with 1 by ring. apply slope_shifted; rewrite ?sqrt_1; cbn [INR]; ring.
Qed.
