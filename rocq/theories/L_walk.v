(** Random walk proposals and the parameter update. *)
From Coquelicot Require Import Rcomplements Hierarchy Continuity Derive RInt RInt_analysis.
From Coq Require Import Reals List Bool Arith ZArith Lra Lia Psatz.
From Verif Require Import Base Np Rng M_mjp M_hit M_path M_skel M_seed SpecSeed M_bf M_models M_sw M_mcem M_ito SpecLaw SpecEst SpecExact SpecExact2 M_adapt SpecJobs SpecWalk L_law L_law2 L_exact9 L_jobs L_adapt L_adapt2 M_full L_mat.
From Verif Require Import SpecAdapt Mat.
Import ListNotations.
Local Open Scope R_scope.

Lemma product_exp : forall d (f : nat -> R), product d (fun i => exp (f i)) = exp (rsum d f).
Proof.
  intros d. induction d as [|d IH]; intros f; [unfold product; cbn; rewrite exp_0; reflexivity|]. cbn [rsum]. rewrite exp_plus, <- IH. unfold product. rewrite seq_S, map_app, fold_right_app. cbn.
  generalize (f d). intros x. clear IH. induction (map (fun i => exp (f i)) (seq 0 d)) as [|a l IHl]; cbn; [ring|]. rewrite IHl. ring.
Qed.
Lemma rsum_neg : forall d (f : nat -> R), rsum d (fun i => - f i) = - rsum d f.
Proof. induction d as [|d IH]; intros f; cbn [rsum]; [ring|]. rewrite IH. ring. Qed.
Lemma constrain_inj : forall lb ub i y y', constrain lb ub i y = constrain lb ub i y' -> y = y'.
Proof.
  intros lb ub i y y' H. unfold constrain in H. pose proof (reals_const y (lb i) (ub i)) as E. rewrite H, reals_const in E. congruence.
Qed.
Lemma constrain_jac : forall lb ub i y D, derivable_pt_lim (constrain lb ub i) y D -> Rabs D = exp (- snd (transform_to_const y (lb i) (ub i))).
Proof.
  intros lb ub i y D H. destruct (const_jac y (lb i) (ub i)) as (D' & H1 & H2 & H3). assert (D = D') as -> by (exact (uniqueness_limite _ _ _ _ H H1)). rewrite H3, Ropp_involutive, exp_ln; [reflexivity|]. apply Rabs_pos_lt. exact H2.
Qed.
(** what a proposal consists of *)
Lemma proposal_parts : forall d lb ub mvn sp q lf lb_ o k, sampler_propose d lb ub mvn sp o k = (Ok (q, lf, lb_), k) -> 
  (forall i, (i < d)%nat -> inside (lb i) (ub i) (rw_state (mv_rw sp) i)) ->
  exists y y', (forall i, (i < d)%nat -> rw_state (mv_rw sp) i = constrain lb ub i (y i)) /\ q = map (fun i => constrain lb ub i (y' i)) (seq 0 d) /\
    lf = rsum d (fun i => snd (transform_to_const (y' i) (lb i) (ub i))) /\ lb_ = rsum d (fun i => snd (transform_to_const (y i) (lb i) (ub i))) /\
    forall o k, sampler_propose d lb ub mvn sp o k = (Ok (q, lf, lb_), k).
Proof.
  intros d lb ub mvn sp q lf lb_ o k H HI. destruct (to_reals_inside d lb ub _ HI) as (y & jj & EY & HY).
  assert (K : forall o k, sampler_propose d lb ub mvn sp o k = (Ok (q, lf, lb_), k)).
  { intros o' k'. unfold sampler_propose, mv_propose, bind, ret in *. rewrite EY in *. cbn in *. injection H as <- <- <-. reflexivity. }
  unfold sampler_propose, mv_propose, bind, ret in H. rewrite EY in H. set (y' := mvn y _) in H. cbn in H. injection H as <- <- <-.
  exists y, y'. split; [|split; [reflexivity|split; [reflexivity|split; [|exact K]]]].
  - intros i Hi. destruct (const_reals _ _ _ (HI i Hi)) as (a & b & Q1 & Q2). rewrite HY in Q1 by exact Hi. injection Q1 as <- <-. unfold constrain. rewrite Q2. reflexivity.
  - apply rsum_ext. intros i Hi. destruct (const_reals _ _ _ (HI i Hi)) as (a & b & Q1 & Q2). rewrite HY in Q1 by exact Hi. injection Q1 as <- <-. rewrite Q2. reflexivity.
Qed.
Lemma step_value : forall d lb ub g x x' y y' v, even_density d g -> (forall i, (i < d)%nat -> x i = constrain lb ub i (y i)) -> (forall i, (i < d)%nat -> x' i = constrain lb ub i (y' i)) ->
  step_density d lb ub g x x' v -> v = g (fun i => y' i - y i) * exp (rsum d (fun i => snd (transform_to_const (y' i) (lb i) (ub i)))).
Proof.
  intros d lb ub g x x' y y' v EG EX EX' (u & u' & D & H & ->).
  assert (EU : forall i, (i < d)%nat -> u i = y i /\ u' i = y' i). { intros i Hi. destruct (H i Hi) as (H1 & H2 & _). split; apply (constrain_inj lb ub i); [rewrite <- H1; apply EX; exact Hi|rewrite <- H2; apply EX'; exact Hi]. }
  rewrite (product_ext d (fun i => Rabs (D i)) (fun i => exp (- snd (transform_to_const (y' i) (lb i) (ub i))))).
  2:{ intros i Hi. destruct (H i Hi) as (_ & _ & HD). rewrite (constrain_jac _ _ _ _ _ HD). destruct (EU i Hi) as [_ ->]. reflexivity. }
  rewrite product_exp. unfold Rdiv. rewrite <- exp_Ropp. f_equal.
  - rewrite (EG _ (fun i => - (y' i - y i))) by (intros i Hi; destruct (EU i Hi) as [-> ->]; ring). apply EG. intros i Hi. ring.
  - f_equal. rewrite rsum_neg. ring.
Qed.
Lemma step_exists : forall d lb ub g x x', (forall i, (i < d)%nat -> inside (lb i) (ub i) (x i)) -> (forall i, (i < d)%nat -> inside (lb i) (ub i) (x' i)) -> exists v, step_density d lb ub g x x' v.
Proof.
  intros d lb ub g x x' HX HX'. destruct (to_reals_inside d lb ub x HX) as (y & j & _ & HY). destruct (to_reals_inside d lb ub x' HX') as (y' & j' & _ & HY').
  destruct (finite_choice R 0 d (fun i D => derivable_pt_lim (constrain lb ub i) (y' i) D)) as [D HD].
  { intros i Hi. destruct (const_jac (y' i) (lb i) (ub i)) as (D & H1 & _). exists D. exact H1. }
  eexists. exists y, y', D. split; [|reflexivity]. intros i Hi. split; [|split; [|exact (HD i Hi)]].
  - destruct (const_reals _ _ _ (HX i Hi)) as (a & b & Q1 & Q2). rewrite HY in Q1 by exact Hi. injection Q1 as <- <-. unfold constrain. rewrite Q2. reflexivity.
  - destruct (const_reals _ _ _ (HX' i Hi)) as (a & b & Q1 & Q2). rewrite HY' in Q1 by exact Hi. injection Q1 as <- <-. unfold constrain. rewrite Q2. reflexivity.
Qed.
Lemma map_seq_nth : forall d (f g : nat -> R), map f (seq 0 d) = map g (seq 0 d) -> forall i, (i < d)%nat -> f i = g i.
Proof. intros d f g H i Hi. apply (f_equal (fun l => nth_error l i)) in H. rewrite !nth_error_map, !(nth_error_nth' (seq 0 d) 0%nat), seq_nth in H by (rewrite ?seq_length; exact Hi). cbn in H. congruence. Qed.
Lemma walk_law : forall path vol disc grad log_prior loglik batch pre pr maxf thi z h i n C vf vg a b d lb ub mvn mvn' sp q lf lb_ lf' lb' g o k o' k',
  (forall x y T v0 v1 lo hi, grad x y T v0 v1 lo hi = grad y x T v0 v1 lo hi) -> even_density d g ->
  let x := rw_state (mv_rw sp) in let x' := fun j => nth j q 0 in let sp' := standing sp x' in let thi' := list_set thi i q in
  nth_error thi i = Some (map x (seq 0 d)) -> (forall j, (j < d)%nat -> inside (lb j) (ub j) (x j)) -> (forall j, (j < d)%nat -> inside (lb j) (ub j) (x' j)) ->
  sampler_propose d lb ub mvn sp o k = (Ok (q, lf, lb_), k) -> sampler_propose d lb ub mvn' sp' o' k' = (Ok (map x (seq 0 d), lf', lb'), k') ->
  known_params path vol disc grad thi thi' z h i n C vf vg a b -> (0 < batch)%nat -> 0 <= pr <= 1 ->
  let W (t : list (list R)) := fst (loglik t h (Some i)) + log_prior t in
  let err := rsum n (within h i (overflow (fun j => C j * span (a_t h) j) batch)) in
  exists pn pp acc stay acc' stay',
    Rabs (pn - exp (W thi - rsum n (within h i vf))) <= exp (W thi - rsum n (within h i (fun j => vf j - a j))) * err /\
    Rabs (pp - exp (W thi' - rsum n (within h i vg))) <= exp (W thi' - rsum n (within h i (fun j => vg j - b j))) * err /\
    (forall f, average (params_section_with (pinned path) vol disc grad log_prior loglik batch pre pr maxf (sampler_propose d lb ub mvn sp) thi z h i) f (acc * f (true, thi', z) + stay * f (false, thi, z))) /\
    (forall f, average (params_section_with (pinned path) vol disc grad log_prior loglik batch pre pr maxf (sampler_propose d lb ub mvn' sp') thi' z h i) f (acc' * f (true, thi, z) + stay' * f (false, thi', z))) /\
    forall there back, step_density d lb ub g x x' there -> step_density d lb ub g x' x back -> pn * there * acc = pp * back * acc'.
Proof.
  intros path vol disc grad log_prior loglik batch pre pr maxf thi z h i n C vf vg a b d lb ub mvn mvn' sp q lf lb_ lf' lb' g o k o' k' GS EG x x' sp' thi' HQ HI HI' P1 P2 HK HB HP W err.
  destruct (proposal_parts _ _ _ _ _ _ _ _ _ _ P1 HI) as (y & y' & EY & EQ & EL & EB & P1').
  destruct (proposal_parts _ _ _ _ _ _ _ _ _ _ P2 HI') as (u & u' & EU & EQ' & EL' & EB' & P2'). fold x in EY. cbn [rw_state mv_rw sp' standing] in EU.
  assert (EX' : forall j, (j < d)%nat -> x' j = constrain lb ub j (y' j)).
  { intros j Hj. unfold x'. rewrite EQ. apply nth_error_nth. rewrite nth_error_map, (nth_error_nth' (seq 0 d) 0%nat), seq_nth by (rewrite ?seq_length; exact Hj). reflexivity. }
  assert (E1 : forall j, (j < d)%nat -> u j = y' j) by (intros j Hj; apply (constrain_inj lb ub j); rewrite <- EX' by exact Hj; symmetry; apply EU; exact Hj).
  assert (E2 : forall j, (j < d)%nat -> u' j = y j) by (intros j Hj; apply (constrain_inj lb ub j); rewrite <- EY by exact Hj; symmetry; exact (map_seq_nth d _ _ EQ' j Hj)).
  assert (F1 : lf' = lb_) by (rewrite EL', EB; apply rsum_ext; intros j Hj; rewrite E2 by exact Hj; reflexivity).
  assert (F2 : lb' = lf) by (rewrite EB', EL; apply rsum_ext; intros j Hj; rewrite E1 by exact Hj; reflexivity).
  destruct (params_law path vol disc grad log_prior loglik batch pre pr maxf thi (map x (seq 0 d)) q lf lb_ z h i n C vf vg a b GS HQ HK HB HP) as (dn & dp & acc & stay & acc' & stay' & D1 & D2 & A1 & A2 & BB & _). fold thi' err in D2, A1, A2. fold err in D1.
  assert (SC : forall w l p v c, Rabs (p - exp (w + l - v)) <= exp (w + l - c) * err -> Rabs (p * exp (- l) - exp (w - v)) <= exp (w - c) * err).
  { intros w l p v c H. replace (p * exp (- l) - exp (w - v)) with ((p - exp (w + l - v)) * exp (- l)). 2:{ rewrite Rmult_minus_distr_r, <- exp_plus. do 2 f_equal. ring. }
    rewrite Rabs_mult, (Rabs_pos_eq (exp (- l))) by (left; apply exp_pos). replace (exp (w - c)) with (exp (w + l - c) * exp (- l)) by (rewrite <- exp_plus; f_equal; ring).
    pose proof (exp_pos (- l)). nra. }
  exists (dn * exp (- lf)), (dp * exp (- lb_)), acc, stay, acc', stay'.
  split; [exact (SC _ _ _ _ _ D1)|]. split; [exact (SC _ _ _ _ _ D2)|]. split; [|split].
  - intros f. refine (average_comp _ _ _ _ _ _ (A1 f)). intros o1 k1 _. unfold params_section_with, bind. rewrite P1'. reflexivity.
  - intros f. refine (average_comp _ _ _ _ _ _ (A2 f)). intros o1 k1 _. unfold params_section_with, bind. rewrite P2', F1, F2. reflexivity.
  - intros there back S1 S2. apply (step_value d lb ub g x x' y y' _ EG EY EX') in S1. apply (step_value d lb ub g x' x y' y _ EG EX' EY) in S2. rewrite <- EL in S1. rewrite <- EB in S2.
    rewrite (EG _ (fun i => y' i - y i)) in S2 by (intros j Hj; ring). rewrite S1, S2, !exp_Ropp. set (G := g (fun i => y' i - y i)).
    transitivity (G * (dn * acc)); [field; apply Rgt_not_eq, exp_pos|]. rewrite BB. field. apply Rgt_not_eq, exp_pos.
Qed.
