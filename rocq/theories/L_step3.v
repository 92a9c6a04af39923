(** Weights and decisions of the sections of the switching sampler. *)
From Coq Require Import Reals List Bool Arith Lia Lra.
From Verif Require Import Base Np Rng Mat M_mjp M_bf M_path M_skel M_seed M_models M_sw SpecBf SpecSkel SpecSeed SpecSw SpecEm L_list L_rng L_bf L_occ L_prop L_mat L_sde3 L_seed L_seed2 L_seed3 L_sw L_sw4 L_sw11 L_em5 L_em6 L_step L_step2.
Import ListNotations.
Local Open Scope R_scope.

Lemma ratio_cases o k w1 w2 : valid o ->
  o_ulog_lt (w1 - logaddexp w1 w2) o k = (Ok (Rltb (ora_r o k (DUniform 0 1)) (barker_ratio w1 w2)), S k).
Proof.
  intros V. unfold o_ulog_lt, bind, draw_r, ret. assert (Hu : 0 <= ora_r o k (DUniform 0 1) < 1) by (destruct (proj1 V k (DUniform 0 1)) as (x & Hx & ->); lra).
  do 2 f_equal. unfold barker_ratio. pose proof (log_lt_interval _ (w1 - logaddexp w1 w2) Hu) as E. rewrite share in E. pose proof (share_range w1 w2). rewrite clip_id in E by lra.
  destruct (log_lt _ _) eqn:F; symmetry; [apply Rltb_true|apply Rltb_false]; [tauto|]. destruct (Rle_lt_dec (exp w1 / (exp w1 + exp w2)) (ora_r o k (DUniform 0 1))); auto. apply E in r. discriminate.
Qed.
(** ** the value of the weight *)
Lemma integral_value norm denorm T scale x0 x1 bounds s : operators norm denorm T scale x0 x1 -> det (integrate_disc_bound norm denorm bounds s) (- T * low_level bounds scale x0 x1 s).
Proof.
  intros OP o k. unfold integrate_disc_bound, low_level. destruct (bounds _ _) as [[inf le] ue] eqn:B. cbn [fst snd].
  rewrite (run_bind _ _ _ _ _ _ (disc_path_one _ _ _ _ _ _ OP bounds s inf le ue o k B)). unfold ret, neg_dot. cbn. do 2 f_equal. ring.
Qed.
Lemma rsum_map_nth {A} (f : A -> R) (g : nat -> R) l : (forall i a, nth_error l i = Some a -> f a = g i) -> M_models.rsum (map f l) = Mat.rsum (length l) g.
Proof.
  revert g; induction l as [|a l IH]; intros g H; [reflexivity|]. cbn [map length]. rewrite rsum_shift. unfold M_models.rsum in *. cbn [fold_right]. rewrite (H 0%nat a eq_refl). f_equal. apply (IH (fun k => g (S k))). intros i b E. apply (H (S i) b E).
Qed.
Lemma sw_normops_nth vol h n j : length (a_t h) = S n -> length (a_y h) = S n -> length (a_v h) = S n -> (j < n)%nat ->
  nth_error (sw_normops vol h) j = let dt := nth (S j) (a_t h) 0 - nth j (a_t h) 0 in let y := nth j (a_y h) 0%nat in
    Some (sw_norm (vol y) dt (nth j (a_v h) 0) (nth (S j) (a_v h) 0), sw_denorm (vol y) dt (nth j (a_v h) 0) (nth (S j) (a_v h) 0)).
Proof.
  intros H1 H2 H3 Hj. cbv zeta. unfold sw_normops, zip4. rewrite nth_error_map, !nth_error_combine.
  rewrite (nth_error_nth' (np_diff (a_t h)) 0) by (rewrite np_diff_length; lia). rewrite (nth_error_nth' (removelast (a_y h)) 0%nat) by (rewrite removelast_len; lia).
  rewrite (nth_error_nth' (a_v h) 0) by lia. rewrite (nth_error_nth' (tl (a_v h)) 0) by (rewrite tl_length; lia). cbn [option_map].
  rewrite nth_diff, nth_rl, nth_tl by lia. reflexivity.
Qed.
Lemma hidden_weight_value vol bounds loglik z h n : length z = n -> length (a_t h) = S n -> length (a_y h) = S n -> length (a_v h) = S n ->
  forall o k, eval_hidden_weight vol bounds loglik z h o k = (Ok (Mat.rsum n (low_integral vol bounds h z) + (fst (loglik h None) + snd (loglik h None))), k).
Proof.
  intros Hz H1 H2 H3 o k. unfold eval_hidden_weight.
  set (v := fun p : M_skel.skel * nat * (normop * normop) => let '(z_, y0, n) := p in match fst (integrate_disc_bound (fst n) (snd n) (bounds y0) z_ o0 0%nat) with Ok x => x | _ => 0 end).
  assert (X : forall i p, nth_error (zip3 z (a_y h) (sw_normops vol h)) i = Some p -> det (let '(z_, y0, n) := p in integrate_disc_bound (fst n) (snd n) (bounds y0) z_) (low_integral vol bounds h z i)).
  { intros i [[z_ y0] q] E. unfold zip3 in E. rewrite !nth_error_combine in E. destruct (nth_error z i) eqn:E1; [|discriminate]. destruct (nth_error (a_y h) i) eqn:E2; [|discriminate].
    destruct (nth_error (sw_normops vol h) i) eqn:E3; [|discriminate]. injection E as -> -> ->. assert (Hi : (i < n)%nat) by (rewrite <- Hz; apply nth_error_Some; congruence).
    rewrite (sw_normops_nth _ _ n) in E3 by auto. cbv zeta in E3. injection E3 as <-. cbn [fst snd]. unfold low_integral. rewrite E1. cbv zeta. apply nth_error_nth with (d := 0%nat) in E2. rewrite E2.
    apply integral_value. apply sw_operators. }
  erewrite run_bind.
  2:{ apply (det_map_m_val _ v). intros p Hp. apply In_nth_error in Hp as [i Hi]. pose proof (X i p Hi) as D. unfold v. destruct p as [[z_ y0] q]. rewrite (D o0 0%nat). exact D. }
  unfold ret. do 3 f_equal. rewrite (rsum_map_nth v (low_integral vol bounds h z)).
  - f_equal. unfold zip3. rewrite !combine_length, (normops_len _ _ n) by auto. lia.
  - intros i p E. pose proof (X i p E) as D. unfold v. destruct p as [[z_ y0] q]. rewrite (D o0 0%nat). reflexivity.
Qed.
Lemma low_integral_refined vol bounds h z z' j : Forall2 extends z z' -> low_integral vol bounds h z' j = low_integral vol bounds h z j.
Proof.
  intros F. unfold low_integral. cbv zeta. revert j. assert (X : forall i, match nth_error z i, nth_error z' i with Some s, Some s' => extends s s' | None, None => True | _, _ => False end).
  { induction F as [|a b l m H F IH]; intros [|i]; cbn; auto. apply IH. }
  intros j. specialize (X j). destruct (nth_error z j), (nth_error z' j); try tauto. destruct X as (E1 & E2 & _). unfold low_level, low_z, high_z. rewrite E1, E2. reflexivity.
Qed.
Lemma hidden_weight_refined vol bounds loglik z z' h n : length z = n -> length (a_t h) = S n -> length (a_y h) = S n -> length (a_v h) = S n -> Forall2 extends z z' ->
  forall o k o' k', fst (eval_hidden_weight vol bounds loglik z h o k) = fst (eval_hidden_weight vol bounds loglik z' h o' k').
Proof.
  intros Hz H1 H2 H3 F o k o' k'. rewrite !(hidden_weight_value _ _ _ _ _ n); auto. 2:{ rewrite <- (L_prop.Forall2_length _ _ _ F). auto. }
  cbn [fst]. do 2 f_equal. apply rsum_ext. intros j _. symmetry. apply low_integral_refined. auto.
Qed.
(** ** decisions *)
Lemma params_decision fuel mp maxp vol disc grad log_prior loglik batch precoin pr maxf propose thi z h i o k q lf lb k1 :
  valid o -> propose o k = (Ok (q, lf, lb), k1) ->
  let thi' := list_set thi i q in
  let w' := fst (loglik thi' h (Some i)) + log_prior thi' + lb in
  let w := fst (loglik thi h (Some i)) + log_prior thi + lf in
  let u := ora_r o k1 (DUniform 0 1) in
  let run a b := do r <- sample_twocoin_joint (fun up s => do x <- flip_param_coins fuel mp maxp vol disc grad batch thi thi' s h up i; ret (x, snd x)) (fun s => ret s) a b pr maxf z;
                 let '((acc, _, z'), _) := r in ret (acc, if (acc : bool) then thi' else thi, z') in
  let section := update_params_section fuel mp maxp vol disc grad log_prior loglik batch precoin pr maxf propose thi z h i in
  (precoin = true -> barker_ratio w' w <= u -> section o k = (Ok (false, thi, z), S k1)) /\
  (precoin = true -> u < barker_ratio w' w -> section o k = run 0 0 o (S k1)) /\
  (precoin = false -> section o k = run w' w o k1).
Proof.
  intros V E. cbv zeta. rewrite param_section_old. rewrite (run_bind _ _ _ _ _ _ E). cbv beta iota zeta.
  set (w' := _ + lb). set (w := _ + lf). split; [|split]; intros ->; [| |reflexivity]; intros H; erewrite run_bind by (apply (ratio_cases o k1 w' w V)).
  - apply Rltb_false in H. rewrite H. reflexivity.
  - apply Rltb_true in H. rewrite H. reflexivity.
Qed.
Lemma hidden_decision fuel mp maxp vol disc bounds loglik batch precoin pr maxf z h z' h' o k n n' :
  valid o -> length z = n -> length (a_t h) = S n -> length (a_y h) = S n -> length (a_v h) = S n ->
  length z' = n' -> length (a_t h') = S n' -> length (a_y h') = S n' -> length (a_v h') = S n' ->
  let w := Mat.rsum n (low_integral vol bounds h z) + (fst (loglik h None) + snd (loglik h None)) in
  let w' := Mat.rsum n' (low_integral vol bounds h' z') + (fst (loglik h' None) + snd (loglik h' None)) in
  let u := ora_r o k (DUniform 0 1) in
  let coins := flip_hidden_coins fuel mp maxp vol disc bounds batch in
  let run a b := do r <- sample_twocoin (fun (first : bool) s => if first then do x <- coins (fst s) h'; ret (x, (snd x, snd s)) else do x <- coins (snd s) h; ret (x, (fst s, snd x))) a b pr z maxf (z', z);
                 let '((acc, _, zz), _) := r in ret (acc, zz, if (acc : bool) then h' else h) in
  let section := update_hidden_section fuel mp maxp vol disc bounds loglik batch precoin pr maxf z h z' h' in
  (precoin = true -> barker_ratio w' w <= u -> section o k = (Ok (false, z, h), S k)) /\
  (precoin = true -> u < barker_ratio w' w -> section o k = run 0 0 o (S k)) /\
  (precoin = false -> section o k = run w' w o k).
Proof.
  intros V Hz H1 H2 H3 Hz' H1' H2' H3'. cbv zeta. rewrite hidden_section_old. cbv zeta.
  rewrite (run_bind _ _ _ _ _ _ (hidden_weight_value vol bounds loglik z h n Hz H1 H2 H3 o k)), (run_bind _ _ _ _ _ _ (hidden_weight_value vol bounds loglik z' h' n' Hz' H1' H2' H3' o k)).
  set (w := Mat.rsum n _ + _). set (w' := Mat.rsum n' _ + _). split; [|split]; intros ->; [| |reflexivity]; intros H; erewrite run_bind by (apply (ratio_cases o k w' w V)).
  - apply Rltb_false in H. rewrite H. reflexivity.
  - apply Rltb_true in H. rewrite H. reflexivity.
Qed.
