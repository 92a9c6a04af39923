(** The sampler of ito/mcmc.py: values of the weights, decisions, locality. *)
From Coq Require Import Reals List Bool Arith Lia Lra Sorted.
From Verif Require Import Base Np Rng Mat M_mjp M_bf M_path M_skel M_seed M_models M_sw M_mcem M_ito SpecBf SpecSkel SpecSeed SpecSw SpecEm SpecIto
  L_list L_rng L_prop L_occ L_mat L_bf L_sde3 L_skel L_skel4 L_skel7 L_seed L_seed2 L_seed3 L_sw L_sw4 L_sw11 L_em5 L_em6 L_step L_step3 L_ito.
Import ListNotations.
Local Open Scope R_scope.

(** ** the likelihood *)
Lemma ito_loglik_value reduce dv sx thi t vt : length vt = length t ->
  ito_loglik reduce dv sx thi t vt = Mat.rsum (length t - 1) (ito_term (reduce thi) (dv thi) (sx thi) t vt).
Proof.
  intros H. unfold ito_loglik. cbv zeta. set (xt := map (reduce thi) vt). assert (LX : length xt = length t) by (unfold xt; rewrite map_length; auto).
  rewrite (rsum_map_nth _ (ito_term (reduce thi) (dv thi) (sx thi) t vt)).
  - f_equal. unfold zip3. rewrite !combine_length, !np_diff_length, !tl_length, removelast_len. lia.
  - intros i [[[v d] dx] [x1 x0]] E. unfold zip3 in E. rewrite !nth_error_combine in E.
    destruct (nth_error (tl vt) i) eqn:E1; [|discriminate]. destruct (nth_error (np_diff t) i) eqn:E2; [|discriminate]. destruct (nth_error (np_diff xt) i) eqn:E3; [|discriminate].
    destruct (nth_error (tl xt) i) eqn:E4; [|discriminate]. destruct (nth_error (removelast xt) i) eqn:E5; [|discriminate]. injection E as -> -> -> -> ->.
    assert (Hi : (i < length t - 1)%nat) by (rewrite <- np_diff_length; apply nth_error_Some; congruence).
    apply nth_error_nth with (d := 0) in E1, E2, E3, E4, E5. rewrite nth_tl in E1, E4. rewrite nth_diff in E2, E3 by lia. rewrite nth_rl in E5 by lia.
    assert (X : forall j, (j < length t)%nat -> nth j xt 0 = reduce thi (nth j vt 0)) by (intros; unfold xt; apply nth_map_d; lia).
    rewrite !X in * by lia. unfold ito_term. cbv zeta. subst. unfold Rdiv. ring.
Qed.
Lemma ito_loglik_intervals reduce dv sx thi t vt : length vt = length t ->
  ito_loglik reduce dv sx thi t vt = Mat.rsum (length t - 1) (fun i => ito_loglik reduce dv sx thi [0; nth (S i) t 0 - nth i t 0] [nth i vt 0; nth (S i) vt 0]).
Proof.
  intros H. rewrite ito_loglik_value by auto. apply rsum_ext. intros i Hi. rewrite ito_loglik_value by auto. cbn [length Nat.sub Mat.rsum]. unfold ito_term. cbn [nth].
  replace (nth (S i) t 0 - nth i t 0 - 0) with (nth (S i) t 0 - nth i t 0) by ring. ring.
Qed.
(** ** the weights *)
Section Weights.
Context (reduce : list R -> R -> R) (bounds : list R -> bounds_fun) (thi : list R).
Lemma sde_weight_value z t vt : S (length z) = length t -> length vt = length t ->
  det (eval_sde_weight reduce bounds thi z t vt) (Mat.rsum (length z) (ito_weight (bounds thi) t (map (reduce thi) vt) z)).
Proof.
  intros Hz HV o k. unfold eval_sde_weight.
  set (v := fun p : M_skel.skel * (normop * normop) => match fst (integrate_disc_bound (fst (snd p)) (snd (snd p)) (bounds thi) (fst p) o0 0%nat) with Ok x => x | _ => 0 end).
  assert (X : forall i p, nth_error (combine z (ito_normops reduce t vt thi)) i = Some p -> det (integrate_disc_bound (fst (snd p)) (snd (snd p)) (bounds thi) (fst p)) (ito_weight (bounds thi) t (map (reduce thi) vt) z i)).
  { intros i [s q] E. rewrite nth_error_combine in E. destruct (nth_error z i) eqn:E1; [|discriminate]. destruct (nth_error (ito_normops reduce t vt thi) i) eqn:E2; [|discriminate]. injection E as -> ->.
    destruct (normops_nth _ _ _ _ _ _ E2) as (a & b & v0 & v1 & T1 & T2 & V1 & V2 & ->). cbn [fst snd]. unfold ito_weight. rewrite E1. cbv zeta.
    rewrite (nth_error_nth _ _ 0 T1), (nth_error_nth _ _ 0 T2).
    rewrite (nth_error_nth (map (reduce thi) vt) i 0 (x := reduce thi v0)) by (rewrite nth_error_map, V1; reflexivity). rewrite (nth_error_nth (map (reduce thi) vt) (S i) 0 (x := reduce thi v1)) by (rewrite nth_error_map, V2; reflexivity).
    apply integral_value. apply ito_operators. }
  erewrite run_bind.
  2:{ apply (det_map_m_val _ v). intros p Hp. apply In_nth_error in Hp as [i Hi]. pose proof (X i p Hi) as D. unfold v. rewrite (D o0 0%nat). exact D. }
  unfold ret. do 2 f_equal. rewrite (rsum_map_nth v (ito_weight (bounds thi) t (map (reduce thi) vt) z)).
  - f_equal. rewrite combine_length, normops_length by auto. lia.
  - intros i p E. pose proof (X i p E) as D. unfold v. rewrite (D o0 0%nat). reflexivity.
Qed.
Lemma ito_weight_refined t xt z z' j : Forall2 extends z z' -> ito_weight (bounds thi) t xt z' j = ito_weight (bounds thi) t xt z j.
Proof.
  intros F. unfold ito_weight. cbv zeta. revert j. assert (X : forall i, match nth_error z i, nth_error z' i with Some s, Some s' => extends s s' | None, None => True | _, _ => False end).
  { induction F as [|a b l m H F IH]; intros [|i]; cbn; auto. apply IH. }
  intros j. specialize (X j). destruct (nth_error z j), (nth_error z' j); try tauto. destruct X as (E1 & E2 & _). unfold low_level, low_z, high_z. rewrite E1, E2. reflexivity.
Qed.
Lemma sde_weight_refined z z' t vt : S (length z) = length t -> length vt = length t -> Forall2 extends z z' ->
  forall o k o' k', fst (eval_sde_weight reduce bounds thi z t vt o k) = fst (eval_sde_weight reduce bounds thi z' t vt o' k').
Proof.
  intros Hz HV F o k o' k'. rewrite (sde_weight_value z), (sde_weight_value z'); auto. 2:{ rewrite <- (L_prop.Forall2_length _ _ _ F). auto. }
  cbn [fst]. f_equal. rewrite <- (L_prop.Forall2_length _ _ _ F). apply rsum_ext. intros j _. symmetry. apply ito_weight_refined. auto.
Qed.
Lemma one_weight d v0 v1 s : det (eval_sde_weight reduce bounds thi [s] [0; d] [v0; v1]) (- d * low_level (bounds thi) (sqrt d) (reduce thi v0) (reduce thi v1) s).
Proof.
  intros o k. rewrite sde_weight_value by auto. cbn [length Mat.rsum]. unfold ito_weight. cbn. do 2 f_equal. replace (d - 0) with d by ring. ring.
Qed.
End Weights.
(** ** decisions *)
Section Decisions.
Context (fuel mp maxp : nat) (reduce disc : list R -> R -> R) (bounds : list R -> bounds_fun)
  (grad : list R -> list R -> R -> R -> R -> R -> R -> list R) (log_prior : list R -> R) (loglik : list R -> list R -> list R -> R)
  (batch : nat) (precoin : bool) (pr : R) (maxf : nat).
Lemma ito_params_decision propose thi z t vt o k q lf lb k1 : valid o -> thi <> [] ->
  let i := ora_n o k (DPick (length thi)) in
  propose i o (S k) = (Ok (q, lf, lb), k1) ->
  let thi' := list_set thi i q in
  let u := ora_r o k1 (DUniform 0 1) in
  let run a b := do r <- sample_twocoin_joint (fun up s => do x <- ito_flip_param_coins fuel mp maxp reduce disc grad batch thi thi' s t vt up; ret (x, snd x)) (fun s => ret s) a b pr maxf z;
                 let '((acc, _, z'), _) := r in ret (i, acc, if (acc : bool) then thi' else thi, z') in
  let update := ito_params fuel mp maxp reduce disc grad log_prior loglik batch precoin pr maxf propose thi z t vt in
  (precoin = true -> barker_ratio (log_prior thi' + lb) (log_prior thi + lf) <= u -> update o k = (Ok (i, false, thi, z), S k1)) /\
  (precoin = true -> u < barker_ratio (log_prior thi' + lb) (log_prior thi + lf) -> update o k = run 0 0 o (S k1)) /\
  (precoin = false -> update o k = run (loglik thi' t vt + log_prior thi' + lb) (loglik thi t vt + log_prior thi + lf) o k1).
Proof.
  intros V N. cbv zeta. intros E. unfold ito_params. destruct (Nat.eqb_spec (length thi) 0) as [L|_]; [destruct thi; [congruence|discriminate]|].
  erewrite run_bind by reflexivity. rewrite (run_bind _ _ _ _ _ _ E). cbv beta iota. unfold ito_step. rewrite joint_old. cbv zeta.
  set (w' := _ + lb). split; [|split]; intros ->; [| |reflexivity]; intros H; erewrite run_bind by (apply ratio_cases; auto).
  - apply Rltb_false in H. rewrite H. reflexivity.
  - apply Rltb_true in H. rewrite H. reflexivity.
Qed.
Lemma bridge_decision i thi zn zp t vt a b v0 v1 : nth_error t i = Some a -> nth_error t (S i) = Some b -> nth_error vt i = Some v0 -> nth_error vt (S i) = Some v1 ->
  let w s := - (b - a) * low_level (bounds thi) (sqrt (b - a)) (reduce thi v0) (reduce thi v1) s in
  let coin s := do r <- flip_sde_coins fuel mp maxp reduce disc bounds batch thi [s] [0; b - a] [v0; v1]; do q <- only (snd r); ret (fst r, q) in
  forall o k, update_sde_bridge fuel mp maxp reduce disc bounds batch pr maxf i thi zn zp t vt o k =
    (do r <- sample_twocoin (fun (first : bool) s => if first then do x <- coin (fst s); ret (x, (snd x, snd s)) else do x <- coin (snd s); ret (x, (fst s, snd x))) (w zp) (w zn) pr zn maxf (zp, zn);
     ret (snd (fst r))) o k.
Proof.
  intros T1 T2 V1 V2. cbv zeta. intros o k. unfold update_sde_bridge. rewrite (sub_t_two _ _ _ _ T1 T2), (sub_v_two _ _ _ _ V1 V2).
  erewrite run_bind by reflexivity. rewrite (run_bind _ _ _ _ _ _ (one_weight reduce bounds thi (b - a) v0 v1 zn o k)), (run_bind _ _ _ _ _ _ (one_weight reduce bounds thi (b - a) v0 v1 zp o k)).
  match goal with |- bind (sample_twocoin ?f _ _ _ _ _ _) _ o k = bind (sample_twocoin ?g _ _ _ _ _ _) _ o k => replace g with f; [reflexivity|] end.
  apply FunctionalExtensionality.functional_extensionality. intros first. apply FunctionalExtensionality.functional_extensionality. intros s.
  destruct first; rewrite bind_assoc; apply bind_ext; intros r; rewrite bind_assoc; apply bind_ext; intros q; reflexivity.
Qed.
Lemma bridge_local i thi zn zp t vt j t' vt' a b a' b' v0 v1 : nth_error t i = Some a -> nth_error t (S i) = Some b -> nth_error vt i = Some v0 -> nth_error vt (S i) = Some v1 ->
  nth_error t' j = Some a' -> nth_error t' (S j) = Some b' -> nth_error vt' j = Some v0 -> nth_error vt' (S j) = Some v1 -> b' - a' = b - a ->
  forall o k, update_sde_bridge fuel mp maxp reduce disc bounds batch pr maxf i thi zn zp t vt o k = update_sde_bridge fuel mp maxp reduce disc bounds batch pr maxf j thi zn zp t' vt' o k.
Proof.
  intros T1 T2 V1 V2 T1' T2' V1' V2' E o k. unfold update_sde_bridge. rewrite (sub_t_two _ _ _ _ T1 T2), (sub_v_two _ _ _ _ V1 V2), (sub_t_two _ _ _ _ T1' T2'), (sub_v_two _ _ _ _ V1' V2'), E. reflexivity.
Qed.
End Decisions.
(** ** paths *)
Lemma forward_path fuel mp maxp n reduce dereduce disc bounds lb ub endpoint t T v fin (P : R -> Prop) : 0 < T -> (0 < maxp)%nat -> StronglySorted Rlt t ->
  dereduce (reduce v) = v -> (forall w, fin = Some w -> dereduce (reduce w) = w) ->
  (match fin with Some w => P (reduce w) | None => returns_if generic endpoint P end) ->
  (forall b, P b -> elt lb (Fin (Rmin (reduce v) b)) /\ elt (Fin (Rmax (reduce v) b)) ub) ->
  returns_if generic (sample_sde fuel mp maxp n reduce dereduce disc bounds lb ub endpoint t T v fin)
    (Forall2 (fun u w => 0 <= u <= T /\ (u = 0 -> w = v) /\ (u = T -> match fin with Some f => w = f | None => exists x, P x /\ w = dereduce x end)) t).
Proof.
  intros HT Hm SS D1 D2 HP HB. unfold sample_sde.
  eapply returns_bind with (Q := fun s => well_formed s /\ exists b, (match fin with Some w => b = reduce w | None => P b end) /\ ends T (reduce v) b s).
  { apply sampler_returns; auto.
    - intros b Hb. apply HB. destruct fin; subst; auto.
    - destruct fin as [w|]; auto. apply returns_ret. reflexivity. }
  intros s (W & b & Hb & E1 & E2 & E3). eapply returns_bind with (Q := interpolated s t).
  { intros o k V G. apply (interpolate_returns fuel mp maxp s t W SS o k V). exact Logic.I. }
  intros r (W' & EX & _ & F & IN & _). apply returns_ret.
  destruct EX as (_ & _ & _ & X1 & X2 & X3 & _).
  assert (Z0 : at_time (fst r) 0 (reduce v)).
  { unfold at_time, stores. destruct W' as [L _ Z TW _ _ _]. destruct (k_t (fst r)) as [|t0 tt]; [simpl in TW; lia|]. destruct (k_x (fst r)) as [|x0 xx] eqn:EX; [simpl in L; lia|]. simpl in Z. subst t0. left. f_equal. rewrite <- E2, <- X2. reflexivity. }
  assert (ZT : at_time (fst r) T b).
  { unfold at_time, stores. rewrite <- E1, <- E3, <- X1, <- X3. unfold horizon. destruct W' as [L _ _ TW _ _ _]. revert L TW. generalize (k_t (fst r)), (k_x (fst r)). clear. intros l m L TW.
    revert m L; induction l as [|a l IH]; intros [|c m] L; simpl in L, TW; try lia. destruct l as [|a' l]; [simpl in TW; lia|]. destruct m as [|c' m]; [simpl in L; lia|].
    right. destruct l as [|a'' l]. { destruct m; [|simpl in L; lia]. left. reflexivity. } apply (IH ltac:(simpl; lia) (c' :: m)). simpl in *. lia. }
  revert IN F. generalize (snd r) as vs. clear SS. induction t as [|u t IH]; intros vs IN F; inversion F; subst; constructor; [|apply IH; auto; intros; apply IN; now right].
  split; [pose proof (IN u (or_introl eq_refl)); lra|]. split; intros ->.
  - rewrite (value_unique _ _ _ _ W' H1 Z0). auto.
  - pose proof (value_unique _ _ _ _ W' H1 ZT) as X. destruct fin as [f|]; [rewrite X, Hb; apply D2; auto|eexists; split; [exact Hb|congruence]].
Qed.
