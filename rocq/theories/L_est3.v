(** est_se and infinite bounds in est_aug_lik. *)
From Coq Require Import Reals List Bool Arith ZArith Lra Lia Psatz.
From Verif Require Import Base Np Rng L_rng L_prop L_list Mat L_mat M_mjp M_hit M_path SpecPath L_sde M_skel M_seed SpecSeed L_seed L_seed3 M_models M_inf M_sw M_adapt M_mcem SpecEm L_em3 M_est SpecEst L_gauss3 L_est L_est2.
Import ListNotations.
Local Open Scope R_scope.

(** ** infinite bounds *)
Lemma est_infinite : forall fuel mp mx norm denorm T scale x0 x1 s disc bounds inf le, operators norm denorm T scale x0 x1 ->
  bounds (low_z s * scale + Rmin x0 x1) (high_z s * scale + Rmax x0 x1) = (inf, le, PosInf) -> forall o k, exists st, seed_est_coin fuel mp mx norm denorm s disc bounds o k = (Ok (None, st, s), k).
Proof.
  intros fuel mp mx norm denorm T scale x0 x1 s disc bounds inf le OP B o k. unfold seed_est_coin. unfold bind at 1. rewrite (disc_path_one _ _ _ _ _ _ OP _ _ _ _ _ o k B).
  cbn [gaps all_some combine map fst snd]. eexists. reflexivity.
Qed.
Lemma map_m_at : forall A B (m : A -> M B) (P : B -> Prop) l i a, nth_error l i = Some a -> (forall o k, match fst (m a o k) with Ok b => P b | _ => True end) ->
  forall o k, match fst (map_m m l o k) with Ok bs => exists b, nth_error bs i = Some b /\ P b | _ => True end.
Proof.
  intros A B m P l. induction l as [|a l IH]; intros i a0 Hi HP o k; [destruct i; discriminate|]. cbn [map_m]. unfold bind at 1.
  destruct i as [|i]; cbn [nth_error] in Hi.
  - injection Hi as ->. specialize (HP o k). destruct (m a0 o k) as [[b|e|] k1]; cbn in *; auto. unfold bind. destruct (map_m m l o k1) as [[bs|e|] k2]; cbn; auto. exists b. auto.
  - destruct (m a o k) as [[b|e|] k1]; cbn; auto. specialize (IH i a0 Hi HP o k1). unfold bind. destruct (map_m m l o k1) as [[bs|e|] k2]; cbn in *; auto.
Qed.
Lemma osum_none : forall l i, nth_error l i = Some None -> osum l = None.
Proof.
  intros l i H. unfold osum. assert (E : all_some l = None); [|rewrite E; reflexivity]. revert i H. induction l as [|a l IH]; intros i H; [destruct i; discriminate|].
  destruct i as [|i]; cbn in H; [injection H as ->; reflexivity|]. cbn [all_some]. destruct a; [|reflexivity]. rewrite (IH i H). reflexivity.
Qed.
Lemma ito_infinite : forall fuel mp mx reduce disc bounds log_lik t vt thi z s0 i inf le,
  (i < length z)%nat -> (S i < length t)%nat -> (S i < length vt)%nat ->
  (let dt := nth (S i) t 0 - nth i t 0 in let x0 := reduce thi (nth i vt 0) in let x1 := reduce thi (nth (S i) vt 0) in
   bounds thi (low_z (nth i z s0) * sqrt dt + Rmin x0 x1) (high_z (nth i z s0) * sqrt dt + Rmax x0 x1) = (inf, le, PosInf)) ->
  returns (ito_est_aug_lik fuel mp mx reduce disc bounds log_lik t vt thi z) (fun r => fst r = None).
Proof.
  intros fuel mp mx reduce disc bounds log_lik t vt thi z s0 i inf le Hz Ht Hv HB. cbv zeta in HB.
  intros o k _. unfold ito_est_aug_lik, ito_aug_with. unfold bind at 1.
  assert (NE : nth_error (combine z (ito_normops reduce t vt thi)) i = Some (nth i z s0,
     (let dt := nth (S i) t 0 - nth i t 0 in (ito_norm dt (reduce thi (nth i vt 0)) (reduce thi (nth (S i) vt 0)), ito_denorm dt (reduce thi (nth i vt 0)) (reduce thi (nth (S i) vt 0)))))).
  { assert (LN : (i < length (combine z (ito_normops reduce t vt thi)))%nat).
    { rewrite combine_length. unfold ito_normops. rewrite map_length, zip3_length, L_occ.np_diff_length. destruct vt as [|v vt]; cbn [length map tl] in *; [lia|]. rewrite map_length. lia. }
    destruct (nth_error (combine z (ito_normops reduce t vt thi)) i) as [[z_ nm]|] eqn:E; [|apply nth_error_None in E; lia].
    apply combine_at in E as [H1 H2]. unfold ito_normops in H2. rewrite nth_error_map in H2. destruct (nth_error (zip3 _ _ _) i) as [[[dt x0] x1]|] eqn:E; [|discriminate]. cbn in H2. injection H2 as <-.
    apply rows_zip3 in E as (D & X0 & X1). apply diff_nth in D as [-> _]. rewrite tl_at in X1.
    rewrite nth_error_map in X0, X1. destruct (nth_error vt i) as [a|] eqn:A; [|discriminate]. destruct (nth_error vt (S i)) as [b|] eqn:B; [|discriminate].
    cbn in X0, X1. injection X0 as <-. injection X1 as <-. rewrite (nth_of _ _ _ _ s0 H1), (nth_of _ _ _ _ 0 A), (nth_of _ _ _ _ 0 B). reflexivity. }
  match goal with |- context [map_m ?f _ o k] => pose proof (map_m_at _ _ f (fun r => fst (fst r) = None) _ i _ NE) as MA end.
  assert (HP : forall o k, match fst (seed_est_coin fuel mp mx (ito_norm (nth (S i) t 0 - nth i t 0) (reduce thi (nth i vt 0)) (reduce thi (nth (S i) vt 0)))
      (ito_denorm (nth (S i) t 0 - nth i t 0) (reduce thi (nth i vt 0)) (reduce thi (nth (S i) vt 0))) (nth i z s0) (disc thi) (bounds thi) o k) with Ok b => fst (fst b) = None | _ => True end).
  { intros o' k'. destruct (est_infinite fuel mp mx _ _ _ _ _ _ (nth i z s0) (disc thi) (bounds thi) inf le (ito_operators _ _ _) HB o' k') as (st & ->). reflexivity. }
  specialize (MA HP o k). destruct (map_m _ _ o k) as [[rs|e|] k1]; cbn [fst] in *; auto. destruct MA as (b & Nb & Eb).
  destruct rs as [|r0 rs]; [exact Logic.I|]. cbn [ret fst].
  rewrite (osum_none _ i); [reflexivity|]. rewrite nth_error_map, Nb. cbn. rewrite Eb. reflexivity.
Qed.
Lemma sw_infinite : forall fuel mp mx vol disc bounds loglik thi z h restrict s0 i inf le,
  (i < length z)%nat -> (S i < length (a_t h))%nat -> (S i < length (a_v h))%nat -> (S i < length (a_y h))%nat -> selected restrict (nth i (a_y h) 0%nat) = true ->
  (let dt := nth (S i) (a_t h) 0 - nth i (a_t h) 0 in let y := nth i (a_y h) 0%nat in let x0 := nth i (a_v h) 0 in let x1 := nth (S i) (a_v h) 0 in
   bounds thi y (low_z (nth i z s0) * (sqrt dt * vol thi y) + Rmin x0 x1) (high_z (nth i z s0) * (sqrt dt * vol thi y) + Rmax x0 x1) = (inf, le, PosInf)) ->
  returns (sw_est_aug_lik fuel mp mx vol disc bounds loglik thi z h restrict) (fun r => fst r = None).
Proof.
  intros fuel mp mx vol disc bounds loglik thi z h restrict s0 i inf le Hz Ht Hv Hy SEL HB. cbv zeta in HB.
  intros o k _. unfold sw_est_aug_lik, sw_aug_with. unfold bind at 1.
  set (dt := nth (S i) (a_t h) 0 - nth i (a_t h) 0) in *. set (y := nth i (a_y h) 0%nat) in *. set (x0 := nth i (a_v h) 0) in *. set (x1 := nth (S i) (a_v h) 0) in *.
  assert (NE : nth_error (zip3 z (a_y h) (sw_normops (vol thi) h)) i = Some (nth i z s0, y, (sw_norm (vol thi y) dt x0 x1, sw_denorm (vol thi y) dt x0 x1))).
  { assert (LN : (i < length (zip3 z (a_y h) (sw_normops (vol thi) h)))%nat).
    { rewrite zip3_length. unfold sw_normops, zip4. rewrite map_length, !combine_length, L_occ.np_diff_length. assert (length (tl (a_v h)) = length (a_v h) - 1)%nat by (destruct (a_v h); cbn; lia).
      assert (length (removelast (a_y h)) = length (a_y h) - 1)%nat. { rewrite removelast_firstn_len, firstn_length. lia. } lia. }
    destruct (nth_error (zip3 z (a_y h) (sw_normops (vol thi) h)) i) as [[[z_ y0] nm]|] eqn:E; [|apply nth_error_None in E; lia].
    apply rows_zip3 in E as (H1 & HY & H2).
    unfold sw_normops in H2. rewrite nth_error_map in H2. destruct (nth_error (zip4 _ _ _ _) i) as [[[[dt' y1] x0'] x1']|] eqn:E; [|discriminate]. cbn in H2. injection H2 as <-.
    unfold zip4 in E. apply combine_at in E as [E X1]. apply combine_at in E as [E X0]. apply combine_at in E as [D Y1].
    apply diff_nth in D as [-> _]. rewrite tl_at in X1. apply rm_at in Y1. assert (y1 = y0) as -> by congruence.
    unfold y, x0, x1, dt. rewrite (nth_of _ _ _ _ s0 H1), (nth_of _ _ _ _ 0%nat HY), (nth_of _ _ _ _ 0 X0), (nth_of _ _ _ _ 0 X1). reflexivity. }
  match goal with |- context [map_m ?f _ o k] => pose proof (map_m_at _ _ f (fun r => fst (fst r) = None) _ i _ NE) as MA end.
  assert (HP : forall o k, match fst (seed_est_coin fuel mp mx (sw_norm (vol thi y) dt x0 x1) (sw_denorm (vol thi y) dt x0 x1) (nth i z s0) (disc thi y) (bounds thi y) o k) with Ok b => fst (fst b) = None | _ => True end).
  { intros o' k'. destruct (est_infinite fuel mp mx _ _ _ _ _ _ (nth i z s0) (disc thi y) (bounds thi y) inf le (sw_operators _ _ _ _) HB o' k') as (st & ->). reflexivity. }
  cbv beta iota in MA. rewrite SEL in MA. specialize (MA HP o k). destruct (map_m _ _ o k) as [[rs|e|] k1]; cbn [fst] in *; auto. destruct MA as (b & Nb & Eb).
  destruct rs as [|r0 rs]; [exact Logic.I|]. cbn [ret fst].
  rewrite (osum_none _ i); [reflexivity|]. rewrite nth_error_map, Nb. cbn. rewrite Eb. reflexivity.
Qed.

(** ** est_se *)
Lemma finite_map : forall v, finite (map Fin v) = Ok v.
Proof.
  intros v. unfold finite. assert (E : forallb is_fin (map Fin v) = true) by (induction v; cbn; auto). rewrite E. f_equal. rewrite map_map. rewrite <- (map_id v) at 2. reflexivity.
Qed.
Lemma wrap_run : forall A lb ub (f : list R -> M A) x, Forall2 interval lb ub -> length x = length lb ->
  exists y, in_box lb ub y /\ (in_box lb ub x -> y = x) /\ forall o k, wrap lb ub f x o k = f y o k.
Proof.
  intros A lb ub f x F L. destruct (clip_ok lb ub x F L) as (v & E1 & E2 & _ & E4). exists v. split; [exact E2|]. split; [exact E4|].
  intros o k. unfold wrap. rewrite E1, finite_map. reflexivity.
Qed.
Lemma min_zero : forall r d, ele (Fin 0) d -> Forall (ele (Fin 0)) r ->
  is_zero (fold_left (fun a b => if eltb b a then b else a) r d) = true <-> Exists (fun e => is_zero e = true) (d :: r).
Proof.
  induction r as [|b r IH]; intros d Hd F; cbn [fold_left].
  - split; [intros H; constructor; exact H|]. intros H. inversion H; subst; auto. inversion H1.
  - inversion F; subst. rewrite IH; [|destruct (eltb b d); assumption|assumption].
    assert (Z : is_zero (if eltb b d then b else d) = true <-> is_zero d = true \/ is_zero b = true).
    { destruct (eltb b d) eqn:E.
      - apply eltb_true in E. split; [auto|]. intros [Q|Q]; [|exact Q]. destruct d as [|x|]; try discriminate Q. cbn in Q. apply Reqb_true in Q. subst x. destruct b as [|x|]; cbn in *; try tauto; try lra.
      - split; [auto|]. intros [Q|Q]; [exact Q|]. destruct b as [|x|]; try discriminate Q. cbn in Q. apply Reqb_true in Q. subst x.
        destruct d as [|x|]; cbn in *; try tauto; try discriminate. apply Rltb_false in E. apply Reqb_true. lra. }
    rewrite !Exists_cons, Z. tauto.
Qed.
Lemma edist_zero : forall x e, is_zero (edist x e) = true <-> e = Fin x.
Proof.
  intros x [|y|]; cbn; split; intros H; try discriminate.
  - apply Reqb_true in H. f_equal. destruct (Req_dec (x - y) 0) as [Q|Q]; [lra|]. exfalso. apply Rabs_no_R0 in Q. exact (Q H).
  - injection H as ->. apply Reqb_true. rewrite Rminus_diag_eq by reflexivity. apply Rabs_R0.
Qed.
Lemma distance_zero : forall lb ub thi, thi <> [] -> length lb = length thi -> length ub = length thi ->
  exists d, distance lb ub thi = Ok d /\ (is_zero d = true <-> touches lb ub thi).
Proof.
  intros lb ub thi NE L1 L2. unfold distance. set (l := combine thi lb ++ combine thi ub).
  assert (NL : l <> []) by (unfold l; destruct thi, lb; cbn in *; try congruence; discriminate).
  destruct l as [|p l'] eqn:EL; [congruence|]. cbn [map]. eexists. split; [reflexivity|].
  assert (PO : forall x e, ele (Fin 0) (edist x e)). { intros x [|y|]; cbn; auto. apply Rabs_pos. }
  rewrite min_zero; [|apply PO|apply Forall_map, Forall_forall; intros; apply PO].
  change (edist (fst p) (snd p) :: map (fun p => edist (fst p) (snd p)) l') with (map (fun p => edist (fst p) (snd p)) (p :: l')). rewrite <- EL. unfold l. clear EL NL l p l'.
  rewrite Exists_map, Exists_exists. split.
  - intros ([x e] & HI & HZ). cbn in HZ. apply edist_zero in HZ. subst e. apply in_app_or in HI as [HI|HI]; apply In_nth_error in HI as (i & Hi); apply combine_at in Hi as [A B]; exists i, x; auto.
  - intros (i & x & A & [B|B]); exists (x, Fin x); (split; [|apply edist_zero; reflexivity]); apply in_or_app; [left|right];
    apply nth_error_In with (n := i); clear - A B; revert B; [generalize lb|generalize ub]; revert i A; induction thi as [|t thi IH]; intros [|i] A [|e m] B; cbn in *; try discriminate; try congruence; apply IH; assumption.
Qed.
Section SeFacts.
Context (hess : (list R -> M R) -> list R -> M (list (list R))) (grad : (list R -> M (list R)) -> list R -> M (list (list R))) (inv : list (list R) -> res (list (list R))).
Lemma se_touch : forall lb ub f thi, thi <> [] -> length lb = length thi -> length ub = length thi -> touches lb ub thi -> forall o k, se_of hess grad inv lb ub f thi o k = (Ok None, k).
Proof.
  intros lb ub f thi NE L1 L2 T o k. destruct (distance_zero lb ub thi NE L1 L2) as (d & E & Z). unfold se_of, box_ok. rewrite L1, L2, Nat.eqb_refl. cbn [andb negb]. rewrite E, b_lift, (proj2 Z T). reflexivity.
Qed.
Lemma diag_pos_at : forall A, diag_pos A = true -> forall i row, nth_error A i = Some row -> 0 < nth i row 0.
Proof.
  intros A H i row Hi. unfold diag_pos in H. rewrite forallb_forall in H.
  assert (I : In (i, row) (combine (seq 0 (length A)) A)).
  { apply nth_error_In with (n := i). assert (G : forall s, nth_error (combine (seq s (length A)) A) i = Some ((s + i)%nat, row)); [|apply (G 0%nat)].
    clear H. revert i Hi. induction A as [|a A IH]; intros [|i] Hi s; cbn in *; try discriminate; [rewrite Nat.add_0_r; congruence|]. rewrite IH by exact Hi. do 2 f_equal. lia. }
  specialize (H _ I). cbn in H. apply Rltb_true in H. exact H.
Qed.
Lemma se_positive : forall lb ub f thi, thi <> [] -> length lb = length thi -> length ub = length thi ->
  returns (se_of hess grad inv lb ub f thi) (fun r => match r with Some se => ~ touches lb ub thi /\ forall i row, nth_error se i = Some row -> 0 < nth i row 0 | None => True end).
Proof.
  intros lb ub f thi NE L1 L2 o k _. destruct (distance_zero lb ub thi NE L1 L2) as (d & E & Z). unfold se_of, box_ok. rewrite L1, L2, Nat.eqb_refl. cbn [andb negb]. rewrite E, b_lift.
  destruct (is_zero d) eqn:ZD; [exact Logic.I|]. unfold bind at 1. destruct (hess _ thi o k) as [[H|e|] k1]; cbn; auto. unfold bind at 1. destruct (grad _ thi o k1) as [[G|e|] k2]; cbn; auto.
  unfold bind, lift. destruct (inv _) as [se|e|]; cbn; auto. destruct (diag_pos se) eqn:D; cbn; auto. split; [intros T; apply Z in T; discriminate|]. apply diag_pos_at. exact D.
Qed.
Lemma se_box : forall lb ub f g thi, Forall2 interval lb ub -> length thi = length lb ->
  (forall x o k, in_box lb ub x -> f x o k = g x o k) ->
  (forall f g, (forall x o k, length x = length thi -> f x o k = g x o k) -> forall o k, hess f thi o k = hess g thi o k) ->
  (forall f g, (forall x o k, length x = length thi -> f x o k = g x o k) -> forall o k, grad f thi o k = grad g thi o k) ->
  forall o k, se_of hess grad inv lb ub f thi o k = se_of hess grad inv lb ub g thi o k.
Proof.
  intros lb ub f g thi F L AG HH HG o k. assert (W : forall x o k, length x = length thi -> wrap lb ub f x o k = wrap lb ub g x o k).
  { intros x o' k' Lx. destruct (wrap_run _ lb ub f x F ltac:(lia)) as (y & Y1 & _ & Y3). destruct (clip_ok lb ub x F ltac:(lia)) as (v & E1 & E2 & _).
    unfold wrap. rewrite E1, finite_map, !b_lift. apply AG. exact E2. }
  unfold se_of. destruct (negb (box_ok lb ub thi)); [reflexivity|]. unfold bind at 1. symmetry. unfold bind at 1. symmetry. destruct (lift (distance lb ub thi) o k) as [[d|e|] k1]; try reflexivity.
  destruct (is_zero d); [reflexivity|]. unfold bind at 1. symmetry. unfold bind at 1. symmetry.
  rewrite (HH (fun x => do v <- wrap lb ub f x; ret (- np_mean v)) (fun x => do v <- wrap lb ub g x; ret (- np_mean v))).
  2:{ intros x o' k' Lx. unfold bind. rewrite W by exact Lx. reflexivity. }
  destruct (hess _ thi o k1) as [[H|e|] k2]; try reflexivity. unfold bind at 1. symmetry. unfold bind at 1. symmetry. rewrite (HG (wrap lb ub f) (wrap lb ub g) W). reflexivity.
Qed.
End SeFacts.
Lemma lsum_scal : forall A (f : A -> R) c l, M_models.rsum (map (fun r => c * f r) l) = c * M_models.rsum (map f l).
Proof. intros A f c l. induction l as [|a l IH]; [unfold M_models.rsum; cbn; ring|]. unfold M_models.rsum in *. cbn [map fold_right]. rewrite IH. ring. Qed.
Lemma lsum_mat : forall A (f : nat -> A -> R) n l, Mat.rsum n (fun i => M_models.rsum (map (f i) l)) = M_models.rsum (map (fun r => Mat.rsum n (fun i => f i r)) l).
Proof.
  intros A f n l. induction n as [|n IH]; cbn [Mat.rsum]; [induction l; unfold M_models.rsum in *; cbn in *; lra|]. rewrite IH. clear IH.
  induction l as [|a l IH]; [unfold M_models.rsum; cbn; ring|]. unfold M_models.rsum in *. cbn [map fold_right] in *. rewrite <- IH. ring.
Qed.
Lemma lsum_nonneg : forall A (f : A -> R) l, (forall a, 0 <= f a) -> 0 <= M_models.rsum (map f l).
Proof. intros A f l H. induction l as [|a l IH]; unfold M_models.rsum in *; cbn in *; [lra|]. specialize (H a). lra. Qed.
Lemma cov_entry : forall d g i j, (i < d)%nat -> (j < d)%nat -> SpecPath.entry (np_cov d g) i j =
  M_models.rsum (map (fun r => (nth i r 0 - np_mean (map (fun r => nth i r 0) g)) * (nth j r 0 - np_mean (map (fun r => nth j r 0) g))) g) / (INR (length g) - 1).
Proof.
  intros d g i j Hi Hj. unfold SpecPath.entry, np_cov. rewrite L_gauss3.nth_map_seq by exact Hi. rewrite L_gauss3.nth_map_seq by exact Hj. reflexivity.
Qed.
Lemma cov_psd : forall d g (x : nat -> R), (2 <= length g)%nat ->
  (forall i j, (i < d)%nat -> (j < d)%nat -> SpecPath.entry (np_cov d g) i j = SpecPath.entry (np_cov d g) j i) /\
  0 <= Mat.rsum d (fun i => Mat.rsum d (fun j => x i * x j * SpecPath.entry (np_cov d g) i j)).
Proof.
  intros d g x L. split.
  - intros i j Hi Hj. rewrite !cov_entry by auto. f_equal. f_equal. apply map_ext. intros r. ring.
  - set (c := fun (i : nat) (r : list R) => nth i r 0 - np_mean (map (fun r => nth i r 0) g)).
    assert (P : 0 < / (INR (length g) - 1)). { apply Rinv_0_lt_compat. apply le_INR in L. cbn in L. lra. }
    replace (Mat.rsum d (fun i => Mat.rsum d (fun j => x i * x j * SpecPath.entry (np_cov d g) i j)))
      with (/ (INR (length g) - 1) * M_models.rsum (map (fun r => (Mat.rsum d (fun i => x i * c i r)) * (Mat.rsum d (fun i => x i * c i r))) g)).
    + apply Rmult_le_pos; [lra|]. apply lsum_nonneg. intros r. set (s := Mat.rsum _ _). nra.
    + rewrite <- lsum_scal. rewrite (L_mat.rsum_ext d _ (fun i => M_models.rsum (map (fun r => Mat.rsum d (fun j => / (INR (length g) - 1) * (x i * c i r * (x j * c j r)))) g))).
      * rewrite lsum_mat. f_equal. apply map_ext. intros r.  
        rewrite (L_mat.rsum_ext d (fun i => Mat.rsum d _) (fun i => / (INR (length g) - 1) * ((x i * c i r) * Mat.rsum d (fun j => x j * c j r)))).
        -- rewrite L_mat.rsum_scal_l, L_mat.rsum_scal_r. reflexivity.
        -- intros i Hi. rewrite !L_mat.rsum_scal_l. reflexivity.
      * intros i Hi. rewrite <- lsum_mat. apply L_mat.rsum_ext. intros j Hj. rewrite cov_entry by auto.
        rewrite lsum_scal. rewrite (map_ext (fun r => x i * c i r * (x j * c j r)) (fun r => (x i * x j) * (c i r * c j r))) by (intros; ring). rewrite lsum_scal. unfold c. unfold Rdiv. ring.
Qed.
Lemma wrap_one : forall l u c y, l < u -> forall o k, wrap [Fin l] [Fin u] (fun x => ret (c * nth 0 x 0)) [y] o k = (Ok (c * Rmax (Rmin y u) l), k).
Proof.
  intros l u c y LU o k. unfold wrap, clip. cbn [combine map fst snd].
  assert (E : emax (emin y (Fin u)) (Fin l) = Fin (Rmax (Rmin y u) l)).
  { unfold emin. cbn [eleb]. destruct (Rleb y u) eqn:E1; [apply Rleb_true in E1; rewrite (Rmin_left y u) by lra|apply Rleb_false in E1; rewrite (Rmin_right y u) by lra]; unfold emax; cbn [eleb].
    - destruct (Rleb l y) eqn:E2; [apply Rleb_true in E2; rewrite Rmax_left by lra|apply Rleb_false in E2; rewrite Rmax_right by lra]; reflexivity.
    - rewrite (proj2 (Rleb_true l u)) by lra. rewrite Rmax_left by lra. reflexivity. }
  rewrite E. reflexivity.
Qed.
Lemma step_slope : forall l u x h c, l < x < u -> 0 < h -> c <> 0 -> exists a b,
  (forall o k, wrap [Fin l] [Fin u] (fun y => ret (c * nth 0 y 0)) [x + h] o k = (Ok a, k)) /\
  (forall o k, wrap [Fin l] [Fin u] (fun y => ret (c * nth 0 y 0)) [x - h] o k = (Ok b, k)) /\
  ((a - b) / (2 * h) = c <-> h <= x - l /\ h <= u - x).
Proof.
  intros l u x h c [H1 H2] Hh Hc. do 2 eexists. split; [intros; apply wrap_one; lra|]. split; [intros; apply wrap_one; lra|].
  set (p := Rmax (Rmin (x + h) u) l). set (q := Rmax (Rmin (x - h) u) l).
  assert (P : p = Rmin (x + h) u) by (unfold p; apply Rmax_left; unfold Rmin; destruct (Rle_dec (x + h) u); lra).
  assert (Q : q = Rmax (x - h) l) by (unfold q; f_equal; apply Rmin_left; lra).
  assert (P' : p <= x + h /\ (p = x + h <-> h <= u - x)) by (rewrite P; unfold Rmin; destruct (Rle_dec (x + h) u); split; try split; intros; lra).
  assert (Q' : x - h <= q /\ (q = x - h <-> h <= x - l)) by (rewrite Q; unfold Rmax; destruct (Rle_dec (x - h) l); split; try split; intros; lra).
  clear P Q. clearbody p q. destruct P' as [P1 P2], Q' as [Q1 Q2].
  assert (E : (c * p - c * q) / (2 * h) = c <-> p - q = 2 * h).
  { split; intros E.
    - apply (Rmult_eq_reg_l c); [|exact Hc]. rewrite <- E at 2. field. lra.
    - replace (c * p - c * q) with (c * (p - q)) by ring. rewrite E. field. lra. }
  rewrite E. rewrite <- P2, <- Q2. lra.
Qed.
Lemma unbounded : forall n b, buffer_bounds None None n b = Ok (repeat NegInf n, repeat PosInf n).
Proof.
  intros n b. unfold buffer_bounds. assert (D : length (map (margin b) (combine (repeat NegInf n) (repeat PosInf n))) = n) by (rewrite map_length, combine_length, !repeat_length; lia).
  set (d := map (margin b) _) in *. clearbody d.
  assert (G : forall e (d : list R), length d = n -> (forall y, eplus e y = e) -> badd (repeat e n) d = Ok (repeat e n)).
  { clear. intros e d L E. unfold badd. rewrite repeat_length, L, Nat.eqb_refl. f_equal. rewrite <- L. clear L. induction d; cbn; [reflexivity|]. rewrite E. f_equal. exact IHd. }
  rewrite (G NegInf d D) by reflexivity. cbn [rbind]. rewrite (G PosInf (map Ropp d)); [reflexivity| |reflexivity]. rewrite map_length. exact D.
Qed.
Lemma sw_se_regimes : forall hess grad inv fuel mp mx vol disc loglik log_prior buffer n_supports omes thi zz hh row o k,
  nth_error thi 0 = Some row -> length row <> length thi ->
  forall r, fst (sw_est_se hess grad inv fuel mp mx vol disc loglik log_prior None None buffer n_supports omes thi zz hh o k) <> Ok r.
Proof.
  intros hess grad inv fuel mp mx vol disc loglik log_prior buffer n_supports omes thi zz hh row o k H0 NE r. unfold sw_est_se. rewrite unbounded, b_lift. cbn [fst snd].
  unfold bind at 1. destruct (sw_update_objective _ _ _ _ _ _ _ _ _ _ _ _ o k) as [[f|e|] k1]; cbn [fst]; try discriminate.
  destruct thi as [|r0 thi]; [discriminate|]. cbn in H0. injection H0 as ->. set (n := length (row :: thi)) in *.
  change (combine (seq 0 n) (row :: thi)) with ((0%nat, row) :: combine (seq 1 (length thi)) thi). cbn [map_m fst snd]. unfold bind at 1. unfold se_of at 1. unfold box_ok. rewrite !repeat_length.
  destruct (Nat.eqb_spec n (length row)) as [E|_]; [congruence|]. cbn. discriminate.
Qed.
Lemma sw_se_positive : forall hess grad inv fuel mp mx vol disc loglik log_prior lb ub buffer n_supports omes thi zz hh,
  returns (sw_est_se hess grad inv fuel mp mx vol disc loglik log_prior lb ub buffer n_supports omes thi zz hh)
    (fun rs => length rs = length thi /\ Forall (fun r => match r with Some se => forall i row, nth_error se i = Some row -> 0 < nth i row 0 | None => True end) rs).
Proof.
  intros hess grad inv fuel mp mx vol disc loglik log_prior lb ub buffer n_supports omes thi zz hh o k V. unfold sw_est_se. unfold bind at 1, lift. destruct (buffer_bounds _ _ _ _) as [b|e|]; cbn; auto.
  unfold bind at 1. destruct (sw_update_objective _ _ _ _ _ _ _ _ _ _ _ _ o k) as [[f|e|] k1]; cbn [fst]; auto.
  assert (G : forall A (m : A -> M (option (list (list R)))) (P : option (list (list R)) -> Prop) l, (forall a o k, match fst (m a o k) with Ok b => P b | _ => True end) ->
    forall o k, match fst (map_m m l o k) with Ok bs => length bs = length l /\ Forall P bs | _ => True end).
  { clear. intros A m P l HP. induction l as [|a l IH]; intros o k; [split; [reflexivity|constructor]|]. cbn [map_m]. unfold bind at 1. specialize (HP a o k). destruct (m a o k) as [[b|e|] k1]; cbn in *; auto.
    unfold bind. specialize (IH o k1). destruct (map_m m l o k1) as [[bs|e|] k2]; cbn in *; auto. destruct IH as [L F]. split; [congruence|constructor; assumption]. }
  match goal with |- context [map_m ?f ?l o k1] => pose proof (G _ f (fun r => match r with Some se => forall i row, nth_error se i = Some row -> 0 < nth i row 0 | None => True end) l) as GG; cut (match fst (map_m f l o k1) with Ok bs => length bs = length l /\ Forall (fun r => match r with Some se => forall i row, nth_error se i = Some row -> 0 < nth i row 0 | None => True end) bs | _ => True end) end.
  - rewrite combine_length, seq_length, Nat.min_id. exact (fun x => x).
  - apply GG. clear. intros [i row] o k. cbn [fst snd]. unfold se_of. destruct (negb _); cbn; auto. unfold bind at 1, lift. destruct (distance _ _ _) as [d|e|]; cbn; auto. destruct (is_zero d); cbn; auto.
    unfold bind at 1. destruct (hess _ row o k) as [[H|e|] k1]; cbn; auto. unfold bind at 1. destruct (grad _ row o k1) as [[G|e|] k2]; cbn; auto.
    unfold bind, lift. destruct (inv _) as [se|e|]; cbn; auto. destruct (diag_pos se) eqn:D; cbn; auto. apply diag_pos_at. exact D.
Qed.
Lemma ito_se_positive : forall hess grad inv fuel mp mx reduce disc log_lik log_prior t vt lb ub buffer n_supports omes thi zz l u, thi <> [] ->
  buffer_bounds lb ub (length thi) buffer = Ok (l, u) -> length l = length thi -> length u = length thi ->
  returns (ito_est_se hess grad inv fuel mp mx reduce disc log_lik log_prior t vt lb ub buffer n_supports omes thi zz)
    (fun r => match r with Some se => ~ touches l u thi /\ forall i row, nth_error se i = Some row -> 0 < nth i row 0 | None => True end).
Proof.
  intros hess grad inv fuel mp mx reduce disc log_lik log_prior t vt lb ub buffer n_supports omes thi zz l u NE B L1 L2 o k V. unfold ito_est_se. unfold bind at 1.
  destruct (ito_update_objective _ _ _ _ _ _ _ _ _ _ _ _ _ o k) as [[f|e|] k1]; cbn [fst]; auto. rewrite B, b_lift. apply se_positive; auto.
Qed.
