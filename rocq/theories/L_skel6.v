(** Lemmas: Poisson coins on skeletons. *)
From Coq Require Import Reals List Bool Arith Lia Lra Psatz Sorted Permutation.
From Verif Require Import Base Np Rng L_list L_rng L_sim L_bridge L_ars L_prop M_mjp L_ppp M_hit SpecHit M_path SpecPath L_sde L_sde2 L_sde3 M_skel SpecSkel L_skel L_skel2 L_skel3 L_skel4.
Import ListNotations.
Local Open Scope R_scope.

(** ** sorting the rows of a batch *)
Lemma col1_ins_perm a l : Permutation (col1_ins a l) (a :: l).
Proof. induction l as [|b l IH]; cbn [col1_ins]; auto. destruct (Rleb _ _); auto. eapply perm_trans; [apply perm_skip, IH|apply perm_swap]. Qed.
Lemma col1_sort_perm l : Permutation (col1_sort l) l.
Proof. induction l as [|b l IH]; cbn [col1_sort]; auto. eapply perm_trans; [apply col1_ins_perm|]. now apply perm_skip. Qed.
Lemma col1_ins_sorted a l : StronglySorted Rle (map (fun r => nth 1 r 0) l) -> StronglySorted Rle (map (fun r => nth 1 r 0) (col1_ins a l)).
Proof.
  induction l as [|b l IH]; intros HS; cbn [col1_ins map]; [repeat constructor|].
  destruct (Rleb (nth 1 a 0) (nth 1 b 0)) eqn:E.
  - apply Rleb_true in E. cbn [map]. constructor; auto. cbn [map] in HS. inversion HS; subst. constructor; auto.
    eapply Forall_impl; [|eassumption]. cbn. intros; lra.
  - apply Rleb_false in E. cbn [map] in *. inversion HS; subst. constructor; auto.
    rewrite Forall_forall in *. intros u Hu. apply in_map_iff in Hu as (r & <- & Hr).
    apply (Permutation_in r (col1_ins_perm a l)) in Hr as [<-|Hr]; [lra|]. apply H2. now apply (in_map (fun r => nth 1 r 0)).
Qed.
Lemma col1_sort_sorted l : StronglySorted Rle (map (fun r => nth 1 r 0) (col1_sort l)).
Proof. induction l; cbn [col1_sort map]; [constructor|]. now apply col1_ins_sorted. Qed.
Lemma draw_rows_one d n o k : draw_rows n [d] o k = (do l <- draw_rs (repeat d n); ret (map (fun u => [u]) l)) o k.
Proof.
  unfold bind, ret. revert k. induction n as [|n IH]; intros k; cbn [draw_rows repeat draw_rs]; auto.
  unfold bind, ret, draw_r in *. cbn [fst snd]. rewrite IH. destruct (draw_rs (repeat d n) o (S k)) as [[l|e|] k']; reflexivity.
Qed.
Lemma rows_generic T i : 0 < T ->
  total_if generic (draw_rows i [DUniform 0 T]) (fun l => length l = i /\ exists us, l = map (fun u => [u]) us /\ Forall (fun u => 0 < u < T) us /\ NoDup us).
Proof.
  intros HT o k V G. rewrite draw_rows_one.
  apply (total_bind generic (draw_rs (repeat (DUniform 0 T) i)) (fun l => ret (map (fun u => [u]) l)) (fun l => length l = i /\ Forall (fun u => 0 < u < T) l /\ NoDup l)); auto.
  - apply draw_uniforms_generic; auto.
  - intros l (L & F & N). apply total_ret. rewrite map_length. split; auto. eauto.
Qed.
(** one batch of points (height, time) *)
Definition batch_ok (b0 T : R) (p p' : ppp_state) (b : list (list R)) : Prop :=
  pp_n p' = pp_n p /\ pp_sizes p = length b :: pp_sizes p' /\ 0 <= pp_ub p' /\
  Forall (fun r => 0 <= nth 0 r 0 /\ 0 < nth 1 r 0 < T) b /\ NoDup (map (fun r => nth 1 r 0) b).
Lemma batch_returns b0 T p i rest : 0 < b0 -> 0 < T -> pp_sizes p = i :: rest -> (1 <= i <= pp_n p)%nat -> 0 <= pp_ub p ->
  total_if generic (ppp_next [b0; T] p) (fun r => exists b p', r = Some (b, p') /\ batch_ok b0 T p p' b).
Proof.
  intros H0 HT HS Hi HU. unfold ppp_next. rewrite HS. cbn [hd tl map].
  eapply total_bind; [apply total_draw_r|]. intros x Hx. simpl in Hx.
  assert (X : 0 < x < 1).
  { apply Hx; [apply lt_0_INR; lia|]. assert (INR i <= INR (pp_n p)) by (apply le_INR; lia). lra. }
  set (ub := pp_ub p + b0 * x).
  assert (UB : pp_ub p < ub). { unfold ub. assert (0 < b0 * x) by (apply Rmult_lt_0_compat; lra). lra. }
  eapply total_bind with (Q := fun u0 => length u0 = i /\ Forall (fun t => 0 <= t) u0).
  - destruct (Nat.eqb_spec i 1) as [->|N].
    + apply total_ret. split; auto. repeat constructor; lra.
    + eapply total_bind; [apply draw_uniforms with (G := generic); apply UB|]. intros us [U1 U2]. apply total_ret.
      assert (PM := np_sort_perm us). split.
      * rewrite app_length, (Permutation_length PM). cbn [length]. lia.
      * apply Forall_app; split; [|repeat constructor; lra]. rewrite Forall_forall in *. intros a Ha.
        apply (Permutation_in a PM) in Ha. specialize (U2 a Ha). lra.
  - intros u0 (V1 & V3). eapply total_bind; [apply rows_generic; auto|]. intros u (W1 & us & -> & FU & ND).
    apply total_ret. eexists _, _. split; [reflexivity|]. rewrite map_length in W1. unfold batch_ok. cbn [pp_n pp_sizes pp_ub].
    split; auto. split; [rewrite HS; f_equal; rewrite map_length, combine_length, map_length; lia|]. split; [lra|].
    assert (CM : forall (a c : list R), length a = length c -> map (fun r => nth 1 r 0) (map (fun p => fst p :: snd p) (combine a (map (fun u => [u]) c))) = c /\
       (Forall (fun t => 0 <= t) a -> Forall (fun u => 0 < u < T) c -> Forall (fun r => 0 <= nth 0 r 0 /\ 0 < nth 1 r 0 < T) (map (fun p => fst p :: snd p) (combine a (map (fun u => [u]) c))))).
    { induction a as [|a0 a IH]; intros [|c0 c] L; try discriminate; cbn; auto. destruct (IH c) as [I1 I2]; [injection L; auto|].
      split; [now rewrite I1|]. intros F1 F2. inversion F1; inversion F2; subst. constructor; cbn; auto. }
    destruct (CM u0 us) as [C1 C2]; [lia|]. split; auto. now rewrite C1.
Qed.

(** ** the logged loop *)
Lemma total_returns G {A} (m : M A) Q : total_if G m Q -> returns_if G m Q.
Proof. intros H o k V Go. specialize (H o k V Go). destruct (fst (m o k)); auto; contradiction. Qed.
Lemma returns_from_any G {A} (m : M A) Q : returns_if anyo m Q -> returns_if G m Q.
Proof. intros H o k V _. apply H; auto. exact I. Qed.
Section LoggedRun.
Context {St V : Type} (step : St -> list R -> M (St * list V)) (excess : R -> V -> R) (b0 T : R).
Context (Inv : St -> Prop) (Ext : St -> St -> Prop) (At : St -> R -> V -> Prop).
Hypothesis Ext_refl : forall s, Ext s s.
Hypothesis Ext_trans : forall a b c, Ext a b -> Ext b c -> Ext a c.
Hypothesis Ext_at : forall a b u v, Ext a b -> At a u v -> At b u v.
Hypothesis Step : forall s new, Inv s -> StronglySorted Rlt new -> Forall (fun u => 0 < u < T) new ->
  returns_if generic (step s new) (fun q => Inv (fst q) /\ Ext s (fst q) /\ Forall2 (At (fst q)) new (snd q)).
Definition coin_log (s : St) (total : nat) (r : bool * St * list (R * R * V)) : Prop :=
  let '(acc, s', log) := r in
  Inv s' /\ Ext s s' /\
  Forall (fun c => let '(h, u, v) := c in 0 <= h /\ 0 < u < T /\ At s' u v) log /\
  (acc = false <-> Exists (fun c => let '(h, u, v) := c in h < excess u v) log) /\ (acc = true -> length log = total) /\ (length log <= total)%nat.
Lemma logged_returns n : forall p s, 0 < b0 -> 0 < T -> Inv s -> sizes_ok (pp_n p) (pp_sizes p) -> 0 <= pp_ub p ->
  returns_if generic (logged step excess [b0; T] n p s) (coin_log s (fold_right plus 0%nat (pp_sizes p))).
Proof.
  induction n as [|n IH]; intros p s H0 HT I SZ UB; cbn [logged].
  { intros o k _ _. exact Logic.I. }
  destruct (pp_sizes p) as [|i rest] eqn:ES.
  - assert (E : ppp_next [b0; T] p = ret None) by (unfold ppp_next; now rewrite ES). rewrite E.
    eapply returns_bind; [apply (returns_ret generic None (fun r => r = None)); auto|]. intros ? ->. apply returns_ret.
    cbn. split; auto. split; auto. split; [constructor|]. split; [split; [discriminate|intros X; inversion X]|auto].
  - inversion SZ as [|? ? Hi SZ']; subst.
    eapply returns_bind; [apply total_returns, (batch_returns b0 T p i rest); auto|].
    intros r (b & p' & -> & E1 & E2 & E3 & FB & ND). rewrite ES in E2. injection E2 as Ei Er.
    set (rows := col1_sort b). assert (PM := col1_sort_perm b). fold rows in PM.
    assert (FR : Forall (fun r => 0 <= nth 0 r 0 /\ 0 < nth 1 r 0 < T) rows).
    { rewrite Forall_forall in *. intros r Hr. apply FB. now apply (Permutation_in r PM). }
    assert (LR : length rows = i) by (rewrite (Permutation_length PM); auto).
    eapply returns_bind; [apply Step; auto|].
    { apply NoDup_sorted_lt; [|apply col1_sort_sorted]. eapply Permutation_NoDup; [|exact ND]. apply Permutation_map. now apply Permutation_sym. }
    { rewrite Forall_map. eapply Forall_impl; [|exact FR]. cbn. tauto. }
    intros [s1 vs] (I1 & X1 & A1). cbn [fst snd] in *.
    set (pts := combine _ vs).
    assert (LV : length vs = i) by (apply Forall2_length in A1; rewrite map_length in A1; lia).
    assert (LP : length pts = i) by (unfold pts; rewrite combine_length, map_length; lia).
    assert (FP : Forall (fun c => let '(h, u, v) := c in 0 <= h /\ 0 < u < T /\ At s1 u v) pts).
    { unfold pts. clear -A1 FR. revert vs A1. induction rows as [|r rows IHr]; intros [|v vs] A1; cbn in *; constructor; inversion A1; inversion FR; subst; auto. tauto. }
    destruct (existsb _ pts) eqn:EX.
    + apply returns_ret. cbn [coin_log]. split; auto. split; auto. split; auto. apply existsb_exists in EX as ([[h u] v] & Hc & Hl). cbn [fst snd] in Hl. apply Rltb_true in Hl.
      split; [split; auto; intros _; apply Exists_exists; exists (h, u, v); auto|]. split; [discriminate|]. cbn [fold_right]. lia.
    + eapply returns_bind; [apply (IH p' s1); auto; [rewrite E1, <- Er; auto]|]. intros [[acc s2] log] (I2 & X2 & F2 & D2 & N2 & N3).
      apply returns_ret. cbn [fst snd coin_log]. split; auto. split; [eapply Ext_trans; eauto|]. split; [|split; [|split]].
      * apply Forall_app; split; auto. eapply Forall_impl; [|exact FP]. intros [[h u] v] (Z1 & Z2 & Z3). repeat split; auto; try apply Z2. eapply Ext_at; eauto.
      * rewrite Exists_app, <- D2. split; auto. intros [C|C]; auto. exfalso. apply Exists_exists in C as ([[h u] v] & Hc & Hl).
        assert (existsb (fun c => Rltb (fst (fst c)) (excess (snd (fst c)) (snd c))) pts = true); [|congruence].
        apply existsb_exists. exists (h, u, v). split; auto. now apply Rltb_true.
      * intros A. rewrite app_length, N2, LP, Er by auto. reflexivity.
      * rewrite app_length. cbn [fold_right]. rewrite Er in *. lia.
Qed.
End LoggedRun.

(** ** the coin of skeleton.py *)
Lemma existsb_combine_swap {A B} (f : A -> B -> bool) (l : list A) (m : list B) : existsb (fun c => f (snd c) (fst c)) (combine m l) = existsb (fun c => f (fst c) (snd c)) (combine l m).
Proof. revert m. induction l as [|a l IH]; intros [|b m]; cbn; auto. now rewrite IH. Qed.
Lemma loop_logged fuel mp n disc bounds cent m : forall p s o k,
  poisson_loop fuel mp n m disc bounds cent p s o k = (do r <- logged (interpolate_skeleton fuel mp n) (fun _ v => disc v - cent) bounds m p s; ret (fst r)) o k.
Proof.
  induction m as [|m IH]; intros p s o k; cbn [poisson_loop logged]; auto.
  unfold bind, ret in *. destruct (ppp_next bounds p o k) as [[[[batch p']|]|e|] k1]; auto.
  destruct (interpolate_skeleton fuel mp n s _ o k1) as [[[s1 vs]|e|] k2]; auto. cbn [fst snd].
  set (rows := col1_sort batch).
  assert (E : existsb (fun c => Rltb (snd c) (disc (fst c) - cent)) (combine vs (map (fun r => nth 0 r 0) rows)) =
     existsb (fun c => Rltb (fst (fst c)) (disc (snd c) - cent)) (combine (map (fun r => (nth 0 r 0, nth 1 r 0)) rows) vs)).
  { generalize rows. clear. intros rows. revert vs. induction rows as [|r rows IH]; intros [|v vs]; cbn; auto. now rewrite IH. }
  rewrite E. destruct (existsb _ (combine (map _ rows) vs)); auto.
  rewrite IH. destruct (logged _ _ _ m p' s1 o k2) as [[[[acc s2] log]|e|] k3]; auto.
Qed.
Lemma coin_logged fuel mp n s disc bd m o k : flip_poisson_coin fuel mp n s disc bd m o k = (do r <- logged_coin fuel mp n s disc bd m; ret (fst r)) o k.
Proof.
  unfold flip_poisson_coin, logged_coin. destruct (bd _ _) as [[cent le] ue]. unfold bind, ret.
  destruct (lift_opt IndexError (last_opt (k_t s)) o k) as [[fin|e|] k1]; auto.
  destruct (ppp_start 1 _ m o k1) as [[p|e|] k2]; auto. apply loop_logged.
Qed.
Lemma start_run b0 T m o k : match ppp_start 1 [b0; T] m o k with
  | (Ok p, k') => k' = S k /\ 0 < b0 /\ 0 < T /\ pp_n p = ora_n o k (DPoisson (b0 * T)) /\ sizes_ok (pp_n p) (pp_sizes p) /\ fold_right plus 0%nat (pp_sizes p) = pp_n p /\ pp_ub p = 0
  | (Raise e, k') => k' = k /\ e = AssertionError /\ (b0 <= 0 \/ T <= 0 \/ m = 0%nat)
  | (NoFuel, _) => False
  end.
Proof.
  unfold ppp_start, bind, assert_, lift_opt, draw_n, ret, raise. cbn [hd_error tl].
  destruct (Rltb_dec 0 1) as [[L ->]|[L ->]]; [|lra].
  assert (Z1 := np_min_from_le b0 [T]). assert (Z2 := np_min_from_in b0 [T] T (or_introl eq_refl)).
  destruct (Rltb_dec 0 (np_min_from b0 [T])) as [[L1 ->]|[L1 ->]].
  - destruct (Nat.ltb_spec 0 m) as [L2|L2].
    + cbn [pp_n pp_sizes pp_ub]. unfold np_prod. cbn [fold_right]. rewrite Rmult_1_r, Rmult_1_l. destruct (batch_sizes_spec (ora_n o k (DPoisson (b0 * T))) m L2). repeat split; auto; lra.
    + repeat split; auto. lia.
  - repeat split; auto. destruct (np_min_from_mem b0 [T]) as [E|[E|[]]]; lra.
Qed.
Lemma skeleton_step fuel mp n s new G : well_formed s -> StronglySorted Rlt new ->
  returns_if G (interpolate_skeleton fuel mp n s new) (fun q => well_formed (fst q) /\ extends s (fst q) /\ Forall2 (at_time (fst q)) new (snd q)).
Proof. intros W SN. apply returns_from_any. eapply returns_weaken; [apply interpolate_returns; auto|]. intros q (A & B & _ & C & _). auto. Qed.
Lemma value_range s u v : well_formed s -> at_time s u v -> Rmin (k_loose s) (k_tight s) <= v <= Rmax (k_loose s) (k_tight s).
Proof.
  intros [LN ST Z0 TWO SD VA HT] A. apply in_combine_r in A. destruct (VA v A) as [V1 V2].
  unfold Rmin, Rmax. destruct (Rle_dec (k_loose s) (k_tight s)); destruct SD; try lra.
Qed.
Lemma coin_statement fuel mp n s disc bd m o k acc s' cent le ue : well_formed s -> valid o -> generic o ->
  bd (Rmin (k_loose s) (k_tight s)) (Rmax (k_loose s) (k_tight s)) = (cent, le, ue) ->
  fst (flip_poisson_coin fuel mp n s disc bd m o k) = Ok (acc, s') ->
  exists log, fst (logged_coin fuel mp n s disc bd m o k) = Ok (acc, s', log) /\ well_formed s' /\ extends s s' /\
    Forall (fun c => let '(h, u, v) := c in 0 <= h /\ 0 < u < horizon s /\ at_time s' u v) log /\
    (acc = false <-> Exists (fun c => let '(h, u, v) := c in h < disc v - cent) log) /\
    (acc = true -> length log = ora_n o k (DPoisson ((ue - cent) * horizon s))) /\
    ((forall x, Rmin (k_loose s) (k_tight s) <= x <= Rmax (k_loose s) (k_tight s) -> cent <= disc x <= ue) ->
     Forall (fun c => let '(h, u, v) := c in 0 <= disc v - cent <= ue - cent) log).
Proof.
  intros W V G BD H. rewrite coin_logged in H. unfold bind, ret in H.
  destruct (logged_coin fuel mp n s disc bd m o k) as [[[[acc0 s0] log]|e|] k1] eqn:E; try discriminate. cbn in H. injection H as -> ->. exists log. split; auto.
  unfold logged_coin in E. rewrite BD in E. rewrite (last_opt_last (k_t s) 0) in E by (destruct W as [_ _ _ TWO _ _ _]; destruct (k_t s); [cbn in TWO; lia|easy]).
  fold (horizon s) in E. unfold bind, lift_opt, ret in E. assert (SR := start_run (ue - cent) (horizon s) m o k).
  destruct (ppp_start 1 _ m o k) as [[p|e|] k2]; try discriminate. destruct SR as (_ & B0 & BT & EN & SZ & TOT & UB).
  assert (L := logged_returns (interpolate_skeleton fuel mp n) (fun _ v => disc v - cent) (ue - cent) (horizon s) (fun q => well_formed q /\ extends s q) extends at_time
     extends_refl extends_trans).
  specialize (L (fun a b u v X => proj2 (proj2 (proj2 (proj2 (proj2 (proj2 X))))) u v)).
  assert (ST : forall q new, well_formed q /\ extends s q -> StronglySorted Rlt new -> Forall (fun u => 0 < u < horizon s) new ->
     returns_if generic (interpolate_skeleton fuel mp n q new) (fun z => (well_formed (fst z) /\ extends s (fst z)) /\ extends q (fst z) /\ Forall2 (at_time (fst z)) new (snd z))).
  { intros q new [Q1 Q2] SN _. eapply returns_weaken; [apply skeleton_step; auto|]. intros z (Z1 & Z2 & Z3). split; auto. split; auto. eapply extends_trans; eauto. }
  specialize (L ST (S (length (pp_sizes p))) p s B0 BT (conj W (extends_refl s)) SZ ltac:(lra) o k2 V G). rewrite E in L. cbn [fst] in L.
  destruct L as ((W' & X) & _ & F & D & N1 & N2). split; auto. split; auto. split; auto. split; auto.
  split; [intros A; rewrite (N1 A), TOT; auto|]. intros SB. eapply Forall_impl; [|exact F]. intros [[h u] v] (_ & _ & A).
  assert (VR := value_range s' u v W' A). destruct X as (X1 & X2 & _). rewrite X1, X2 in VR. specialize (SB v VR). lra.
Qed.
