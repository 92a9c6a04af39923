(** Converses: the MJP samplers produce nothing else; draws of generators. *)
From Coq Require Import Reals List ZArith Bool Arith Lia Lra Sorted Permutation.
From Verif Require Import Base Np Rng M_mjp M_inf M_path SpecCan SpecMjp SpecLin SpecInf SpecSupport L_list L_path L_path2 L_rng L_mat L_sim L_race
  L_bridge L_unif L_bridge2 L_bridge3 L_stat L_simdemo L_inf L_can L_can3 L_can5 Mat.
Import ListNotations.
Local Open Scope R_scope.

(** ** forwards *)
Lemma holds_rates G rates :
  returns_if G (draw_holds rates) (fun hs => Forall2 (fun r h => match h with Fin x => 0 < r /\ 0 < x | PosInf => True | NegInf => False end) rates hs).
Proof.
  induction rates as [|r rs IH]; cbn [draw_holds].
  - apply returns_ret. constructor.
  - eapply returns_bind with (Q := fun h => match h with Fin x => 0 < r /\ 0 < x | PosInf => True | NegInf => False end).
    + destruct (Rltb_dec r 0) as [[L ->]|[L ->]]; [apply returns_raise|].
      destruct (Reqb_dec r 0) as [[E ->]|[E ->]]; [apply returns_ret; exact Logic.I|].
      eapply returns_bind; [apply total_returns, total_draw_r|]. intros x Hx. apply returns_ret.
      split; [lra|]. apply Hx. apply Rdiv_lt_0_compat; lra.
    + intros h Hh. eapply returns_bind; [apply IH|]. intros hs H1. apply returns_ret. constructor; auto.
Qed.
Lemma F2_nth {A B} (P : A -> B -> Prop) l m : Forall2 P l m -> forall k b, nth_error m k = Some b -> exists a, nth_error l k = Some a /\ P a b.
Proof. induction 1; intros [|k] c E; cbn in *; try discriminate; [injection E as <-; eauto|eauto]. Qed.

Section F.
Variables (dim : nat) (gen : mat) (T : R).
Hypothesis HD : (2 <= dim)%nat.

Lemma forwards_loop_jumps G fuel : forall t x u lx, (lx < dim)%nat -> u < T ->
  returns_if G (forwards_loop fuel T dim gen t x (Fin u) lx)
    (fun s => exists js, jumping dim gen T u lx js /\ s = mk_skel (t ++ u :: map fst js) (x ++ lx :: map snd js) T).
Proof.
  induction fuel as [|fuel IH]; intros t x u lx Hlx Hu; [apply returns_nofuel|]. cbn [forwards_loop].
  destruct (Rltb_dec u T) as [[_ ->]|[E _]]; [|lra].
  eapply returns_bind; [apply holds_rates|]. intros hold HF.
  eapply returns_bind with (Q := fun m => (m < length hold)%nat); [apply returns_lift_opt; intros m Hm; exact (eargmin_lt _ _ Hm)|]. intros m Hm.
  destruct (nth_error hold m) as [h|] eqn:EH; [|apply nth_error_None in EH; lia].
  destruct (F2_nth _ _ _ HF _ _ EH) as (r & Er & Hr). rewrite (nth_error_nth _ _ PosInf EH).
  assert (Hm' : (m < dim - 1)%nat) by (rewrite <- (delete_row_length dim gen lx Hlx); apply nth_error_Some; congruence).
  rewrite delete_row_nth in Er by auto. injection Er as <-.
  destruct h as [|h|]; [contradiction| |].
  - destruct Hr as [Hr Hh]. cbn [eadd_r].
    set (y := if Nat.ltb m lx then m else S m) in Hr.
    assert (Ey : (m + (if Nat.leb lx m then 1 else 0))%nat = y) by (unfold y; destruct (Nat.ltb_spec m lx), (Nat.leb_spec lx m); lia).
    assert (Hy : (y < dim)%nat) by (unfold y; destruct (Nat.ltb_spec m lx); lia).
    assert (Ny : y <> lx) by (unfold y; destruct (Nat.ltb_spec m lx); lia).
    rewrite Ey. destruct (Rlt_dec (u + h) T) as [Hlt|Hge].
    + eapply returns_weaken; [apply IH; auto|]. intros s (js & HJ & ->). exists ((u + h, y) :: js). cbn [jumping map fst snd]. split.
      * split; [lra|]. auto.
      * rewrite <- !app_assoc. reflexivity.
    + destruct fuel as [|fuel]; [apply returns_nofuel|]. cbn [forwards_loop].
      destruct (Rltb_dec (u + h) T) as [[E _]|[_ ->]]; [lra|]. apply returns_ret. exists []. split; [exact Logic.I|reflexivity].
  - cbn [eadd_r]. destruct fuel as [|fuel]; [apply returns_nofuel|]. cbn [forwards_loop]. apply returns_ret. exists []. split; [exact Logic.I|reflexivity].
Qed.
Lemma forwards_jumps L fuel init : 0 < T -> (forall x, init = Some x -> (x < dim)%nat) ->
  returns (sample_forwards L fuel T init dim gen)
    (fun s => exists x js, (x < dim)%nat /\ (forall y, init = Some y -> x = y) /\ jumping dim gen T 0 x js /\ s = path T x js).
Proof.
  intros HT Hi. apply returns_any. unfold sample_forwards.
  eapply returns_bind with (Q := fun x => (x < dim)%nat /\ (forall y, init = Some y -> x = y)).
  - destruct init as [x|]; [apply returns_ret; split; [auto|congruence]|].
    eapply returns_bind; [apply returns_lift_opt; intros p Hp; exact Hp|]. intros p _.
    eapply returns_weaken; [apply returns_choice|]. intros i [_ H2]. unfold vec_list in H2. rewrite map_length, seq_length in H2. split; [auto|discriminate].
  - intros x [Hx E]. eapply returns_weaken; [apply (forwards_loop_jumps _ fuel [] [] 0 x Hx HT)|].
    intros s (js & HJ & ->). exists x, js. auto.
Qed.
End F.

(** ** bridges *)
Section G.
Variables (L : linalg) (dim : nat) (gen : mat) (T : R).
Hypothesis HG : generator dim gen.
Hypothesis HN : exists a, (a < dim)%nat /\ gen a a < 0.
Hypothesis HT : 0 < T.
Hypothesis HL : expm_exact L.
Let Hrb : 0 < rate_bound dim gen := neg_rate dim gen HN.
Let HP : stochastic dim (dtrans dim gen) := dtrans_stochastic dim gen HG Hrb.
Notation P := (dtrans dim gen).

(** a chain with positive one-step probabilities *)
Fixpoint chained (x : nat) (l : list nat) : Prop :=
  match l with [] => True | y :: r => (y < dim)%nat /\ 0 < P x y /\ chained y r end.
Lemma states_chained G n f : (f < dim)%nat -> forall steps cur, (S steps <= n)%nat -> (cur < dim)%nat ->
  0 < mpow dim P (S steps) cur f ->
  total_if G (bridge_states dim P (powers dim gen n) f steps cur) (fun xs => length xs = steps /\ chained cur (xs ++ [f])).
Proof.
  intros Hf. induction steps as [|m IH]; intros cur Hs Hc Hp; cbn [bridge_states].
  - apply total_ret. cbn. split; auto. split; auto. split; auto. cbn in Hp. rewrite mident_l in Hp by auto. auto.
  - eapply total_bind; [apply total_choice, (bridge_probs_ok dim gen HG Hrb); auto; lia|].
    intros y [Hy1 Hy2]. unfold bridge_probs in Hy2. rewrite map_length, seq_length in Hy2.
    rewrite (bridge_probs_nth dim gen) in Hy1 by (auto; lia).
    pose proof (proj1 HP cur y Hc Hy2) as P0.
    assert (HY : 0 < mpow dim P (S m) y f /\ 0 < P cur y).
    { pose proof (proj1 (stochastic_mpow dim P (S m) HP) y f Hy2 Hf) as N0. split.
      - destruct N0 as [|Z]; auto. rewrite <- Z in Hy1. unfold Rdiv in Hy1. rewrite Rmult_0_r, Rmult_0_l in Hy1. lra.
      - destruct P0 as [|Z]; auto. rewrite <- Z in Hy1. unfold Rdiv in Hy1. rewrite !Rmult_0_l in Hy1. lra. }
    eapply total_bind; [apply IH; [lia|auto|tauto]|].
    intros ys [H1 H2]. apply total_ret. cbn. split; auto. tauto.
Qed.
Lemma chain_rate x y : y <> x -> 0 < P x y -> 0 < gen x y.
Proof.
  intros N H. unfold dtrans, mident in H. destruct (Nat.eqb_spec x y); [congruence|].
  assert (0 < gen x y / rate_bound dim gen) by lra. apply (Rmult_lt_compat_r _ _ _ Hrb) in H0. unfold Rdiv in H0. rewrite Rmult_assoc, Rinv_l in H0 by lra. lra.
Qed.
Lemma jumps_later u v x js : u <= v -> jumping dim gen T v x js -> jumping dim gen T u x js.
Proof. destruct js as [|[w y] js]; auto. cbn. intros H (H1 & H2). split; [lra|auto]. Qed.
Lemma dv_jumps ts : forall xs u x, length ts = length xs -> chained x xs -> StronglySorted Rlt ts -> Forall (fun a => u < a < T) ts ->
  jumping dim gen T u x (dv x (combine ts xs)).
Proof.
  induction ts as [|v ts IH]; intros [|y xs] u x HLn HC HS HF; try discriminate; [exact Logic.I|].
  destruct HC as (Hy & Hp & HC). inversion HS as [|? ? S1 S2]; subst. inversion HF as [|? ? F1 F2]; subst. injection HLn as HLn.
  assert (HF' : Forall (fun a => v < a < T) ts).
  { rewrite Forall_forall in *. intros a Ha. split; [apply S2; auto|apply F2; auto]. }
  cbn [combine dv]. destruct (Nat.eqb_spec y x) as [->|N].
  - apply (jumps_later u v); [lra|]. apply IH; auto.
  - cbn [jumping]. split; [auto|]. split; auto. split; auto. split; [apply chain_rate; auto|]. apply IH; auto.
Qed.

Lemma dv_last_state f mid us x : length us = S (length mid) ->
  last_state x (dv x (combine us (mid ++ [f]))) = f.
Proof.
  intros HLn. unfold last_state. rewrite dv_last. rewrite map_combine_snd.
  - apply last_last.
  - rewrite app_length. cbn. lia.
Qed.

Lemma bridge_rest_jumps o n i f : valid o -> generic o ->
  (1 <= n)%nat -> (i < dim)%nat -> (f < dim)%nat -> mpow dim P n i f <> 0 ->
  total_if (fun o' => o' = o) (bridge_rest dim gen T n i f)
    (fun s => exists js, jumping dim gen T 0 i js /\ last_state i js = f /\ s = path T i js).
Proof.
  intros V GO Hn Hi Hf HPn. unfold bridge_rest.
  assert (HPos : 0 < mpow dim P (S (n - 1)) i f).
  { replace (S (n - 1)) with n by lia. pose proof (mpow_bounds dim P HP n i f Hi Hf). lra. }
  eapply total_bind; [apply (states_chained _ n f Hf (n - 1) i); auto; lia|].
  intros mid [HM1 HM2]. eapply total_bind; [apply (draw_uniforms_at T HT o); auto|]. intros us (HU1 & HU2 & HU3).
  destruct (HU3 GO) as [ND HPo].
  assert (Hmid : Forall (fun j => (j < dim)%nat) mid).
  { clear - HM2. revert i HM2. induction mid as [|a mid IH]; intros i H; constructor; cbn in H; [tauto|]. eapply IH. apply H. }
  destruct (virtual_path dim T HT i f us mid Hi Hf Hmid ltac:(lia) HU2) as (E1 & E2 & _ & _).
  eapply total_bind; [eapply total_lift_opt with (P := fun t => t = _); [exact E1|reflexivity]|]. intros t ->.
  eapply total_bind; [eapply total_lift_opt with (P := fun t => t = _); [exact E2|reflexivity]|]. intros x ->.
  apply total_ret. exists (dv i (combine (np_sort us) (mid ++ [f]))).
  assert (LS : length (np_sort us) = length us) by (apply Permutation_length, np_sort_perm).
  split; [|split; [apply dv_last_state; lia|reflexivity]].
  apply dv_jumps; auto.
  - rewrite LS, app_length. cbn. lia.
  - apply NoDup_sorted_lt; [|apply np_sort_sorted]. eapply Permutation_NoDup; [symmetry; apply np_sort_perm|auto].
  - rewrite Forall_forall in *. intros u Hu. apply (Permutation_in u (np_sort_perm us)) in Hu. split; [apply HPo; auto|apply HU2; auto].
Qed.

Lemma bridge_jumps fuel i f : (i < dim)%nat -> (f < dim)%nat -> 0 < get_trans L dim T gen i f ->
  returns_if generic (sample_bridge L fuel T i f dim gen)
    (fun s => exists js, jumping dim gen T 0 i js /\ last_state i js = f /\ s = path T i js).
Proof.
  intros Hi Hf HC o k V GO. rewrite (sample_bridge_unfold L dim gen T HG Hrb HT HL) by auto.
  destruct (n_trans_loop fuel dim P (rate_bound dim gen * T) i f (eln (target L dim gen T (ora_r o k (DUniform 0 1)) i f)) 0 (eln (psum dim gen T i f 0)) (rev (powers dim gen 0)))
    as [[n l]|e|] eqn:EL; [|cbn; auto|cbn; auto].
  assert (Hv : 0 < ora_r o k (DUniform 0 1)) by (destruct GO as [G1 _]; specialize (G1 k 0 1); lra).
  assert (Ht : 0 < target L dim gen T (ora_r o k (DUniform 0 1)) i f).
  { unfold target. repeat apply Rmult_lt_0_compat; auto. apply exp_pos. }
  pose proof (n_trans_loop_search dim gen T HG Hrb HT _ _ _ _ Hi Hf (Rlt_le _ _ Ht) _ _ _ EL) as (_ & H2 & _).
  apply n_trans_loop_spec in EL as (_ & -> & _ & H4).
  destruct (Nat.eqb_spec n 0) as [->|N0]; cbn [orb andb].
  - cbn. exists []. split; [exact Logic.I|]. split; [|reflexivity]. unfold last_state; cbn.
    unfold psum, uterm in H2. simpl in H2. unfold mident in H2. destruct (Nat.eqb_spec i f); [auto|lra].
  - destruct (Nat.eqb n 1 && Nat.eqb i f) eqn:EB.
    + apply andb_true_iff in EB as [_ EB]. apply Nat.eqb_eq in EB. subst f. cbn. exists []. split; [exact Logic.I|]. split; reflexivity.
    + pose proof (bridge_rest_jumps o n i f V GO ltac:(lia) Hi Hf (H4 ltac:(lia)) o (S k) V eq_refl) as B.
      destruct (fst (bridge_rest dim gen T n i f o (S k))); auto; contradiction.
Qed.
Lemma backwards_jumps fuel f : (f < dim)%nat ->
  returns_if generic (sample_backwards L fuel T f dim gen)
    (fun s => exists i js, (i < dim)%nat /\ jumping dim gen T 0 i js /\ last_state i js = f /\ s = path T i js).
Proof.
  intros Hf. destruct (backwards_choice L dim gen T HG HN HT HL f Hf) as [B1 B2]. unfold sample_backwards.
  eapply returns_bind; [apply total_returns, total_choice; apply B1|]. cbn beta. intros i [Hp Hi].
  rewrite map_length, seq_length in Hi. eapply returns_weaken; [apply bridge_jumps; auto|]. intros s (js & H). exists i, js. tauto.
Qed.
End G.

(** ** draws of generators *)
Lemma can_mapM {A B} (f : A -> M B) (g : A -> B) l : (forall a, In a l -> can (fun _ => f a) (eq (g a))) -> can (fun _ => mapM f l) (eq (map g l)).
Proof.
  induction l as [|a l IH]; intros H; cbn [mapM map]; [apply can_ret; reflexivity|].
  apply (can_bind0 _ (fun _ b => do bs <- mapM f l; ret (b :: bs)) (eq (g a))); [apply H; left; auto|]. intros ? <-.
  apply (can_bind0 _ (fun _ bs => ret (g a :: bs)) (eq (map g l))); [apply IH; intros; apply H; right; auto|]. intros ? <-. apply can_ret. reflexivity.
Qed.
Lemma can_param dim alp bet (Q : mat) : hyper dim (Rlt 0) alp -> hyper dim (Rlt 0) bet -> generator dim Q -> pos_off dim Q ->
  can (fun _ => sample_param dim alp bet) (fun g => forall i j, (i < dim)%nat -> (j < dim)%nat -> g i j = Some (Q i j)).
Proof.
  intros HA HB HQ HO. pose proof (hyper_num _ _ _ HA) as NA. pose proof (hyper_num _ _ _ HB) as NB. unfold sample_param.
  assert (IN : forall p, In p (list_prod (seq 0 dim) (seq 0 dim)) -> (fst p < dim)%nat /\ (snd p < dim)%nat).
  { intros [i j] H. apply in_prod_iff in H as [H1 H2]. apply in_seq in H1, H2. simpl; lia. }
  replace (existsb _ _) with false.
  2:{ symmetry. apply not_true_is_false. intros E. apply existsb_exists in E as ([i j] & Hp & E).
      destruct (IN _ Hp) as [Hi Hj]. cbn [fst snd] in *. destruct (Nat.eq_dec i j) as [->|N].
      - rewrite (proj1 HA), (proj1 HB) in E by auto. discriminate.
      - destruct (NA i j Hi Hj N) as [E1 P1], (NB i j Hi Hj N) as [E2 P2]. rewrite E1, E2 in E. cbn [neg_entry] in E.
        rewrite !(proj2 (Rltb_false _ 0)) in E by lra. discriminate. }
  set (v := fun p : nat * nat => if Nat.eqb (fst p) (snd p) then None else Some (Q (fst p) (snd p))).
  set (idx := list_prod (seq 0 dim) (seq 0 dim)).
  apply (can_bind0 _ (fun _ l => ret (fill_neg_rows dim (fun i j => nth (i * dim + j) l None))) (eq (map v idx))).
  - apply can_mapM. intros [i j] Hp. destruct (IN _ Hp) as [Hi Hj]. unfold v. cbn [fst snd] in *. destruct (Nat.eqb_spec i j) as [->|N].
    + rewrite (proj1 HA) by auto. apply can_ret. reflexivity.
    + destruct (NA i j Hi Hj N) as [-> P1], (NB i j Hi Hj N) as [-> P2]. cbn [gamma_entry].
      apply (can_bind0 _ (fun _ g => ret (Some g)) (eq (Q i j))); [apply (can_gamma _ _ (Q i j)); auto|]. intros ? <-. apply can_ret. reflexivity.
  - intros ? <-. apply can_ret. intros i j Hi Hj.
    assert (EN : forall i j, (i < dim)%nat -> (j < dim)%nat -> nth (i * dim + j) (map v idx) None = v (i, j)).
    { intros a b Ha Hb. apply nth_error_nth. rewrite nth_error_map. unfold idx. rewrite nth_list_prod by auto. reflexivity. }
    unfold fill_neg_rows. destruct (Nat.eqb_spec i j) as [<-|N].
    + f_equal. unfold nansum_row. pose proof (proj2 HQ i Hi) as HS.
      rewrite (rsum_ext dim _ (fun k => Q i k - (if Nat.eqb i k then Q i i else 0))).
      * rewrite (rsum_ext dim _ (fun k => Q i k + (-1) * (if Nat.eqb i k then Q i i else 0))) by (intros; ring).
        rewrite rsum_plus, HS. rewrite (rsum_ext dim (fun k => -1 * (if Nat.eqb i k then Q i i else 0)) (fun k => (if Nat.eqb i k then 1 else 0) * (- Q i i)));
          [|intros k _; destruct (Nat.eqb i k); ring].
        pose proof (rsum_delta dim (fun _ => - Q i i) i Hi) as HDl. cbn beta in HDl.
        rewrite (rsum_ext dim (fun k => (if Nat.eqb i k then 1 else 0) * (- Q i i)) (fun k => if Nat.eqb i k then - Q i i else 0)); [|intros k _; destruct (Nat.eqb i k); ring].
        first [lra | rewrite HDl; lra].
      * intros k Hk. rewrite EN by auto. unfold v; cbn [fst snd]. destruct (Nat.eqb_spec i k) as [<-|Nk]; cbn [nan0]; lra.
    + rewrite EN by auto. unfold v; cbn [fst snd]. destruct (Nat.eqb_spec i j); [contradiction|reflexivity].
Qed.

(** ** the independent-pieces proposal *)
Lemma can_mapM2 {A B C} (f : nat -> A -> M B) (P : A -> C -> B -> Prop) l (ts : list C) : Forall2 (fun a c => can (fun n => f n a) (P a c)) l ts ->
  can (fun n => mapM (f n) l) (fun bs => length bs = length ts /\ forall k a c b, nth_error l k = Some a -> nth_error ts k = Some c -> nth_error bs k = Some b -> P a c b).
Proof.
  induction 1 as [|a c l ts Ha H IH]; cbn [mapM].
  - apply can_ret. split; auto. intros [|k]; discriminate.
  - apply (can_bind _ (fun n b => do bs <- mapM (f n) l; ret (b :: bs)) (P a c) _ Ha). intros b Hb.
    apply (can_bind _ (fun n bs => ret (b :: bs)) _ _ IH). intros bs [H1 H2]. apply can_ret. split; [cbn; auto|].
    intros [|k] a' c' b' E1 E2 E3; cbn in *; [congruence|eauto].
Qed.
Section H.
Variables (L : linalg) (dim : nat) (gen : mat).
Hypothesis HD : (2 <= dim)%nat.
Hypothesis HG : generator dim gen.
Hypothesis HN : exists a, (a < dim)%nat /\ gen a a < 0.
Hypothesis HL : expm_exact L.
Lemma can_mutate eps p x0 js0 ms tgt q xq jsq : 0 < eps ->
  0 < sk_fin p -> (x0 < dim)%nat -> jumping dim gen (sk_fin p) 0 x0 js0 -> (exists l, sk_x p = l ++ [last_state x0 js0]) ->
  Forall2 (fun m t => 0 < sk_fin m /\ replaces dim gen m t) ms tgt ->
  0 < sk_fin q -> (xq < dim)%nat -> jumping dim gen (sk_fin q) 0 xq jsq -> hd_error (sk_x q) = Some xq ->
  can (fun fuel => mutate_partition L fuel (p :: ms ++ [q]) dim gen)
    (fun ps => exists p' ms', ps = p' :: ms' ++ [path (sk_fin q) xq jsq] /\ near eps (path (sk_fin p) x0 js0) p' /\
       length ms' = length ms /\
       forall k m t m', nth_error ms k = Some m -> nth_error tgt k = Some t -> nth_error ms' k = Some m' -> near eps (path (sk_fin m) (fst t) (snd t)) m').
Proof.
  intros He Hp Hx0 HJ0 (l0 & El) HM Hq Hxq HJq Eq.
  assert (EU : forall fuel, mutate_partition L fuel (p :: ms ++ [q]) dim gen =
    (do x0 <- lift_opt IndexError (last_opt (sk_x p));
     do init_skel <- sample_backwards L fuel (sk_fin p) x0 dim gen;
     do x1 <- lift_opt IndexError (hd_error (sk_x q));
     do fin_skel <- sample_forwards L fuel (sk_fin q) (Some x1) dim gen;
     do mids <- mapM (fun s => do a <- lift_opt IndexError (hd_error (sk_x s));
                   do b <- lift_opt IndexError (last_opt (sk_x s));
                   sample_bridge L fuel (sk_fin s) a b dim gen) ms;
     ret (init_skel :: mids ++ [fin_skel]))).
  { intros fuel. assert (E1 : last (ms ++ [q]) p = q) by apply last_last.
    assert (E2 : but_last (ms ++ [q]) = ms) by (unfold but_last; apply removelast_last).
    transitivity (do x0 <- lift_opt IndexError (last_opt (sk_x p));
     do init_skel <- sample_backwards L fuel (sk_fin p) x0 dim gen;
     do x1 <- lift_opt IndexError (hd_error (sk_x (last (ms ++ [q]) p)));
     do fin_skel <- sample_forwards L fuel (sk_fin (last (ms ++ [q]) p)) (Some x1) dim gen;
     do mids <- mapM (fun s => do a <- lift_opt IndexError (hd_error (sk_x s));
                   do b <- lift_opt IndexError (last_opt (sk_x s));
                   sample_bridge L fuel (sk_fin s) a b dim gen) (but_last (ms ++ [q]));
     ret (init_skel :: mids ++ [fin_skel])); [destruct ms; reflexivity|]. rewrite E1, E2. reflexivity. }
  eapply can_ext; [intros fuel; symmetry; apply EU|]. clear EU.
  set (mid := fun fuel (s : skel R) => do a <- lift_opt IndexError (hd_error (sk_x s)); do b <- lift_opt IndexError (last_opt (sk_x s)); sample_bridge L fuel (sk_fin s) a b dim gen).
  apply (can_bind0 _ (fun fuel x0 => do init_skel <- sample_backwards L fuel (sk_fin p) x0 dim gen;
     do x1 <- lift_opt IndexError (hd_error (sk_x q));
     do fin_skel <- sample_forwards L fuel (sk_fin q) (Some x1) dim gen;
     do mids <- mapM (mid fuel) ms; ret (init_skel :: mids ++ [fin_skel])) (eq (last_state x0 js0))).
  { rewrite El, last_opt_app. exact (can_lift_opt _ _ _ (eq (last_state x0 js0)) eq_refl eq_refl). }
  intros ? <-. apply (can_bind _ (fun fuel init_skel => 
     do x1 <- lift_opt IndexError (hd_error (sk_x q));
     do fin_skel <- sample_forwards L fuel (sk_fin q) (Some x1) dim gen;
     do mids <- mapM (mid fuel) ms; ret (init_skel :: mids ++ [fin_skel])) (near eps (path (sk_fin p) x0 js0))).
  { apply can_backwards; auto. }
  intros p' Hp'. apply (can_bind0 _ (fun fuel x1 => 
     do fin_skel <- sample_forwards L fuel (sk_fin q) (Some x1) dim gen;
     do mids <- mapM (mid fuel) ms; ret (p' :: mids ++ [fin_skel])) (eq xq)).
  { exact (can_lift_opt _ _ _ (eq xq) Eq eq_refl). }
  intros ? <-. apply (can_bind _ (fun fuel fin_skel => do mids <- mapM (mid fuel) ms; ret (p' :: mids ++ [fin_skel])) (eq (path (sk_fin q) xq jsq))).
  { apply can_forwards; auto. }
  intros ? <-. apply (can_bind _ (fun fuel mids => ret (p' :: mids ++ [path (sk_fin q) xq jsq])) _ _
    (can_mapM2 mid (fun m t m' => near eps (path (sk_fin m) (fst t) (snd t)) m') ms tgt
      ltac:(clear - HM HD HG HN HL He; induction HM as [|m t ms tgt HM1 HM2 IH]; constructor; [|exact IH]; destruct HM1 as (M1 & M2 & M3 & M4 & (l & M5)); subst mid;
        apply (can_bind0 _ (fun fuel a => do b <- lift_opt IndexError (last_opt (sk_x m)); sample_bridge L fuel (sk_fin m) a b dim gen) (eq (fst t)));
        [exact (can_lift_opt _ _ _ (eq (fst t)) M4 eq_refl)|]; intros ? <-;
        apply (can_bind0 _ (fun fuel b => sample_bridge L fuel (sk_fin m) (fst t) b dim gen) (eq (last_state (fst t) (snd t))));
        [rewrite M5, last_opt_app; exact (can_lift_opt _ _ _ (eq (last_state (fst t) (snd t))) eq_refl eq_refl)|]; intros ? <-; apply can_bridge; auto))).
  intros ms' [H1 H2]. apply can_ret. exists p', ms'. split; auto. split; auto. split; auto.
  rewrite H1. clear - HM. induction HM; cbn; auto.
Qed.
End H.
