(** update_params: assembling the sections, schedules and non-interference. *)
From Coq Require Import Reals List Bool Arith ZArith Lia Lra Sorted Permutation.
From Verif Require Import Base Np Rng Mat M_mjp M_bf M_adapt M_path M_skel M_seed M_models M_sw SpecMjp SpecLin SpecSw.
From Verif Require Import L_rng L_list L_path L_path2 L_part L_prop L_occ L_adapt2 L_sde2 L_skel L_sw L_sw2 L_sw3 L_sw4 L_sw5 L_sw6 L_sw7 L_sw8 L_step2.
Import ListNotations.
Local Open Scope R_scope.

Lemma run_jobs_nth {A} omes (jobs : list (M A)) : forall i0 l, run_jobs i0 omes jobs = Ok l -> length l = length jobs /\
  forall i j, nth_error jobs i = Some j -> exists a, nth_error l i = Some a /\ fst (j (omes (i0 + i)%nat) 0%nat) = Ok a.
Proof.
  induction jobs as [|j jobs IH]; intros i0 l H; simpl in H; [inversion H; split; auto; intros [|i] ? E; discriminate|].
  destruct (fst (j (omes i0) 0%nat)) as [a| |] eqn:E; simpl in H; try discriminate. destruct (run_jobs (S i0) omes jobs) as [l'| |] eqn:E2; simpl in H; try discriminate.
  inversion H; subst. destruct (IH _ _ E2) as [L1 L2]. split; [simpl; congruence|]. intros [|i] q Hq; simpl in Hq.
  - inversion Hq; subst. exists a. rewrite Nat.add_0_r. auto.
  - destruct (L2 i q Hq) as (b & Hb & Eb). exists b. split; auto. rewrite <- Nat.add_succ_comm. auto.
Qed.
Lemma run_jobs_all {A} omes (jobs : list (M A)) : forall i0, (forall i j, nth_error jobs i = Some j -> exists a, fst (j (omes (i0 + i)%nat) 0%nat) = Ok a) -> exists l, run_jobs i0 omes jobs = Ok l.
Proof.
  induction jobs as [|j jobs IH]; intros i0 H; simpl; [eauto|]. destruct (H 0%nat j eq_refl) as [a Ea]. rewrite Nat.add_0_r in Ea. rewrite Ea. simpl.
  destruct (IH (S i0)) as [l El]; [|rewrite El; simpl; eauto]. intros i q Hq. rewrite Nat.add_succ_comm. apply (H (S i)); auto.
Qed.
Lemma nth_map_seq {A} (f : nat -> A) n i : (i < n)%nat -> nth_error (map f (seq 0 n)) i = Some (f i).
Proof. intros H. erewrite map_nth_error; [reflexivity|]. rewrite nth_error_nth' with (d := 0%nat) by (rewrite seq_length; auto). rewrite seq_nth by auto. reflexivity. Qed.
Lemma order_nth {A} omes (job : nat -> M A) order : forall store st, run_in_order omes job order store = Ok st ->
  (forall i, In i order -> exists a, fst (job i (omes i) 0%nat) = Ok a /\ st i = Some a) /\ (forall i, ~ In i order -> st i = store i).
Proof.
  induction order as [|i r IH]; intros store st H; cbn [run_in_order] in H; [inversion H; subst; split; [intros i []|auto]|].
  destruct (fst (job i (omes i) 0%nat)) as [a| |] eqn:E; try discriminate. destruct (IH _ _ H) as [H1 H2]. split.
  - intros k [->|Hk]; [|auto]. exists a. split; auto. destruct (in_dec Nat.eq_dec k r) as [Hi|Hi].
    + destruct (H1 k Hi) as (b & Eb & ->). congruence.
    + rewrite H2 by auto. rewrite Nat.eqb_refl. auto.
  - intros k Hk. rewrite H2 by (intros Q; apply Hk; right; auto). destruct (Nat.eqb_spec k i); auto. subst. exfalso; apply Hk; left; auto.
Qed.
Lemma order_all {A} omes (job : nat -> M A) order : forall store, (forall i, In i order -> exists a, fst (job i (omes i) 0%nat) = Ok a) -> exists st, run_in_order omes job order store = Ok st.
Proof.
  induction order as [|i r IH]; intros store H; cbn [run_in_order]; [eauto|]. destruct (H i (or_introl eq_refl)) as [a ->]. apply IH. intros; apply H; right; auto.
Qed.
Lemma schedule_free {A} omes (job : nat -> M A) n order store : Permutation order (seq 0 n) ->
  ((exists l, run_jobs 0 omes (map job (seq 0 n)) = Ok l) <-> (exists st, run_in_order omes job order store = Ok st)) /\
  forall l st, run_jobs 0 omes (map job (seq 0 n)) = Ok l -> run_in_order omes job order store = Ok st -> length l = n /\ forall i, (i < n)%nat -> nth_error l i = st i.
Proof.
  intros HP. assert (HI : forall i, In i order <-> (i < n)%nat).
  { intros i. split; intros H; [apply (Permutation_in _ HP) in H; apply in_seq in H; lia|]. apply (Permutation_in _ (Permutation_sym HP)). apply in_seq. lia. }
  split; [split|].
  - intros [l El]. apply order_all. intros i Hi. apply HI in Hi. destruct (proj2 (run_jobs_nth _ _ _ _ El) i (job i) (nth_map_seq job n i Hi)) as (a & _ & Ea). eauto.
  - intros [st Es]. apply run_jobs_all. intros i j Hj. assert (Hi : (i < n)%nat). { assert (X : nth_error (map job (seq 0 n)) i <> None) by congruence. apply nth_error_Some in X. rewrite map_length, seq_length in X. auto. }
    rewrite nth_map_seq in Hj by auto. inversion Hj; subst. destruct (proj1 (order_nth _ _ _ _ _ Es) i (proj2 (HI i) Hi)) as (a & Ea & _). eauto.
  - intros l st El Es. destruct (run_jobs_nth _ _ _ _ El) as [LL HN]. split; [rewrite LL, map_length, seq_length; auto|]. intros i Hi.
    destruct (HN i (job i) (nth_map_seq job n i Hi)) as (a & -> & Ea). destruct (proj1 (order_nth _ _ _ _ _ Es) i (proj2 (HI i) Hi)) as (b & Eb & ->). simpl in Ea. congruence.
Qed.

Lemma all_ok_nth {A} (l : list (option A)) : forall q, all_ok l = Ok q -> length q = length l /\ forall i, nth_error l i = option_map Some (nth_error q i).
Proof.
  induction l as [|[a|] l IH]; intros q H; simpl in H; try discriminate; [inversion H; split; auto; intros [|i]; auto|].
  destruct (all_ok l) as [r| |] eqn:E; simpl in H; try discriminate. inversion H; subst. destruct (IH r eq_refl) as [L1 L2]. split; [simpl; congruence|]. intros [|i]; simpl; auto.
Qed.
Lemma nth_removelast {A} (l : list A) j : (j < length l - 1)%nat -> nth_error (removelast l) j = nth_error l j.
Proof.
  revert j; induction l as [|a l IH]; intros j H; simpl in H; [lia|]. destruct l as [|b l]; [simpl in H; lia|]. rewrite removelast_cons. destruct j; auto. cbn [nth_error]. apply IH. simpl in *; lia.
Qed.
Lemma assemble_ok parts yt th z' : assemble parts yt = Ok (th, z') ->
  length th = length parts /\ length z' = (length yt - 1)%nat /\
  (forall i p, nth_error parts i = Some p -> nth_error th i = nth_error (snd (fst p)) i /\ nth_error th i <> None) /\
  (forall j y, nth_error yt j = Some y -> (j < length yt - 1)%nat -> exists p, nth_error parts y = Some p /\ nth_error z' j = nth_error (snd p) j /\ nth_error z' j <> None).
Proof.
  intros H. unfold assemble in H. destruct (all_ok _) as [a| |] eqn:E1; simpl in H; try discriminate. destruct (all_ok (map _ (combine _ _))) as [q| |] eqn:E2; simpl in H; try discriminate. inversion H; subst.
  apply all_ok_nth in E1 as [L1 N1]. apply all_ok_nth in E2 as [L2 N2]. rewrite map_length, seq_length in L1. rewrite map_length, combine_length, seq_length, removelast_len, Nat.min_id in L2.
  split; auto. split; auto. split.
  - intros i p Hp. assert (Hi : (i < length parts)%nat) by (apply nth_error_Some; congruence). specialize (N1 i).
    rewrite nth_map_seq in N1 by auto. rewrite Hp in N1. destruct p as [[b thi] zz]. cbn [fst snd].
    destruct (nth_error th i) as [r|] eqn:Er; [|apply nth_error_None in Er; lia]. simpl in N1. inversion N1; split; congruence.
  - intros j y Hy Hj. specialize (N2 j). assert (EC : nth_error (combine (seq 0 (length yt - 1)) (removelast yt)) j = Some (j, y)).
    { clear -Hy Hj. assert (G : forall (l : list nat) s j, (j < length l)%nat -> nth_error (combine (seq s (length l)) l) j = option_map (fun y => ((s + j)%nat, y)) (nth_error l j)).
      { induction l as [|a l IH]; intros s [|k] H; simpl in *; try lia; [rewrite Nat.add_0_r; auto|]. rewrite IH by lia. rewrite Nat.add_succ_comm. auto. }
      rewrite <- removelast_len. rewrite G by (rewrite removelast_len; auto). rewrite nth_removelast by auto. rewrite Hy. auto. }
    erewrite map_nth_error in N2 by eauto. cbn [fst snd] in N2. destruct (nth_error z' j) as [r|] eqn:Er; [|apply nth_error_None in Er; lia].
    simpl in N2. destruct (nth_error parts y) as [[[b thi] zz]|]; inversion N2. exists (b, thi, zz). repeat split; simpl; congruence.
Qed.

Section Local.
Context (fuel mp maxp : nat) (vol : list (list R) -> nat -> R) (disc : list (list R) -> nat -> R -> R)
  (grad : list R -> list R -> R -> R -> R -> R -> R -> list R) (log_prior : list (list R) -> R) (loglik : list (list R) -> anchorage -> option nat -> R * R)
  (batch : nat) (precoin : bool) (pr : R) (maxf : nat).
Notation section p thi z h i := (update_params_section fuel mp maxp vol disc grad log_prior loglik batch precoin pr maxf p thi z h i).
Lemma section_local propose thi z h i o k r : valid o -> sized3 z h -> fst (section propose thi z h i o k) = Ok r ->
  exists q lf lb, fst (propose o k) = Ok (q, lf, lb) /\ let '(acc, thi', z') := r in kept h i z z' /\ thi' = if acc : bool then list_set thi i q else thi.
Proof.
  intros V HS H. rewrite param_section_old in H. unfold bind at 1 in H. destruct (propose o k) as [[[[q lf] lb]|e|] k1] eqn:E; try discriminate.
  exists q, lf, lb. split; [reflexivity|].
  pose proof (param_section_ok anyo fuel mp maxp vol disc grad log_prior loglik batch precoin pr maxf (ret (q, lf, lb)) thi z h i (fun x => x = q) HS ltac:(apply returns_ret; auto) o k1 V I) as X.
  rewrite param_section_old in X. unfold bind at 1, ret at 1 in X. cbv beta iota in X. rewrite H in X. destruct r as [[acc thi'] z']. destruct X as [X1 X2]. split; auto. destruct acc; auto. destruct X2 as (q' & -> & ->). auto.
Qed.
Lemma update_params_local propose omes thi z h accs thi' z' : (forall i, valid (omes i)) -> sized3 z h ->
  update_params fuel mp maxp vol disc grad log_prior loglik batch precoin pr maxf propose omes thi z h = Ok (accs, thi', z') ->
  length accs = length thi /\ length thi' = length thi /\ length z' = length z /\
  (forall j, (j < length z)%nat -> exists i, nth_error (a_y h) j = Some i /\ (i < length thi)%nat) /\
  forall i, (i < length thi)%nat -> exists acc thi_i z_i q lf lb, fst (section (propose i) thi z h i (omes i) 0%nat) = Ok (acc, thi_i, z_i) /\ fst (propose i (omes i) 0%nat) = Ok (q, lf, lb) /\
    nth_error accs i = Some acc /\ nth_error thi' i = (if acc : bool then Some q else nth_error thi i) /\
    (forall j, nth_error (a_y h) j = Some i -> (j < length z)%nat -> nth_error z' j = nth_error z_i j) /\
    (forall j, nth_error (a_y h) j <> Some i -> nth_error z_i j = nth_error z j).
Proof.
  intros V HS H. unfold update_params in H. destruct (run_jobs _ _ _) as [parts| |] eqn:E1; simpl in H; try discriminate. destruct (assemble _ _) as [[th zz]| |] eqn:E2; simpl in H; try discriminate. inversion H; subst. clear H.
  destruct (run_jobs_nth _ _ _ _ E1) as [L1 N1]. rewrite map_length, seq_length in L1. destruct (assemble_ok _ _ _ _ E2) as (A1 & A2 & A3 & A4). destruct HS as (S1 & S2 & S3).
  split; [rewrite map_length; auto|]. split; [congruence|]. split; [lia|]. split.
  - intros j Hj. destruct (nth_error (a_y h) j) as [i|] eqn:Ei; [|apply nth_error_None in Ei; lia]. exists i. split; auto. destruct (A4 j i Ei ltac:(lia)) as (p & Hp & _). rewrite <- L1. apply nth_error_Some. congruence.
  - intros i Hi. destruct (N1 i _ (nth_map_seq (fun i => section (propose i) thi z h i) _ i Hi)) as (p & Hp & Ep). simpl in Ep. destruct (section_local _ _ _ _ _ _ _ _ (V i) (conj S1 (conj S2 S3)) Ep) as (q & lf & lb & Eq & HL).
    destruct p as [[acc thi_i] z_i]. destruct HL as [[K1 K2] ->]. exists acc, (if acc then list_set thi i q else thi), z_i, q, lf, lb.
    split; [exact Ep|]. split; [exact Eq|]. split; [erewrite map_nth_error by eauto; reflexivity|]. split; [|split].
    + destruct (A3 i _ Hp) as [-> _]. cbn [fst snd]. destruct acc; auto. rewrite nth_error_nth' with (d := []) by (rewrite list_set_length; auto). rewrite list_set_nth, Nat.eqb_refl. apply Nat.ltb_lt in Hi. rewrite Hi. auto.
    + intros j Hj Hl. destruct (A4 j i Hj ltac:(lia)) as (p & Hp' & -> & _). rewrite Hp in Hp'. inversion Hp'; subst. auto.
    + exact K2.
Qed.
End Local.

(** ** non-interference *)
Lemma alike_ret {A B} (Q : A -> B -> Prop) a b : Q a b -> alike Q (ret a) (ret b).
Proof. intros H o k. simpl. auto. Qed.
Lemma alike_refl {A} (m : M A) : alike eq m m.
Proof. intros o k. split; auto. destruct (fst (m o k)); auto. Qed.
Lemma alike_raise {A B} (Q : A -> B -> Prop) e : alike Q (raise e) (raise e).
Proof. intros o k. simpl. auto. Qed.
Lemma alike_bind {A B C D} (Q : A -> B -> Prop) (Q' : C -> D -> Prop) m1 m2 f1 f2 : alike Q m1 m2 -> (forall a b, Q a b -> alike Q' (f1 a) (f2 b)) -> alike Q' (bind m1 f1) (bind m2 f2).
Proof.
  intros H HF o k. unfold bind. destruct (H o k) as [E1 E2]. destruct (m1 o k) as [[a|e|] k1], (m2 o k) as [[b|e'|] k2]; simpl in *; subst; try tauto; auto. apply HF; auto.
Qed.
Lemma alike_weaken {A B} (Q Q' : A -> B -> Prop) m1 m2 : alike Q m1 m2 -> (forall a b, Q a b -> Q' a b) -> alike Q' m1 m2.
Proof. intros H HQ o k. destruct (H o k) as [E1 E2]. split; auto. destruct (fst (m1 o k)), (fst (m2 o k)); auto. Qed.
Lemma alike_map_m {A B C D} (P : A -> B -> Prop) (Q : C -> D -> Prop) (f : A -> M C) (g : B -> M D) l m : Forall2 P l m -> (forall a b, P a b -> alike Q (f a) (g b)) -> alike (Forall2 Q) (map_m f l) (map_m g m).
Proof.
  intros H HF. induction H; simpl; [apply alike_ret; constructor|]. eapply alike_bind; [apply HF; eauto|]. intros. eapply alike_bind; [exact IHForall2|]. intros. apply alike_ret. constructor; auto.
Qed.
Lemma alike_loop {A St} (Q : A -> A -> Prop) (I : St -> St -> Prop) (f g : bool -> St -> M ((bool * A) * St)) v pr :
  (forall b s s', I s s' -> alike (fun r r' => fst (fst r) = fst (fst r') /\ Q (snd (fst r)) (snd (fst r')) /\ I (snd r) (snd r')) (f b s) (g b s')) ->
  forall n s s', I s s' -> alike (fun r r' => match fst r, fst r' with Some (a, e, x), Some (a', e', x') => a = a' /\ e = e' /\ Q x x' | None, None => True | _, _ => False end)
    (twocoin_loop (m := M) (@ret) (@bind) o_ulog_lt o_u_lt f v pr (fun p => p) n s) (twocoin_loop (m := M) (@ret) (@bind) o_ulog_lt o_u_lt g v pr (fun p => p) n s').
Proof.
  intros HF. induction n as [|n IH]; intros s s' Hs; cbn [twocoin_loop]; [apply alike_ret; simpl; auto|].
  eapply alike_bind; [apply alike_refl|]. intros b ? <-. eapply alike_bind; [apply HF; eauto|]. intros [[ok x] q] [[ok' x'] q'] (E & HQ & HI). simpl in *. subst ok'.
  destruct ok; [apply alike_ret; simpl; auto|]. eapply alike_bind; [apply alike_refl|]. intros e ? <-. destruct e; [apply alike_ret; simpl; auto|]. apply IH; auto.
Qed.
Section Alike.
Context (fuel mp maxp : nat) (vol : list (list R) -> nat -> R) (disc : list (list R) -> nat -> R -> R)
  (grad : list R -> list R -> R -> R -> R -> R -> R -> list R) (log_prior : list (list R) -> R) (loglik : list (list R) -> anchorage -> option nat -> R * R)
  (batch : nat) (precoin : bool) (pr : R) (maxf : nat).
Lemma ivals_agree (h : anchorage) i (z1 z2 : partition) : sized3 z1 h -> agree_on h i z1 z2 -> Forall2 (fun q q' : R * nat * R * R * M_skel.skel => fst q = fst q' /\ (snd (fst (fst (fst q))) = i -> snd q = snd q')) (ivals h z1) (ivals h z2).
Proof.
  intros _ [L HA]. assert (G : forall (l : list (R * nat * R * R)) (y1 y2 : partition), length y1 = length y2 -> (forall j q, nth_error l j = Some q -> snd (fst (fst q)) = i -> nth_error y1 j = nth_error y2 j) ->
    Forall2 (fun q q' : R * nat * R * R * M_skel.skel => fst q = fst q' /\ (snd (fst (fst (fst q))) = i -> snd q = snd q')) (combine l y1) (combine l y2)).
  { clear. induction l as [|q l IH]; intros [|a y1] [|b y2] E H; try discriminate; simpl; try constructor.
    - simpl. split; auto. intros Hq. specialize (H 0%nat q eq_refl Hq). simpl in H. congruence.
    - apply IH; [simpl in E; lia|]. intros j q' Hj. apply (H (S j)); auto. }
  apply G; auto. intros j [[[dt y] v0] v1] Hj Hy. simpl in Hy. subst. apply HA. unfold zip4 in Hj. apply nth_combine_some in Hj as [Hj _]. apply nth_combine_some in Hj as [Hj _]. apply nth_combine_some in Hj as [_ Hj]. simpl in Hj. auto.
Qed.
Lemma sized_agree h i (z1 z2 : partition) : sized3 z1 h -> agree_on h i z1 z2 -> sized3 z2 h.
Proof. intros H [E _]. unfold sized3 in *. rewrite <- E. auto. Qed.
Lemma flip_alike thi thi' h up i z1 z2 : sized3 z1 h -> agree_on h i z1 z2 ->
  alike (fun r r' => fst r = fst r' /\ sized3 (snd r) h /\ agree_on h i (snd r) (snd r')) (flip_param_coins fuel mp maxp vol disc grad batch thi thi' z1 h up i) (flip_param_coins fuel mp maxp vol disc grad batch thi thi' z2 h up i).
Proof.
  intros HS HA. pose proof (sized_agree _ _ _ _ HS HA) as HS2. unfold flip_param_coins.
  set (body := fun p : R * nat * R * R * M_skel.skel => _).
  assert (HM : alike (fun rs rs' => length rs = length (ivals h z1) /\ Forall2 (fun r r' => fst r = fst r') rs rs' /\ forall j, nth_error (a_y h) j = Some i -> nth_error rs j = nth_error rs' j) (map_m body (ivals h z1)) (map_m body (ivals h z2))).
  { assert (GG : forall l m, Forall2 (fun q q' : R * nat * R * R * M_skel.skel => fst q = fst q' /\ (snd (fst (fst (fst q))) = i -> snd q = snd q')) l m ->
      alike (fun rs rs' => length rs = length l /\ Forall2 (fun r r' => fst r = fst r') rs rs' /\ forall j q, nth_error l j = Some q -> snd (fst (fst (fst q))) = i -> nth_error rs j = nth_error rs' j) (map_m body l) (map_m body m)).
    { clear. intros l m H. induction H as [|[[[[dt y] v0] v1] s] [[[[dt' y'] v0'] v1'] s'] l m [E1 E2] H IH]; simpl map_m; [apply alike_ret; repeat split; auto|].
      cbn [fst snd] in E1, E2. inversion E1; subst. eapply alike_bind with (Q := fun r r' => fst r = fst r' /\ (y' = i -> r = r')).
      - unfold body. destruct (Nat.eqb_spec y' i); [rewrite E2 by auto; eapply alike_weaken; [apply alike_refl|]; intros a ? <-; auto|apply alike_ret; split; auto; congruence].
      - intros a a' [Ha Ha']. eapply alike_bind; [exact IH|]. intros rs rs' (R1 & R2 & R3). apply alike_ret. split; [simpl; congruence|]. split; [constructor; auto|]. intros [|j] q Hj Hq; simpl in Hj.
        + injection Hj as <-. simpl in Hq. simpl. rewrite Ha'; auto.
        + simpl. eauto. }
    eapply alike_weaken; [apply GG, (ivals_agree h i z1 z2 HS HA)|]. intros rs rs' (R1 & R2 & R3). split; auto. split; auto. intros j Hj.
    destruct (nth_error (ivals h z1) j) as [q|] eqn:Eq.
    - apply (R3 j q Eq). apply ivals_nth in Eq. destruct q as [[[[? y] ?] ?] ?]. simpl. destruct Eq as (_ & Ey & _). congruence.
    - apply nth_error_None in Eq. rewrite (proj2 (nth_error_None rs j)) by lia. symmetry. apply nth_error_None. apply Forall2_length in R2. lia. }
  eapply alike_bind; [exact HM|]. intros rs rs' (L & F & N). rewrite ivals_len in L by auto. pose proof (Forall2_length _ _ _ F) as LF.
  unfold collect_coins. destruct rs as [|r rs], rs' as [|r' rs']; try discriminate; [apply alike_raise|]. apply alike_ret. cbn [fst snd].
  remember (r :: rs) as l. remember (r' :: rs') as l'. clear Heql Heql'. split; [|split].
  - clear -F. induction F; simpl; auto. rewrite H, IHF. auto.
  - unfold sized3 in *. rewrite map_length, L. auto.
  - split; [rewrite !map_length; auto|]. intros j Hj. rewrite !nth_error_map. rewrite N by auto. auto.
Qed.
Lemma section_alike propose thi h i z1 z2 : sized3 z1 h -> agree_on h i z1 z2 ->
  alike (fun r r' => fst r = fst r' /\ agree_on h i (snd r) (snd r'))
    (update_params_section fuel mp maxp vol disc grad log_prior loglik batch precoin pr maxf propose thi z1 h i) (update_params_section fuel mp maxp vol disc grad log_prior loglik batch precoin pr maxf propose thi z2 h i).
Proof.
  intros HS HA. rewrite !param_section_old. eapply alike_bind; [apply alike_refl|]. intros [[q lf] lb] ? <-. cbv zeta.
  set (flip := fun (first : bool) (s : partition) => _).
  assert (HR : forall w1 w2 : R, alike (fun r r' => fst r = fst r' /\ agree_on h i (snd r) (snd r'))
    (do r <- sample_twocoin_joint flip (fun s => ret s) w1 w2 pr maxf z1; let '((accept, _, z_acc), _) := r in ret (accept, if (accept : bool) then list_set thi i q else thi, z_acc))
    (do r <- sample_twocoin_joint flip (fun s => ret s) w1 w2 pr maxf z2; let '((accept, _, z_acc), _) := r in ret (accept, if (accept : bool) then list_set thi i q else thi, z_acc))).
  { intros w1 w2. eapply alike_bind with (Q := fun r r' => fst (fst (fst r)) = fst (fst (fst r')) /\ agree_on h i (snd (fst r)) (snd (fst r'))).
    - unfold sample_twocoin_joint, twocoin_joint. eapply alike_bind with (Q := fun r r' => match fst r, fst r' with Some (a, e, x), Some (a', e', x') => a = a' /\ e = e' /\ agree_on h i x x' | None, None => True | _, _ => False end).
      + eapply alike_bind with (Q := fun s s' => sized3 s h /\ agree_on h i s s'); [apply alike_ret; auto|]. intros s s' Hs.
        apply alike_loop with (I := fun s s' => sized3 s h /\ agree_on h i s s'); auto. intros b u u' [U1 U2]. unfold flip.
        eapply alike_bind; [apply flip_alike; eauto|]. intros r r' (E1 & E2 & E3). apply alike_ret. cbn [fst snd]. auto.
      + intros [[[[a e] x]|] u] [[[[a' e'] x']|] u'] H; cbn [fst] in H; try tauto; [|apply alike_raise]. destruct H as (-> & -> & H). apply alike_ret. cbn [fst snd]. auto.
    - intros [[[a e] x] u] [[[a' e'] x'] u'] [E H]. cbn [fst snd] in *. subst a'. apply alike_ret. cbn [fst snd]. auto. }
  destruct precoin; [|apply HR]. eapply alike_bind; [apply alike_refl|]. intros b ? <-. destruct b; [apply HR|]. apply alike_ret. cbn [fst snd]. auto.
Qed.
End Alike.
