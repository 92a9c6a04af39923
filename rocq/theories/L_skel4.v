(** Lemmas: flipped skeletons, interpolated skeletons, histories of requests. *)
From Coq Require Import Reals List Bool Arith Lia Lra Psatz Sorted.
From Verif Require Import Base Np Rng L_list L_rng L_bridge L_ars L_prop M_mjp M_hit M_path SpecPath L_sde L_sde2 M_skel SpecSkel L_skel L_skel2 L_skel3.
Import ListNotations.
Local Open Scope R_scope.

Definition mirror_sum (s : skel) : R := nth 0 (k_x s) 0 + last (k_x s) 0.
Definition flip_of (s : skel) : skel :=
  mk_skel (map (fun u => horizon s - u) (rev (k_t s))) (map (fun v => mirror_sum s - v) (rev (k_x s)))
    (mirror_sum s - k_tight s) (mirror_sum s - k_loose s) (mirror_sum s - k_hit s) (option_map (@rev bool) (k_hit_i s)).

Lemma last_opt_last {A} (l : list A) d : l <> [] -> last_opt l = Some (last l d).
Proof. intros H. destruct (exists_last H) as (r & a & ->). now rewrite last_opt_app, last_last. Qed.
Lemma last_nth {A} (l : list A) d : last l d = nth (length l - 1) l d.
Proof.
  induction l as [|a l IH]; auto. destruct l as [|b l]; auto. change (last (a :: b :: l) d) with (last (b :: l) d). rewrite IH. cbn [length].
  replace (S (S (length l)) - 1)%nat with (S (S (length l) - 1))%nat by lia. reflexivity.
Qed.
Lemma sorted_range l s : StronglySorted Rlt l -> In s l -> nth 0 l 0 <= s <= last l 0.
Proof.
  intros HS H. destruct (In_nth l s 0 H) as (i & Hi & <-). rewrite last_nth. split; apply sorted_ends; auto; lia.
Qed.
Lemma combine_rev {A B} (l : list A) (m : list B) : length m = length l -> rev (combine l m) = combine (rev l) (rev m).
Proof.
  revert m. induction l as [|a l IH]; intros [|b m] H; try discriminate; auto. cbn [combine rev]. rewrite IH by (simpl in H; lia).
  rewrite combine_app' by (rewrite !rev_length; simpl in H; lia). reflexivity.
Qed.
Section Flip.
Variable s : skel.
Hypothesis LN : length (k_x s) = length (k_t s).
Hypothesis ST : StronglySorted Rlt (k_t s).
Hypothesis Z0 : nth 0 (k_t s) 1 = 0.
Hypothesis TWO : (2 <= length (k_t s))%nat.
Lemma start0 : nth 0 (k_t s) 0 = 0.
Proof. rewrite <- Z0. apply nth_indep. lia. Qed.
Lemma range0 : in_range (horizon s) (k_t s).
Proof. apply Forall_forall. intros u Hu. rewrite <- start0 at 1. now apply sorted_range. Qed.
Lemma horizon_pos : 0 < horizon s.
Proof. unfold horizon. rewrite last_nth. rewrite <- start0 at 1. apply sorted_nth_lt; auto. lia. Qed.
Lemma flip_eq : flip_skeleton s = Ok (flip_of s).
Proof.
  unfold flip_skeleton. rewrite (nth_error_nth' (k_x s) 0) by lia. rewrite !(last_opt_last _ 0) by (intros E; rewrite ?E in *; simpl in *; lia).
  fold (horizon s). rewrite reverse_ok by (try apply range0; apply Rlt_le, horizon_pos). unfold rbind. cbn [fst snd].
  assert (NN : map (fun u => horizon s - u) (rev (k_t s)) <> []). { intros E. apply map_eq_nil in E. apply (f_equal (@length R)) in E. rewrite rev_length in E. simpl in E. lia. }
  assert (RR := reverse_range _ _ range0).
  assert (RE : forall x c, reflect (Some (map (fun u => horizon s - u) (rev (k_t s)))) x c = Ok (Some (map (fun u => horizon s - u) (rev (k_t s))), map (fun v => 2 * c - v) x)).
  { intros x c. unfold reflect. destruct (map (fun u => horizon s - u) (rev (k_t s))) as [|a r] eqn:E; [easy|].
    rewrite (proj2 (Rleb_true _ _)); auto. destruct (np_min_from_mem a r) as [->|H]; unfold in_range in RR; rewrite Forall_forall in RR; apply RR; [now left|now right]. }
  rewrite RE. cbn [reflect fst snd hd map]. unfold flip_of, mirror_sum.
  assert (X : forall a b : R, 2 * ((a + b) / 2) = a + b) by (intros; field).
  rewrite !X. now destruct (k_hit_i s).
Qed.
Lemma flip_len : length (k_t (flip_of s)) = length (k_t s) /\ length (k_x (flip_of s)) = length (k_x s).
Proof. cbn [flip_of k_t k_x]. now rewrite !map_length, !rev_length. Qed.
Lemma flip_nth_t i : (i < length (k_t s))%nat -> nth i (k_t (flip_of s)) 0 = horizon s - nth (length (k_t s) - S i) (k_t s) 0.
Proof. intros H. cbn [flip_of k_t]. rewrite (nth_map_lt (fun u => horizon s - u) _ _ 0) by (rewrite rev_length; auto). now rewrite rev_nth. Qed.
Lemma flip_nth_x i : (i < length (k_t s))%nat -> nth i (k_x (flip_of s)) 0 = mirror_sum s - nth (length (k_t s) - S i) (k_x s) 0.
Proof. intros H. cbn [flip_of k_x]. rewrite (nth_map_lt (fun u => mirror_sum s - u) _ _ 0) by (rewrite rev_length; lia). rewrite rev_nth by lia. now rewrite LN. Qed.
Lemma flip_start : nth 0 (k_t (flip_of s)) 1 = 0.
Proof.
  rewrite (nth_indep _ 1 0) by (rewrite (proj1 flip_len); lia). rewrite flip_nth_t by lia. unfold horizon. rewrite last_nth. replace (length (k_t s) - 1)%nat with (length (k_t s) - 1)%nat by lia. lra.
Qed.
Lemma flip_sorted : StronglySorted Rlt (k_t (flip_of s)).
Proof. apply reverse_sorted, ST. Qed.
Lemma flip_horizon : horizon (flip_of s) = horizon s.
Proof. unfold horizon at 1. rewrite last_nth, (proj1 flip_len), flip_nth_t by lia. replace (length (k_t s) - S (length (k_t s) - 1))%nat with 0%nat by lia. rewrite start0. lra. Qed.
Lemma flip_first : nth 0 (k_x (flip_of s)) 0 = nth 0 (k_x s) 0.
Proof. rewrite flip_nth_x by lia. unfold mirror_sum. rewrite last_nth, LN. lra. Qed.
Lemma flip_last : last (k_x (flip_of s)) 0 = last (k_x s) 0.
Proof. rewrite last_nth, (proj2 flip_len), LN, flip_nth_x by lia. unfold mirror_sum. replace (length (k_t s) - S (length (k_t s) - 1))%nat with 0%nat by lia. lra. Qed.
Lemma flip_mirror : mirror_sum (flip_of s) = mirror_sum s.
Proof. unfold mirror_sum at 1. now rewrite flip_first, flip_last. Qed.
Lemma flip_flip : flip_of (flip_of s) = s.
Proof.
  unfold flip_of at 1. rewrite flip_mirror, flip_horizon. destruct s as [t x ti lo hi hh]. cbn [flip_of k_t k_x k_tight k_loose k_hit k_hit_i].
  f_equal; try lra.
  - rewrite <- map_rev, rev_involutive, map_map. rewrite (map_ext _ (fun u => u)) by (intros; lra). apply map_id.
  - rewrite <- map_rev, rev_involutive, map_map. rewrite (map_ext _ (fun u => u)) by (intros; lra). apply map_id.
  - destruct hh as [h|]; cbn [option_map]; auto. now rewrite rev_involutive.
Qed.
Lemma flip_stores u v : at_time s u v <-> at_time (flip_of s) (horizon s - u) (mirror_sum s - v).
Proof.
  unfold at_time, stores. cbn [flip_of k_t k_x].
  assert (E : combine (map (fun u => horizon s - u) (rev (k_t s))) (map (fun v => mirror_sum s - v) (rev (k_x s))) = map (fun p => (horizon s - fst p, mirror_sum s - snd p)) (rev (combine (k_t s) (k_x s)))).
  { rewrite (combine_rev (k_t s) (k_x s)) by auto. generalize (rev (k_t s)) (rev (k_x s)). induction l as [|a l IH]; intros [|b m]; cbn [map combine]; auto. now rewrite IH. }
  rewrite E, in_map_iff. split.
  - intros H. exists (u, v). split; auto. now apply in_rev in H.
  - intros ([u' v'] & EQ & H). cbn [fst snd] in EQ. injection EQ as E1 E2. apply in_rev in H. replace u with u' by lra. replace v with v' by lra. exact H.
Qed.
End Flip.
Lemma flags_rev_refine T t h t' h' : S (length h) = length t -> S (length h') = length t' -> flags_refine t h t' h' ->
  flags_refine (map (fun u => T - u) (rev t)) (rev h) (map (fun u => T - u) (rev t')) (rev h').
Proof.
  assert (NR : forall (t : list R) i, (i < length t)%nat -> nth i (map (fun u => T - u) (rev t)) 0 = T - nth (length t - S i) t 0).
  { intros l i Hi. rewrite (nth_map_lt (fun u => T - u) _ _ 0) by (rewrite rev_length; auto). now rewrite rev_nth. }
  assert (NB : forall (h : list bool) i b, nth_error (rev h) i = Some b -> (i < length h)%nat /\ nth_error h (length h - S i) = Some b).
  { intros l i b H. assert (Hi : (i < length l)%nat) by (rewrite <- rev_length; apply nth_error_Some; rewrite H; discriminate). split; auto.
    rewrite (nth_error_nth' l false) by lia. rewrite (nth_error_nth' (rev l) false) in H by (rewrite rev_length; auto). rewrite rev_nth in H by auto. exact H. }
  assert (NB' : forall (h : list bool) i b, nth_error h i = Some b -> (i < length h)%nat /\ nth_error (rev h) (length h - S i) = Some b).
  { intros l i b H. rewrite <- (rev_involutive l) in H. apply NB in H. rewrite rev_length in H. exact H. }
  intros L1 L2 [F1 F2]. split.
  - intros j Hj. apply NB in Hj as [Lj Hj]. destruct (F1 _ Hj) as (i & Hi & B1 & B2). apply NB' in Hi as [Li Hi]. exists (length h' - S i)%nat. split; auto.
    rewrite !NR by lia. replace (length t - S j)%nat with (S (length h - S j)) by lia. replace (length t - S (S j))%nat with (length h - S j)%nat by lia.
    replace (length t' - S (length h' - S i))%nat with (S i) by lia. replace (length t' - S (S (length h' - S i)))%nat with i by lia. lra.
  - intros j Hj. apply NB in Hj as [Lj Hj]. destruct (F2 _ Hj) as (i & Hi & B1 & B2). apply NB' in Hi as [Li Hi]. exists (length h - S i)%nat. split; auto.
    rewrite !NR by lia. replace (length t' - S j)%nat with (S (length h' - S j)) by lia. replace (length t' - S (S j))%nat with (length h' - S j)%nat by lia.
    replace (length t - S (length h - S i))%nat with (S i) by lia. replace (length t - S (S (length h - S i)))%nat with i by lia. lra.
Qed.

Lemma flip_wf s : well_formed s -> well_formed (flip_of s).
Proof.
  intros [LN ST Z0 TWO SD VA HT]. assert (FL := flip_len s). destruct FL as [FL1 FL2]. constructor.
  - lia.
  - now apply flip_sorted.
  - now apply flip_start.
  - lia.
  - cbn [flip_of k_tight k_loose k_hit]. destruct SD; [right|left]; lra.
  - intros v Hv. cbn [flip_of k_x k_tight k_loose] in *. apply in_map_iff in Hv as (w & <- & Hw). apply in_rev in Hw. destruct (VA w Hw) as [V1 V2]. split; intros C; [destruct V2|destruct V1]; lra.
  - intros h' E. cbn [flip_of k_hit_i] in E. destruct (k_hit_i s) as [h|] eqn:EH; [|discriminate]. injection E as <-. destruct (HT h eq_refl) as [L F].
    rewrite rev_length. split; [lia|]. intros i Hi.
    assert (Li : (i < length h)%nat) by (rewrite <- rev_length; apply nth_error_Some; rewrite Hi; discriminate).
    rewrite (nth_error_nth' (rev h) false) in Hi by (rewrite rev_length; auto). rewrite rev_nth in Hi by auto.
    assert (Hi' : nth_error h (length h - S i) = Some false) by (rewrite (nth_error_nth' h false) by lia; auto).
    destruct (F _ Hi') as [F1 F2]. rewrite !flip_nth_x by lia. cbn [flip_of k_tight k_loose k_hit].
    replace (length (k_t s) - S i)%nat with (S (length h - S i)) by lia. replace (length (k_t s) - S (S i))%nat with (length h - S i)%nat by lia.
    split; intros C; [destruct F2|destruct F1]; lra.
Qed.
Lemma flip_statement s : well_formed s -> exists s', flip_skeleton s = Ok s' /\ flip_skeleton s' = Ok s /\ well_formed s' /\ horizon s' = horizon s /\
  nth 0 (k_x s') 0 = nth 0 (k_x s) 0 /\ last (k_x s') 0 = last (k_x s) 0 /\
  (let c := nth 0 (k_x s) 0 + last (k_x s) 0 in
   k_tight s + k_tight s' = c /\ k_loose s + k_loose s' = c /\ k_hit s + k_hit s' = c /\
   (forall u v, at_time s u v <-> at_time s' (horizon s - u) (c - v))) /\
  (k_tight s < k_loose s <-> k_loose s' < k_tight s') /\
  match k_hit_i s with None => k_hit_i s' = None | Some h => k_hit_i s' = Some (rev h) end.
Proof.
  intros W. assert (W0 := W). destruct W0 as [LN ST Z0 TWO SD VA HT]. exists (flip_of s). split; [now apply flip_eq|].
  assert (W' := flip_wf s W). assert (W1 := W'). destruct W1 as [LN' ST' Z0' TWO' _ _ _].
  split; [rewrite flip_eq by auto; now rewrite flip_flip|]. split; auto. split; [now apply flip_horizon|]. split; [now apply flip_first|]. split; [now apply flip_last|].
  split; [cbn [flip_of k_tight k_loose k_hit]; unfold mirror_sum; repeat split; try lra; apply flip_stores; auto|].
  split; [cbn [flip_of k_tight k_loose]; split; lra|]. cbn [flip_of k_hit_i]. now destruct (k_hit_i s).
Qed.

(** ** interpolation *)
Lemma nth_stores t x i : length x = length t -> (i < length t)%nat -> stores t x (nth i t 0) (nth i x 0).
Proof. intros L H. unfold stores. rewrite <- (combine_nth t x i 0 0) by auto. apply nth_In. rewrite combine_length. lia. Qed.
Lemma forall2_positions t x new pos : length x = length t -> Forall (fun i => (i < length t)%nat) pos -> map (fun i => nth i t 0) pos = new -> Forall2 (stores t x) new (map (fun i => nth i x 0) pos).
Proof. intros L F <-. induction F; cbn [map]; constructor; auto. now apply nth_stores. Qed.
Lemma extends_refl s : extends s s.
Proof. repeat split; auto. Qed.
Lemma stores_fun t x u v w : StronglySorted Rlt t -> stores t x u v -> stores t x u w -> v = w.
Proof.
  unfold stores. intros HS H1 H2. apply (In_nth _ _ (0, 0)) in H1 as (i & Li & E1), H2 as (j & Lj & E2). rewrite combine_length in Li, Lj.
  assert (NC : forall k, (k < Nat.min (length t) (length x))%nat -> nth k (combine t x) (0, 0) = (nth k t 0, nth k x 0)).
  { clear. revert x. induction t as [|a t IH]; intros [|b x] [|k] H; cbn in *; auto; try lia. apply IH. lia. }
  rewrite NC in E1, E2 by lia. injection E1 as T1 V1. injection E2 as T2 V2. subst v w. f_equal.
  destruct (Nat.lt_trichotomy i j) as [L|[L|L]]; auto; exfalso; [assert (Z := sorted_nth_lt t i j HS ltac:(lia))|assert (Z := sorted_nth_lt t j i HS ltac:(lia))]; lra.
Qed.
(** the result of filling, for an unflipped skeleton *)
Lemma fill_low fuel mp n s new : well_formed s -> StronglySorted Rlt new -> new <> [] -> k_tight s < k_loose s ->
  returns_if anyo (fill_wiener_outer fuel mp n (k_t s) (k_x s) new (k_tight s) (Some (k_loose s)) (Some (k_hit s)) (k_hit_i s)) (fun r => let '(t', x', pos, h') := r in
    let s' := mk_skel t' x' (k_tight s) (k_loose s) (k_hit s) h' in
    interpolated s new (s', map (fun i => nth i x' 0) pos) /\ map (fun i => nth i t' 0) pos = new /\ Forall (fun i => (i < length t')%nat) pos).
Proof.
  intros W SN NE TL. assert (W0 := W). destruct W0 as [LN ST Z0 TWO SD VA HT].
  assert (S0 := start0 s LN Z0 TWO).
  eapply returns_weaken; [apply outer_returns; auto|].
  - repeat split; auto; lra.
  - unfold hits_given. destruct (k_hit_i s) as [h|] eqn:EH; auto. exists (k_hit s). split; auto. destruct (HT h eq_refl) as [L F]. split; auto. intros i Hi. now apply (F i Hi).
  - intros [[[t' x'] pos] h'] (F & V & RG & HK). destruct F as (PP' & IN' & KEEP & PM & PR). assert (PQ := PP'). destruct PQ as (LN' & ST' & TWO' & P0').
    assert (FST : nth 0 t' 0 = 0).
    { assert (In (nth 0 t' 0) t') by (apply nth_In; lia). apply IN' in H. assert (Z : In 0 t'). { apply IN'. left. rewrite <- S0. apply nth_In. lia. }
      apply (sorted_range t' 0 ST') in Z. lra. }
    assert (LST : last t' 0 = last (k_t s) 0).
    { assert (I1 : In (last t' 0) t') by (rewrite last_nth; apply nth_In; lia). assert (I2 : In (last (k_t s) 0) t') by (apply IN'; left; rewrite last_nth; apply nth_In; lia).
      apply (sorted_range t' _ ST') in I2. apply IN' in I1 as [I1|I1]; [apply (sorted_range _ _ ST) in I1; lra|apply RG in I1; lra]. }
    assert (W' : well_formed (mk_skel t' x' (k_tight s) (k_loose s) (k_hit s) h')).
    { constructor; cbn [k_t k_x k_tight k_loose k_hit k_hit_i]; auto.
      - rewrite (nth_indep _ 1 0) by lia. exact FST.
      - intros v Hv. apply V in Hv as [V1 V2]. simpl in V2. split; intros; lra.
      - intros h E. destruct HK as [(_ & -> & -> & ->)|(_ & HK)]; [discriminate|]. unfold hits_kept in HK. destruct (k_hit_i s) as [h0|]; [|congruence].
        destruct HK as (K & h2 & EK & E2 & [FO1 FO2] & _). injection EK as <-. rewrite E in E2. injection E2 as <-. split; auto. intros i Hi. split; [intros _; now apply FO2|intros; lra]. }
    split; [|split; auto]. unfold interpolated. cbn [fst snd]. split; auto.
    split; [|split; [exact IN'|split; [now apply forall2_positions|split]]].
    + repeat split; auto.
      * apply (stores_fun t' x' 0); auto; [rewrite <- FST at 1; apply nth_stores; auto; lia|]. apply KEEP. rewrite <- S0 at 1. apply nth_stores; auto; lia.
      * rewrite !last_nth. cbn [k_x]. apply (stores_fun t' x' (last t' 0)); auto; [rewrite last_nth, LN'; apply nth_stores; auto; lia|]. rewrite LST. apply KEEP.
        rewrite last_nth, LN. apply nth_stores; auto; lia.
    + intros u Hu. rewrite <- S0. unfold horizon. now apply RG.
    + unfold hits_after. cbn [k_hit_i k_t]. unfold hits_kept in HK. destruct (k_hit_i s) as [h|].
      * destruct HK as [(AP & -> & -> & ->)|(NP & K & h2 & EK & E2 & FO & FR)]; [left; split; auto|right; split; auto; exists h2; auto].
      * destruct HK as [(AP & -> & -> & ->)|(NP & ->)]; auto.
Qed.
Lemma forall2_flip (P Q : R -> R -> Prop) l m c d : (forall u v, P u v -> Q (c - u) (d - v)) -> Forall2 P (map (fun u => c - u) (rev l)) m -> Forall2 Q l (map (fun v => d - v) (rev m)).
Proof.
  intros H F. assert (G : Forall2 Q (map (fun u => c - u) (map (fun u => c - u) (rev l))) (map (fun v => d - v) m)).
  { induction F; cbn [map]; constructor; auto. }
  rewrite map_map in G. rewrite (map_ext _ (fun u => u)) in G by (intros; lra). rewrite map_id in G.
  assert (RV : forall l m, Forall2 Q l m -> Forall2 Q (rev l) (rev m)).
  { clear. intros l m F. induction F; cbn [rev]; [constructor|]. apply Forall2_app; auto. }
  apply RV in G. rewrite rev_involutive, <- map_rev in G. exact G.
Qed.
Lemma interpolate_returns fuel mp n s new : well_formed s -> StronglySorted Rlt new -> returns_if anyo (interpolate_skeleton fuel mp n s new) (interpolated s new).
Proof.
  intros W SN. assert (W0 := W). destruct W0 as [LN ST Z0 TWO SD VA HT]. unfold interpolate_skeleton. destruct new as [|n0 nr] eqn:EN.
  - apply returns_ret. unfold interpolated. cbn [fst snd]. split; auto. split; [apply extends_refl|]. split; [simpl; tauto|]. split; [constructor|]. split; [easy|].
    unfold hits_after. destruct (k_hit_i s); auto. left. split; [easy|]. left. auto.
  - rewrite <- EN in *. assert (NE : new <> []) by (rewrite EN; discriminate). clear EN.
    destruct (Rltb_dec (k_tight s) (k_loose s)) as [[TL ->]|[TL ->]].
    + eapply returns_bind; [apply fill_low; auto|]. intros [[[t' x'] pos] h'] (H & _). apply returns_ret. exact H.
    + assert (LT : k_loose s < k_tight s) by (destruct SD; lra).
      eapply returns_bind; [apply (returns_lift anyo _ (fun f => f = flip_of s)); rewrite flip_eq by auto; congruence|]. intros f ->.
      eapply returns_bind; [apply (returns_lift_opt anyo _ _ (fun T => T = horizon s)); rewrite (last_opt_last _ 0) by (intros E; rewrite E in TWO; simpl in TWO; lia); unfold horizon; congruence|]. intros T ->.
      eapply returns_bind; [apply (returns_lift anyo _ (fun r => fst r = map (fun u => horizon s - u) (rev new)))|].
      { intros r E. unfold reverse in E. destruct new; [easy|]. destruct (negb _); [discriminate|]. destruct (Rleb _ _); [|discriminate]. injection E as <-. reflexivity. }
      intros r ER. rewrite ER. assert (WF := flip_wf s W).
      eapply returns_bind.
      { apply fill_low; auto; [now apply reverse_sorted|intros E; apply map_eq_nil in E; apply (f_equal (@rev R)) in E; rewrite rev_involutive in E; auto|cbn [flip_of k_tight k_loose]; lra]. }
      intros [[[t' x'] pos] h'] (IT & PM & PR). destruct IT as (W2 & EX & IN2 & F2 & RG2 & HA). cbn [fst snd] in *.
      set (s2 := mk_skel t' x' (k_tight (flip_of s)) (k_loose (flip_of s)) (k_hit (flip_of s)) h') in *.
      assert (W20 := W2). destruct W20 as [LN2 ST2 Z02 TWO2 SD2 VA2 HT2].
      eapply returns_bind; [apply (returns_lift anyo _ (fun f => f = flip_of s2)); rewrite flip_eq by auto; congruence|]. intros g ->. apply returns_ret.
      assert (HZ : horizon s2 = horizon s). { destruct EX as (_ & _ & _ & E & _). rewrite E. now apply flip_horizon. }
      assert (MS : mirror_sum s2 = mirror_sum s). { destruct EX as (_ & _ & _ & _ & E1 & E2 & _). unfold mirror_sum at 1. rewrite E1, E2, flip_first, flip_last; auto. }
      assert (XS : map (fun i => nth (length t' - 1 - i) (k_x (flip_of s2)) 0) (rev pos) = map (fun v => mirror_sum s - v) (rev (map (fun i => nth i x' 0) pos))).
      { rewrite <- map_rev, map_map. apply map_ext_in. intros i Hi. apply in_rev in Hi. rewrite Forall_forall in PR. specialize (PR i Hi).
        rewrite flip_nth_x by (auto; cbn [s2 k_t]; lia). rewrite MS. f_equal. cbn [s2 k_t k_x]. f_equal. lia. }
      unfold interpolated. cbn [fst snd]. rewrite XS. split; [now apply flip_wf|]. split; [|split; [|split; [|split]]].
      * destruct EX as (E1 & E2 & E3 & E4 & E5 & E6 & E7). unfold extends. rewrite !flip_horizon by auto. rewrite !flip_first, !flip_last by auto.
        cbn [flip_of k_tight k_loose k_hit] in *. rewrite MS, E1, E2, E3. repeat split; try lra; try congruence.
        -- rewrite E5. now apply flip_first.
        -- rewrite E6. now apply flip_last.
        -- intros u v H. fold (at_time (flip_of s2) u v). assert (H1 := proj1 (flip_stores s LN u v) H). apply E7 in H1.
           apply (proj1 (flip_stores s2 LN2 _ _)) in H1. rewrite HZ, MS in H1. replace (horizon s - (horizon s - u)) with u in H1 by lra. replace (mirror_sum s - (mirror_sum s - v)) with v in H1 by lra. exact H1.
      * assert (IM : forall c l u, In u (map (fun w => c - w) (rev l)) <-> In (c - u) l).
        { intros c l u. rewrite in_map_iff. split; [intros (w & <- & Hw); apply in_rev in Hw; now replace (c - (c - w)) with w by lra|].
          intros H. exists (c - u). split; [lra|now apply in_rev in H]. }
        intros u. cbn [flip_of k_t]. rewrite HZ. rewrite IM. rewrite IN2. cbn [flip_of k_t]. rewrite !IM. now replace (horizon s - (horizon s - u)) with u by lra.
      * eapply forall2_flip; [|exact F2]. intros u v H. apply (proj1 (flip_stores s2 LN2 _ _)) in H. now rewrite HZ, MS in H.
      * intros u Hu. assert (H : In (horizon s - u) (map (fun u => horizon s - u) (rev new))) by (apply in_map_iff; exists u; split; auto; now apply in_rev in Hu).
        apply RG2 in H. rewrite flip_horizon in H by auto. lra.
      * assert (IM : forall c l u, In u (map (fun w => c - w) (rev l)) <-> In (c - u) l).
        { intros c l u. rewrite in_map_iff. split; [intros (w & <- & Hw); apply in_rev in Hw; now replace (c - (c - w)) with w by lra|].
          intros H. exists (c - u). split; [lra|now apply in_rev in H]. }
        unfold hits_after in *. cbn [flip_of k_hit_i s2] in *. destruct (k_hit_i s) as [h|]; cbn [option_map] in *; [|now rewrite HA].
        destruct HA as [(AP & HA)|((u & Hu & NU) & h2 & E2 & FR)].
        -- left. split; [intros u Hu; specialize (AP (horizon s - u)); cbn [flip_of k_t] in AP; rewrite !IM in AP; replace (horizon s - (horizon s - u)) with u in AP by lra; auto|].
           right. split; auto. destruct HA as [[E _]|[_ ->]]; auto. apply map_eq_nil in E. apply (f_equal (@rev R)) in E. rewrite rev_involutive in E. easy.
        -- right. cbn [flip_of k_t] in Hu, NU; rewrite IM in Hu, NU. split; [exists (horizon s - u); auto|]. rewrite E2. cbn [option_map]. exists (rev h2). split; auto.
            assert (L1 : S (length h2) = length t') by (destruct (HT2 h2 E2); auto).
           assert (W3 := flip_wf s W). destruct W3 as [_ _ _ _ _ _ HT3].
           apply (flags_rev_refine (horizon s)) in FR; auto; [|cbn [flip_of k_t]; rewrite map_length, !rev_length; destruct (HT h eq_refl); auto].
           cbn [flip_of k_t] in FR. rewrite rev_involutive in FR. rewrite <- map_rev, rev_involutive, map_map in FR. rewrite (map_ext _ (fun u => u)) in FR by (intros; lra). rewrite map_id in FR.
           cbn [flip_of k_t]. rewrite HZ. exact FR.
Qed.
Lemma extends_trans a b c : extends a b -> extends b c -> extends a c.
Proof. intros (A1 & A2 & A3 & A4 & A5 & A6 & A7) (B1 & B2 & B3 & B4 & B5 & B6 & B7). repeat split; try congruence. auto. Qed.
Lemma ask_returns fuel mp n reqs : forall s, well_formed s -> Forall (StronglySorted Rlt) reqs ->
  returns_if anyo (ask fuel mp n s reqs) (fun r => well_formed (fst r) /\ extends s (fst r) /\ Forall2 (Forall2 (at_time (fst r))) reqs (snd r) /\
    Forall (Forall (fun u => 0 <= u <= horizon s)) reqs).
Proof.
  induction reqs as [|q reqs IH]; intros s W F; cbn [ask].
  - apply returns_ret. cbn [fst snd]. split; auto. split; [apply extends_refl|]. split; constructor.
  - inversion F; subst. eapply returns_bind; [apply interpolate_returns; auto|]. intros [s1 xs] (W1 & E1 & _ & F1 & R1 & _). cbn [fst snd] in *.
    eapply returns_bind; [apply IH; auto|]. intros [s2 outs] (W2 & E2 & F2 & R2). cbn [fst snd] in *. apply returns_ret. cbn [fst snd].
    split; auto. split; [eapply extends_trans; eauto|]. destruct E1 as (_ & _ & _ & HZ & _). rewrite HZ in R2. split; constructor; auto.
    + destruct E2 as (_ & _ & _ & _ & _ & _ & KEEP). clear - F1 KEEP. induction F1; constructor; auto. now apply KEEP.
    + now apply Forall_forall.
Qed.
