(** The Monte-Carlo objective on known paths: update_objective and switching. *)
From Coquelicot Require Import Rcomplements Hierarchy Rbar Lim_seq Continuity Derive RInt RInt_analysis.
From Coq Require Import Reals List Bool Arith ZArith Lra Lia Psatz Permutation.
From Verif Require Import Base Np Rng L_list L_rng M_mjp M_hit M_path M_skel M_seed SpecSkel SpecSeed L_seed L_seed3 M_models M_inf M_sw M_adapt M_mcem
  SpecLaw SpecCoin SpecEst SpecObj L_law L_law2 L_law3 L_law5 L_em5 L_occ L_est L_est4 L_obj Mat.
Import ListNotations.
Local Open Scope R_scope.

Lemma run_pure : forall A B (f : A -> M B) (g : A -> B) omes l i, (forall a o k, In a l -> f a o k = (Ok (g a), k)) -> run_jobs i omes (map f l) = Ok (map g l).
Proof.
  intros A B f g omes l. induction l as [|a l IH]; intros i H; [reflexivity|]. cbn [map run_jobs]. rewrite H by (left; reflexivity). cbn [fst rbind].
  rewrite IH by (intros; apply H; right; assumption). reflexivity.
Qed.
Lemma ito_objective_law : forall path reduce disc log_lik log_prior t vt thi thi' zz omes j s0 n m (v : nat -> R),
  (0 < m)%nat -> (0 < n)%nat -> Forall (fun z => length z = n) zz -> length t = S n -> length vt = S n -> (j < length zz)%nat ->
  (forall i, (i < n)%nat -> let dt := nth (S i) t 0 - nth i t 0 in
     integral_along path (disc thi') (nth i (nth j zz []) s0) dt (sqrt dt) (reduce thi' (nth i vt 0)) (reduce thi' (nth (S i) vt 0)) (v i)) ->
  average (do f <- ito_objective_with (pinned path) reduce disc log_lik log_prior t vt m omes thi zz; f thi') (fun l => nth j l 0) (log_lik thi' - Mat.rsum n v + log_prior thi').
Proof.
  intros path reduce disc log_lik log_prior t vt thi thi' zz omes j s0 n m v Hm Hn Hz Ht Hv Hj HE. rewrite Forall_forall in Hz.
  assert (Hzj : length (nth j zz []) = n) by (apply Hz, nth_In, Hj).
  pose proof (ito_supp_law path reduce disc t vt thi' (nth j zz []) s0 n m v Hm Hn Hzj Ht Hv HE (log_lik thi' + log_prior thi')) as P.
  set (Q := fun th z supp => M_models.rsum (map (fun p => fst p (snd p)) (combine (map (fun p : R * skel * (normop * normop) => let '(d, z_, n) := p in fun s => - d * np_mean (map (disc th) (vals path n z_ s)))
    (zip3 (np_diff t) z (ito_normops reduce t vt th))) supp))) in *.
  apply (average_comp _ (do supp <- map_m (supports m) (np_diff t); ret (map (fun z => log_lik thi' + Q thi' z supp + log_prior thi') zz))).
  - intros o k Ho. unfold ito_objective_with. pose proof (map_m_len _ _ (supports m) (np_diff t) o k Ho) as Q1. rewrite np_diff_length, Ht in Q1.
    unfold bind at 1 2. unfold bind at 3. destruct (map_m (supports m) (np_diff t) o k) as [[supp|e|] k1]; try reflexivity. cbn [fst] in Q1.
    assert (HV : forall th a o k, In a zz -> ito_log_with (pinned path) reduce disc log_lik t vt th a supp o k = (Ok (log_lik th + Q th a supp, a), k)).
    { intros th a o' k' I. exact (ito_value path reduce disc log_lik t vt th a supp n Hn (Hz a I) Ht Hv ltac:(lia) o' k'). }
    unfold bind at 1. rewrite (run_pure _ _ _ (fun z => (log_lik thi + Q thi z supp, z))) by (intros; apply HV; assumption). cbn [lift].
    destruct zz as [|z0 zz']; [cbn in Hj; lia|]. set (zs := z0 :: zz') in *. unfold lift, ret at 1.
    assert (EM : map snd (map (fun z : partition => (log_lik thi + Q thi z supp, z)) zs) = zs) by (rewrite map_map; cbn [snd]; apply map_id).
    rewrite EM. subst zs. cbn [map]. unfold ret at 1. set (zs := z0 :: zz') in *. unfold bind.
    rewrite (pure_run _ _ _ (fun z => (log_lik thi' + Q thi' z supp, z))) by (intros; apply HV; assumption). unfold ret. rewrite map_map. reflexivity.
  - apply average_map. refine (average_ext _ _ _ _ _ _ (average_eq _ _ _ _ _ _ P)); [|ring].
    intros supp. rewrite (nth_indep _ 0 (log_lik thi' + Q thi' [] supp + log_prior thi')) by (rewrite map_length; exact Hj).
    rewrite (map_nth (fun z => log_lik thi' + Q thi' z supp + log_prior thi') zz [] j).
    transitivity (log_lik thi' + log_prior thi' + Q thi' (nth j zz []) supp); [reflexivity|ring].
Qed.

Lemma sw_regroup : forall (path : skel -> R -> R) (disc : nat -> R -> R) restrict D supp y z ops,
  M_models.rsum (map (fun p : R * nat * list R => let '(dt, y0, x_) := p in - dt * np_mean (map (disc y0) x_)) (filter (fun p => selected restrict (snd (fst p))) (zip3 D y
    (map snd (map (fun p : list R * nat * skel * (normop * normop) => let '(t_, y0, z_, n) := p in (z_, if selected restrict y0 then vals path n z_ t_ else [])) (zip4 supp y z ops)))))) =
  M_models.rsum (map (fun p : (list R -> R) * list R => fst p (snd p)) (combine (map (fun p : R * nat * skel * (normop * normop) => let '(d, y0, z_, n) := p in fun s => if selected restrict y0 then - d * np_mean (map (disc y0) (vals path n z_ s)) else 0)
    (zip4 D y z ops)) supp)).
Proof.
  unfold zip3, zip4. intros path disc restrict D. induction D as [|d D IH]; intros [|s supp] [|y0 y] [|z0 z] [|n ops]; try reflexivity.
  cbn [combine map filter fst snd]. specialize (IH supp y z ops). destruct (selected restrict y0).
  - cbn [map]. unfold M_models.rsum in *. cbn [fold_right]. rewrite IH. reflexivity.
  - unfold M_models.rsum in *. cbn [fold_right]. rewrite IH. ring.
Qed.
Lemma sw_first : forall (path : skel -> R -> R) restrict supp y z (ops : list (normop * normop)), length supp = length z -> length ops = length z -> (length z <= length y)%nat ->
  map fst (map (fun p : list R * nat * skel * (normop * normop) => let '(t_, y0, z_, n) := p in (z_, if selected restrict y0 then vals path n z_ t_ else [])) (zip4 supp y z ops)) = z.
Proof.
  unfold zip4. intros path restrict supp. induction supp as [|s supp IH]; intros [|y0 y] [|z0 z] [|n ops] L1 L2 L3; cbn in *; try discriminate; try reflexivity; try lia. f_equal. apply IH; lia.
Qed.
Lemma sw_ops_length : forall vol h n, length (a_t h) = S n -> length (a_y h) = S n -> length (a_v h) = S n -> length (sw_normops vol h) = n.
Proof.
  intros vol h n Ht Hy Hv. unfold sw_normops, zip4. rewrite map_length, !combine_length, np_diff_length, removelast_length.
  assert (length (tl (a_v h)) = n) by (destruct (a_v h); cbn in *; lia). lia.
Qed.
Lemma sw_value : forall path vol disc loglik thi z h supp restrict n, (0 < n)%nat -> length z = n -> length (a_t h) = S n -> length (a_y h) = S n -> length (a_v h) = S n -> length supp = n -> forall o k,
  sw_log_with (pinned path) vol disc loglik thi z h supp restrict o k =
  (Ok (fst (loglik thi h restrict) + M_models.rsum (map (fun p => fst p (snd p)) (combine (map (fun p : R * nat * skel * (normop * normop) => let '(d, y0, z_, n) := p in fun s => if selected restrict y0 then - d * np_mean (map (disc thi y0) (vals path n z_ s)) else 0)
    (zip4 (np_diff (a_t h)) (a_y h) z (sw_normops (vol thi) h))) supp)), z), k).
Proof.
  intros path vol disc loglik thi z h supp restrict n Hn Hz Ht Hy Hv Hs o k. unfold sw_log_with. unfold bind at 1.
  rewrite (pure_run _ _ _ (fun p : list R * nat * skel * (normop * normop) => let '(t_, y0, z_, n) := p in (z_, if selected restrict y0 then vals path n z_ t_ else []))).
  - pose proof (sw_ops_length (vol thi) h n Ht Hy Hv) as LO. rewrite <- sw_regroup.
    pose proof (sw_first path restrict supp (a_y h) z (sw_normops (vol thi) h) ltac:(lia) ltac:(lia) ltac:(lia)) as F.
    destruct (map (fun p : list R * nat * skel * (normop * normop) => let '(t_, y0, z_, n) := p in (z_, if selected restrict y0 then vals path n z_ t_ else [])) (zip4 supp (a_y h) z (sw_normops (vol thi) h))) as [|r0 rs]; [cbn in F; subst z; cbn in Hz; lia|].
    cbv zeta. unfold ret. rewrite F. reflexivity.
  - intros [[[s y0] z_] n'] o' k' I. unfold zip4 in I. apply in_combine_r in I. unfold sw_normops in I. apply in_map_iff in I as ([[[dt y1] x0] x1] & <- & _). cbn [fst snd].
    destruct (selected restrict y0); [|reflexivity]. apply (interp_run path _ _ _ _ _ _ _ _ (sw_operators (vol thi y1) dt x0 x1)).
Qed.
Lemma rows_zip4 : forall A B C D (l : list A) (m : list B) (n : list C) (q : list D) i a b c d, nth_error (zip4 l m n q) i = Some (a, b, c, d) ->
  nth_error l i = Some a /\ nth_error m i = Some b /\ nth_error n i = Some c /\ nth_error q i = Some d.
Proof. intros A B C D l m n q i a b c d H. unfold zip4 in H. apply combine_at in H as [H H4]. apply combine_at in H as [H H3]. apply combine_at in H as [H1 H2]. auto. Qed.
Lemma law_const : forall m T (c0 : R), 0 < T -> law (supports m T) (fun _ => c0) c0.
Proof.
  intros m T c0 HT c. unfold supports. apply average_map. generalize (seq 0 m). intros l.
  pose proof (law_draws (fun _ => 0) T 0 1 l HT) as P. assert (I : is_RInt (fun _ : R => 0) 0 T 0).
  { pose proof (is_RInt_const (V := R_NormedModule) 0 T 0) as Q. unfold scal in Q; cbn in Q; unfold mult in Q; cbn in Q. rewrite Rmult_0_r in Q. exact Q. }
  specialize (P I (c + c0)). refine (average_ext _ _ _ _ _ _ (average_eq _ _ _ _ _ _ P)); [|field; lra].
  intros us. assert (E : fold_right Rplus 0 (map (fun _ : R => 0) us) = 0) by (induction us; cbn; lra). rewrite E. ring.
Qed.
Definition sw_terms (path : skel -> R -> R) (vol : list (list R) -> nat -> R) (disc : list (list R) -> nat -> R -> R) thi z h restrict (supp : list (list R)) : R :=
  M_models.rsum (map (fun p => fst p (snd p)) (combine (map (fun p : R * nat * skel * (normop * normop) => let '(d, y0, z_, n) := p in fun s => if selected restrict y0 then - d * np_mean (map (disc thi y0) (vals path n z_ s)) else 0)
    (zip4 (np_diff (a_t h)) (a_y h) z (sw_normops (vol thi) h))) supp)).
Lemma sw_supp_law : forall path vol disc thi z h restrict s0 m (v : nat -> R), (0 < m)%nat -> matches z h ->
  (forall i, (i < length z)%nat -> selected restrict (nth i (a_y h) 0%nat) = true -> let dt := nth (S i) (a_t h) 0 - nth i (a_t h) 0 in let y := nth i (a_y h) 0%nat in
     integral_along path (disc thi y) (nth i z s0) dt (sqrt dt * vol thi y) (nth i (a_v h) 0) (nth (S i) (a_v h) 0) (v i)) ->
  law (map_m (supports m) (np_diff (a_t h))) (sw_terms path vol disc thi z h restrict) (- Mat.rsum (length z) (fun i => if selected restrict (nth i (a_y h) 0%nat) then v i else 0)).
Proof.
  intros path vol disc thi z h restrict s0 m v Hm (Hn & Ht & Hy & Hv & HI) HE. set (n := length z) in *. assert (Hz : length z = n) by reflexivity.
  pose proof (sw_ops_length (vol thi) h n Ht Hy Hv) as LO. assert (LD : length (np_diff (a_t h)) = n) by (rewrite np_diff_length; lia).
  set (u := fun i => if selected restrict (nth i (a_y h) 0%nat) then v i else 0). unfold sw_terms.
  rewrite <- rsum_opp, <- rsum_seq, <- LD. apply law_sum; [unfold zip4; rewrite map_length, !combine_length; lia|].
  intros i dt g Hi Hg. rewrite nth_error_map in Hg. destruct (nth_error (zip4 _ _ _ _) i) as [[[[d y0] z_] nm]|] eqn:E; [|discriminate]. cbn in Hg. injection Hg as <-.
  assert (Hin : (i < n)%nat) by (rewrite <- LD; apply nth_error_Some; congruence).
  apply rows_zip4 in E as (D & Y & Z & O). assert (d = dt) as -> by congruence. clear D.
  unfold sw_normops in O. rewrite nth_error_map in O. destruct (nth_error (zip4 _ _ _ _) i) as [[[[d y1] x0] x1]|] eqn:E; [|discriminate]. cbn in O. injection O as <-.
  apply rows_zip4 in E as (D & Y1 & X0 & X1). assert (d = dt) as -> by congruence. rewrite tl_at in X1. apply rm_at in Y1. assert (y1 = y0) as -> by congruence.
  specialize (HE i Hin). specialize (HI i Hin). cbv zeta in HE. apply diff_nth in Hi as [E _]. rewrite <- E in HE. assert (HT : 0 < dt) by lra.
  unfold u. rewrite (nth_of _ _ _ _ 0%nat Y) in *. rewrite (nth_of _ _ _ _ s0 Z), (nth_of _ _ _ _ 0 X0), (nth_of _ _ _ _ 0 X1) in HE.
  destruct (selected restrict y0); [|rewrite Ropp_0; apply law_const; exact HT].
  destruct (HE eq_refl) as [_ HR]. pose proof (supports_law _ dt (v i) m Hm HT HR) as P. intros c. refine (average_ext _ _ _ _ _ _ (P c)).
  intros s. rewrite (vals_eq _ _ _ _ _ _ _ _ _ (sw_operators (vol thi y0) dt _ _)), map_map. reflexivity.
Qed.
Lemma supp_len : forall m h n, length (a_t h) = S n -> returns (map_m (supports m) (np_diff (a_t h))) (fun s => length s = n).
Proof. intros m h n H. pose proof (map_m_len _ _ (supports m) (np_diff (a_t h))) as Q. rewrite np_diff_length, H in Q. intros o k Ho. specialize (Q o k Ho). destruct (fst _); auto. lia. Qed.
Lemma sw_log_law : forall path vol disc loglik thi z h restrict s0 m (v : nat -> R), (0 < m)%nat -> matches z h ->
  (forall i, (i < length z)%nat -> selected restrict (nth i (a_y h) 0%nat) = true -> let dt := nth (S i) (a_t h) 0 - nth i (a_t h) 0 in let y := nth i (a_y h) 0%nat in
     integral_along path (disc thi y) (nth i z s0) dt (sqrt dt * vol thi y) (nth i (a_v h) 0) (nth (S i) (a_v h) 0) (v i)) ->
  average (do supp_t <- map_m (supports m) (np_diff (a_t h)); sw_log_with (pinned path) vol disc loglik thi z h supp_t restrict) fst
    (fst (loglik thi h restrict) - Mat.rsum (length z) (fun i => if selected restrict (nth i (a_y h) 0%nat) then v i else 0)).
Proof.
  intros path vol disc loglik thi z h restrict s0 m v Hm HM HE. pose proof (sw_supp_law path vol disc thi z h restrict s0 m v Hm HM HE (fst (loglik thi h restrict))) as P.
  destruct HM as (Hn & Ht & Hy & Hv & HI). refine (average_bind _ _ _ _ _ _ (fun supp => length supp = length z) _ P _ _).
  - apply supp_len. exact Ht.
  - intros supp Hs. refine (average_comp _ (ret (_, z)) _ _ _ _ (average_ret _ (_, z) fst)). intros o k _. rewrite (sw_value path vol disc loglik thi z h supp restrict _ Hn eq_refl Ht Hy Hv Hs). reflexivity.
Qed.

(** ** the objective of switching *)
Lemma law_zero_map : forall A B (m : A -> M B) l, (forall a, In a l -> law (m a) (fun _ => 0) 0) -> law (map_m m l) (fun _ => 0) 0.
Proof.
  intros A B m l. induction l as [|a l IH]; intros H c.
  - apply (average_ret _ [] (fun _ => c + 0)).
  - cbn [map_m]. apply (average_bind0 _ _ _ _ _ (fun _ => c + 0)); [apply H; left; reflexivity|]. intros b. apply average_map. apply (IH (fun a' I => H a' (or_intror I)) c).
Qed.
Lemma law_at : forall A B (m : A -> M B) (g : B -> R) v d l j a, nth_error l j = Some a -> law (m a) g v -> (forall a, In a l -> law (m a) (fun _ => 0) 0) ->
  law (map_m m l) (fun bs => g (nth j bs d)) v.
Proof.
  intros A B m g v d l. induction l as [|a0 l IH]; intros j a Hj HL HZ c; [destruct j; discriminate|]. cbn [map_m]. destruct j as [|j]; cbn [nth_error] in Hj.
  - injection Hj as ->. apply (average_bind0 _ _ _ _ _ (fun b => c + g b)); [apply HL|]. intros b. apply average_map. cbn [nth].
    pose proof (law_zero_map _ _ m l (fun a' I => HZ a' (or_intror I)) (c + g b)) as P. refine (average_ext _ _ _ _ _ _ (average_eq _ _ _ _ _ _ P)); [intros; ring|ring].
  - apply (average_bind0 _ _ _ _ _ (fun b => (c + v) + 0)); [refine (average_eq _ _ _ _ _ _ (HZ a0 (or_introl eq_refl) (c + v))); ring|]. intros b. apply average_map. cbn [nth].
    refine (average_eq _ _ _ _ _ _ (IH j a Hj HL (fun a' I => HZ a' (or_intror I)) c)). ring.
Qed.
Lemma zero_supports : forall m z h, matches z h -> law (map_m (supports m) (np_diff (a_t h))) (fun _ => 0) 0.
Proof.
  intros m z h (Hn & Ht & _ & _ & HI). apply law_zero_map. intros d I. apply law_const. apply In_nth_error in I as (i & Hi).
  assert (Hin : (i < length z)%nat). { assert (L : (i < length (np_diff (a_t h)))%nat) by (apply nth_error_Some; congruence). rewrite np_diff_length in L. lia. }
  apply diff_nth in Hi as [-> _]. specialize (HI i Hin). lra.
Qed.
Lemma supps_len : forall m zz hh, Forall2 matches zz hh -> forall o k, valid o ->
  match fst (map_m (fun h => map_m (supports m) (np_diff (a_t h))) hh o k) with Ok ss => Forall2 (fun z s => length s = length z) zz ss | _ => True end.
Proof.
  intros m zz hh F o k Ho. revert k. induction F as [|z h zz hh HM F IH]; intros k; [constructor|]. cbn [map_m]. unfold bind at 1.
  destruct HM as (_ & Ht & _). pose proof (supp_len m h (length z) Ht o k Ho) as L. destruct (map_m (supports m) (np_diff (a_t h)) o k) as [[s|e|] k1]; cbn [fst] in *; auto.
  specialize (IH k1). unfold bind. destruct (map_m (fun h => map_m (supports m) (np_diff (a_t h))) hh o k1) as [[ss|e|] k2]; cbn [fst ret] in *; auto.
Qed.
Lemma jobs_value : forall path vol disc loglik th restrict zz hh ss, Forall2 matches zz hh -> Forall2 (fun z s => length s = length z) zz ss ->
  forall p o k, In p (zip3 zz hh ss) -> (let '(z, h, t) := p in sw_log_with (pinned path) vol disc loglik th z h t restrict) o k =
    (Ok (let '(z, h, t) := p in (fst (loglik th h restrict) + sw_terms path vol disc th z h restrict t, z)), k).
Proof.
  intros path vol disc loglik th restrict zz hh ss F. revert ss. induction F as [|z h zz hh HM F IH]; intros ss G p o k I; [destruct I|]. inversion G as [|z' s zz' ss' E G']; subst.
  unfold zip3 in I. cbn [combine In] in I. destruct I as [<-|I]; [|exact (IH ss' G' p o k I)].
  destruct HM as (Hn & Ht & Hy & Hv & HI). exact (sw_value path vol disc loglik th z h s restrict _ Hn eq_refl Ht Hy Hv E o k).
Qed.
Lemma zip3_first : forall A B C (l : list A) (m : list B) (n : list C), length m = length l -> length n = length l -> map (fun p => fst (fst p)) (zip3 l m n) = l.
Proof. unfold zip3. intros A B C l. induction l as [|a l IH]; intros [|b m] [|c n] L1 L2; cbn in *; try discriminate; try reflexivity. f_equal. apply IH; lia. Qed.
Lemma zip3_nth : forall A B C (l : list A) (m : list B) (n : list C) j a b c, length m = length l -> length n = length l -> nth j (zip3 l m n) (a, b, c) = (nth j l a, nth j m b, nth j n c).
Proof. intros A B C l m n j a b c L1 L2. unfold zip3. rewrite !combine_nth; [reflexivity|lia|rewrite combine_length; lia]. Qed.
Lemma f2_length : forall A B (P : A -> B -> Prop) l m, Forall2 P l m -> length m = length l.
Proof. intros A B P l m F. induction F; cbn; congruence. Qed.
Lemma sw_objective_law : forall path vol disc loglik log_prior thi thi' restrict zz hh omes j h0 s0 m (v : nat -> R), (0 < m)%nat -> Forall2 matches zz hh -> (j < length zz)%nat ->
  (let z := nth j zz [] in let h := nth j hh h0 in forall i, (i < length z)%nat -> nth i (a_y h) 0%nat = restrict -> let dt := nth (S i) (a_t h) 0 - nth i (a_t h) 0 in
     integral_along path (disc thi' restrict) (nth i z s0) dt (sqrt dt * vol thi' restrict) (nth i (a_v h) 0) (nth (S i) (a_v h) 0) (v i)) ->
  average (do f <- sw_objective_with (pinned path) vol disc loglik log_prior m omes thi zz hh; f thi' restrict) (fun l => nth j l 0)
    (fst (loglik thi' (nth j hh h0) (Some restrict)) - Mat.rsum (length (nth j zz [])) (fun i => if Nat.eqb (nth i (a_y (nth j hh h0)) 0%nat) restrict then v i else 0) + log_prior thi').
Proof.
  intros path vol disc loglik log_prior thi thi' restrict zz hh omes j h0 s0 m v Hm F Hj HE. cbv zeta in HE.
  pose proof (f2_length _ _ _ _ _ F) as LH. set (zj := nth j zz []) in *. set (hj := nth j hh h0) in *.
  assert (NH : nth_error hh j = Some hj) by (apply nth_error_nth'; lia).
  assert (HM : matches zj hj). { destruct (Forall2_nth_l _ _ _ j zj F ltac:(apply nth_error_nth'; exact Hj)) as (h' & E & HM). congruence. }
  assert (HE' : forall i, (i < length zj)%nat -> selected (Some restrict) (nth i (a_y hj) 0%nat) = true -> let dt := nth (S i) (a_t hj) 0 - nth i (a_t hj) 0 in let y := nth i (a_y hj) 0%nat in
     integral_along path (disc thi' y) (nth i zj s0) dt (sqrt dt * vol thi' y) (nth i (a_v hj) 0) (nth (S i) (a_v hj) 0) (v i)).
  { intros i Hi SEL. cbn in SEL. apply Nat.eqb_eq in SEL. cbv zeta. rewrite SEL. exact (HE i Hi SEL). }
  pose proof (sw_supp_law path vol disc thi' zj hj (Some restrict) s0 m v Hm HM HE') as P0.
  pose proof (law_at _ _ (fun h => map_m (supports m) (np_diff (a_t h))) _ _ [] hh j hj NH P0) as P.
  assert (HZ : forall a, In a hh -> law (map_m (supports m) (np_diff (a_t a))) (fun _ => 0) 0).
  { intros a I. clear - F I. induction F as [|z h zz hh HM F IH]; [destruct I|]. destruct I as [->|I]; [exact (zero_supports m z a HM)|exact (IH I)]. }
  specialize (P HZ (fst (loglik thi' hj (Some restrict)) + log_prior thi')). cbn [selected] in P.
  set (V := fun th r (p : partition * anchorage * list (list R)) => let '(z, h, t) := p in (fst (loglik th h r) + sw_terms path vol disc th z h r t, z)).
  apply (average_swap _ _ (fun l => nth j l 0)); [intros o k _; destruct (fst _); auto|].
  apply (average_comp _ (do ss <- map_m (fun h => map_m (supports m) (np_diff (a_t h))) hh; ret (map (fun p => fst (V thi' (Some restrict) p) + log_prior thi') (zip3 zz hh ss)))).
  - intros o k Ho. unfold sw_objective_with. pose proof (supps_len m zz hh F o k Ho) as Q1.
    unfold bind at 1 2. unfold bind at 3. destruct (map_m (fun h => map_m (supports m) (np_diff (a_t h))) hh o k) as [[ss|e|] k1]; try reflexivity. cbn [fst] in Q1.
    pose proof (f2_length _ _ _ _ _ Q1) as LS.
    unfold bind at 1. rewrite (run_pure _ _ _ (V thi None)) by (intros p o' k' I; exact (jobs_value path vol disc loglik thi None zz hh ss F Q1 p o' k' I)).
    assert (EM : map snd (map (V thi None) (zip3 zz hh ss)) = zz).
    { rewrite map_map. rewrite <- (zip3_first _ _ _ zz hh ss LH LS) at 2. apply map_ext. intros [[z h] t]. reflexivity. }
    unfold lift. destruct (map (V thi None) (zip3 zz hh ss)) as [|r0 rs] eqn:ER; [cbn in EM; subst zz; cbn in Hj; lia|]. rewrite EM. unfold ret at 1.
    unfold bind. rewrite (pure_run _ _ _ (V thi' (Some restrict))) by (intros p o' k' I; exact (jobs_value path vol disc loglik thi' (Some restrict) zz hh ss F Q1 p o' k' I)).
    unfold ret. rewrite map_map. reflexivity.
  - apply (average_bind _ _ _ _ _ (fun ss => fst (loglik thi' hj (Some restrict)) + log_prior thi' + sw_terms path vol disc thi' zj hj (Some restrict) (nth j ss [])) (fun ss => length ss = length zz)).
    + refine (average_eq _ _ _ _ _ _ P). ring.
    + rewrite <- LH. apply map_m_len.
    + intros ss LS. refine (average_eq _ _ _ _ _ _ (average_ret _ _ _)).
      rewrite (nth_indep _ 0 (fst (V thi' (Some restrict) ([], h0, [])) + log_prior thi')) by (rewrite map_length, zip3_length; lia).
      rewrite (map_nth (fun p => fst (V thi' (Some restrict) p) + log_prior thi') (zip3 zz hh ss) ([], h0, []) j), zip3_nth by lia. unfold V. cbn [fst]. fold zj hj. ring.
Qed.
