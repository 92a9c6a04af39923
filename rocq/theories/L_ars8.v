(** Laws of the loop of adaptive rejection sampling. *)
From Coq Require Import Reals List ZArith Bool Arith Lia Lra Sorted ClassicalDescription.
From Coquelicot Require Import Rbar Hierarchy Continuity Derive AutoDerive RInt RInt_gen RInt_analysis.
From Verif Require Import Base Np Rng M_adapt M_ars SpecArs SpecLaw SpecLay L_list L_path L_mat L_adapt L_rng L_law L_law2 L_law5 L_ars L_ars2 L_ars3 L_ars4 L_ars5 L_ars6 L_ars7 Mat.
Import ListNotations.
Local Open Scope R_scope.

Lemma int_zero (a b : R) : is_RInt (V := R_NormedModule) (fun _ => 0) a b 0.
Proof. pose proof (is_RInt_const (V := R_NormedModule) a b 0) as H. unfold scal in H; cbn in H; unfold mult in H; cbn in H. rewrite Rmult_0_r in H. exact H. Qed.
Lemma int_lin (f g : R -> R) (a b c d u v : R) : is_RInt (V := R_NormedModule) f a b u -> is_RInt (V := R_NormedModule) g a b v ->
  is_RInt (V := R_NormedModule) (fun z => c * f z + d * g z) a b (c * u + d * v).
Proof. intros Hf Hg. apply (is_RInt_plus (V := R_NormedModule) (fun z => c * f z) (fun z => d * g z)); [exact (is_RInt_scal _ _ _ c _ Hf)|exact (is_RInt_scal _ _ _ d _ Hg)]. Qed.
Lemma int_eq (f g : R -> R) (a b u v : R) : is_RInt (V := R_NormedModule) f a b u -> (forall z, f z = g z) -> u = v -> is_RInt (V := R_NormedModule) g a b v.
Proof. intros Hf E <-. refine (is_RInt_ext (V := R_NormedModule) _ _ _ _ _ _ Hf). intros z _. apply E. Qed.
Lemma int_one : is_RInt (V := R_NormedModule) (fun _ => 1) 0 1 1.
Proof. pose proof (is_RInt_const (V := R_NormedModule) 0 1 1) as H. unfold scal in H; cbn in H; unfold mult in H; cbn in H. replace ((1 - 0) * 1) with 1 in H by ring. exact H. Qed.

(** the total mass of the target is positive *)
Lemma target_pos lb ub f df p A : strictly_concave_on lb ub f df -> dom lb ub p -> target_mass lb ub f A -> 0 < A.
Proof.
  intros HC D (U & _). destruct (dom_open lb ub p D) as (d & Hd & D1 & D2).
  assert (CF : forall v, p <= v <= p + d -> continuous (fun v => exp (f v)) v).
  { intros v Hv. assert (dom lb ub v) by (apply (dom_between lb ub p v (p + d)); auto). apply continuity_pt_filterlim.
    apply (continuity_pt_comp f exp); [|apply derivable_continuous_pt, derivable_pt_exp]. apply derivable_continuous_pt. exists (df v). apply HC. assumption. }
  assert (EX : ex_RInt (V := R_CompleteNormedModule) (fun v => exp (f v)) p (p + d)).
  { apply (ex_RInt_continuous (V := R_CompleteNormedModule)). rewrite Rmin_left, Rmax_right by lra. exact CF. }
  apply Rlt_le_trans with (RInt (V := R_CompleteNormedModule) (fun v => exp (f v)) p (p + d)).
  - apply RInt_gt_0; [lra|intros; apply exp_pos|]. intros v Hv. apply CF. lra.
  - apply U. exists p, (p + d). do 2 (split; [assumption|]). split; [lra|]. apply (RInt_correct (V := R_CompleteNormedModule)). exact EX.
Qed.
Lemma target_unique lb ub f A A' : target_mass lb ub f A -> target_mass lb ub f A' -> A = A'.
Proof. intros (U & L) (U' & L'). apply Rle_antisym; [apply L; exact U'|apply L'; exact U]. Qed.

Section Ready.
  Context (lb ub : ext) (f df : R -> R) (maxp : nat) (h : hull).
  Hypothesis HC : strictly_concave_on lb ub f df.
  Hypothesis HR : ready lb ub f df h.
  Notation Z := (Z_ lb ub f df (h_x h)).
  Notation Q := (point lb ub f df h).
  Notation acc := (accept f df h).
  Lemma ready_window s r (m : R) : dom lb ub s -> dom lb ub r -> s <= r -> is_RInt (V := R_NormedModule) (fun v => exp (f v)) s r m ->
    is_RInt (V := R_NormedModule) (fun z => if in_win s r (Q z) then acc (Q z) else 0) 0 1 (m / Z).
  Proof. destruct HR as (H1 & H2 & H3 & H4 & H5 & H6). intros. apply window_int; assumption. Qed.
  Lemma ready_whole A : target_mass lb ub f A -> is_RInt (V := R_NormedModule) (fun z => acc (Q z)) 0 1 (A / Z) /\ 0 < A <= Z /\ envelope_mass lb ub f df (h_x h) Z.
  Proof.
    destruct HR as (H1 & H2 & H3 & H4 & H5 & H6). intros TA. destruct (whole_int lb ub f df h HC H1 H2 H3 H4 H5 H6) as (A' & I & RA & TA').
    rewrite (target_unique _ _ _ _ _ TA TA'). pose proof (target_pos lb ub f df (nth 0 (h_x h) 0) A' HC (dom_hd lb ub h H3) TA'). split; [exact I|]. split; [lra|].
    apply total_mass; assumption.
  Qed.
  Lemma ready_target : exists A, target_mass lb ub f A.
  Proof. destruct HR as (H1 & H2 & H3 & H4 & H5 & H6). destruct (whole_int lb ub f df h HC H1 H2 H3 H4 H5 H6) as (A & _ & _ & TA). exists A. exact TA. Qed.
  Lemma Z_unique Z' : envelope_mass lb ub f df (h_x h) Z' -> Z' = Z.
  Proof. intros H. destruct ready_target as (A & TA). destruct (ready_whole A TA) as (_ & _ & E). exact (gen_unique _ _ _ _ _ H E). Qed.
  Lemma one_step s r (m : R) A : target_mass lb ub f A -> dom lb ub s -> dom lb ub r -> s <= r -> is_RInt (V := R_NormedModule) (fun v => exp (f v)) s r m ->
    chance (ars_step f df lb ub maxp h) gives (A / Z) /\ chance (ars_step f df lb ub maxp h) (gives_in s r) (m / Z).
  Proof.
    intros TA Ds Dr Hsr Hm. destruct (ready_whole A TA) as (I & _ & _). pose proof (ready_window s r m Ds Dr Hsr Hm) as W.
    destruct HR as (H1 & H2 & H3 & H4 & H5 & H6).
    assert (ST : forall E v, is_RInt (V := R_NormedModule) (fun z => acc (Q z) * ind (E (Some (h, Some (Q z)))) + (1 - acc (Q z)) * 0) 0 1 v ->
      (forall h', E (Some (h', None)) = false) -> E None = false -> chance (ars_step f df lb ub maxp h) E v).
    { intros E v HI EN E0. apply (mean_ext _ _ (via (fun o => o) (bind (ars_step f df lb ub maxp h) ret))).
      { intros o k _. unfold via, bind, ret. destruct (ars_step f df lb ub maxp h o k) as ([|e|] & k'); reflexivity. }
      apply (step_average (fun o => o) (fun z => z)) with (P := fun _ => True) (phi := fun p => ind (E (Some (h, Some p)))) (psi := 0) (vn := 0) (df := df); try assumption; try reflexivity; auto; try lra.
      - replace 0 with (ind (E None)) by (rewrite E0; reflexivity). exact (average_ret _ None (fun a => ind (E a))).
      - intros p _. exact (average_ret _ (Some (h, Some p)) (fun a => ind (E a))).
      - intros p _. replace 0 with (ind (E (Some (next_hull f df maxp h p, None)))) by (rewrite EN; reflexivity). exact (average_ret _ (Some (next_hull f df maxp h p, None)) (fun a => ind (E a))). }
    split.
    - apply ST; [|reflexivity|reflexivity]. refine (int_eq _ _ _ _ _ _ I _ eq_refl). intros z. cbn. ring.
    - apply ST; [|reflexivity|reflexivity]. refine (int_eq _ _ _ _ _ _ W _ eq_refl). intros z. unfold gives_in. destruct (in_win s r (Q z)); cbn; ring.
  Qed.

  (** a hull that is not refined any more *)
  Hypothesis HF : (maxp <= length (h_x h))%nat.
  Lemma fixed_run A : target_mass lb ub f A -> forall n ws (ms : list R),
    Forall2 (fun w (m : R) => dom lb ub (fst w) /\ dom lb ub (snd w) /\ fst w <= snd w /\ is_RInt (V := R_NormedModule) (fun v => exp (f v)) (fst w) (snd w) m) ws ms ->
    chance (ars_run n f df lb ub maxp (Some (length ws)) h) (all_in ws) (fold_right Rmult 1 (map (fun m => m / A) ms) * at_least (A / Z) n (length ws)).
  Proof.
    intros TA. destruct (ready_whole A TA) as (I & RA & _). pose proof HR as (H1 & H2 & H3 & H4 & H5 & H6).
    assert (NH : forall p, next_hull f df maxp h p = h) by (intros p; unfold next_hull; destruct (Nat.ltb_spec (length (h_x h)) maxp); [lia|reflexivity]).
    induction n as [|n IH]; intros ws ms HW.
    - destruct HW as [|w m ws ms Hw HW].
      + cbn [length at_least map fold_right]. replace (1 * 1) with (ind (all_in [] (Some ([], h)))) by (cbn; ring). exact (average_ret _ (Some ([], h)) (fun a => ind (all_in [] a))).
      + cbn [length at_least]. rewrite Rmult_0_r. exact (average_ret _ (Some ([], h)) (fun a => ind (all_in (w :: ws) a))).
    - destruct HW as [|w m ws ms Hw HW].
      + cbn [length at_least map fold_right]. replace (1 * 1) with (ind (all_in [] (Some ([], h)))) by (cbn; ring). exact (average_ret _ (Some ([], h)) (fun a => ind (all_in [] a))).
      + pose proof (IH _ _ HW) as IH1. pose proof (IH (w :: ws) (m :: ms) (Forall2_cons _ _ Hw HW)) as IH2. clear IH. cbn [map fold_right] in *.
        set (P := fold_right Rmult 1 (map (fun m => m / A) ms)) in *. set (a := A / Z) in *. cbn [length] in *.
        set (q1 := at_least a n (length ws)) in *. set (q2 := at_least a n (S (length ws))) in *. cbn [at_least]. fold q1 q2.
        destruct Hw as (Ds & Dr & Hsr & Hm). pose proof (ready_window _ _ _ Ds Dr Hsr Hm) as W.
        set (K := fun r : option (hull * option R) => match r with
          | None => ret None
          | Some (h', None) => ars_run n f df lb ub maxp (Some (S (length ws))) h'
          | Some (h', Some v) => do r' <- ars_run n f df lb ub maxp (Some (length ws)) h'; ret (option_map (fun p => (v :: fst p, snd p)) r') end).
        refine (mean_ext _ _ (via (fun o => o) (bind (ars_step f df lb ub maxp h) K)) _ _ _ _); [reflexivity|].
        apply (step_average (fun o => o) (fun z => z)) with (P := fun _ => True) (phi := fun p => if in_win (fst w) (snd w) p then P * q1 else 0) (psi := m / A * P * q2) (vn := 0) (df := df); try assumption; try reflexivity; auto; try lra.
        * exact (average_ret _ None (fun a => ind (all_in (w :: ws) a))).
        * intros p _. change (average (do r' <- ars_run n f df lb ub maxp (Some (length ws)) h; ret (option_map (fun q => (p :: fst q, snd q)) r')) (fun a => ind (all_in (w :: ws) a)) (if in_win (fst w) (snd w) p then P * q1 else 0)).
          apply average_map. destruct (in_win (fst w) (snd w) p) eqn:EI.
          -- refine (average_ext _ _ _ _ _ _ IH1). intros [[ys h']|]; cbn; rewrite ?EI; reflexivity.
          -- replace 0 with (0 * (P * q1)) by ring. refine (average_ext _ _ _ _ _ _ (average_scal _ _ _ _ 0 IH1)). intros [[ys h']|]; cbn; rewrite ?EI; cbn; ring.
        * intros p _. rewrite NH. exact IH2.
        * assert (AN : A <> 0) by lra. assert (ZN : Z <> 0) by lra.
          refine (int_eq _ _ _ _ _ _ (int_lin _ _ _ _ (P * q1) 1 _ _ W (int_lin _ _ _ _ (m / A * P * q2) (- (m / A * P * q2)) _ _ int_one I)) _ _).
          -- intros z. cbv beta. destruct (in_win (fst w) (snd w) (Q z)); ring.
          -- unfold a. field. split; assumption.
  Qed.
End Ready.

(** trials *)
Lemma at_least_range a n : 0 <= a <= 1 -> forall d, 0 <= at_least a n d <= 1.
Proof. intros Ha. induction n as [|n IH]; intros [|d]; cbn; try lra. pose proof (IH d). pose proof (IH (S d)). cbn in *. nra. Qed.
Lemma at_least_one a n : at_least a n 1 = 1 - (1 - a) ^ n.
Proof. induction n as [|n IH]; [cbn; ring|]. change (at_least a (S n) 1) with (a * at_least a n 0 + (1 - a) * at_least a n 1). rewrite IH. cbn [pow]. replace (at_least a n 0) with 1 by (destruct n; reflexivity). ring. Qed.
Lemma relax (a : R) (x y : nat -> R) : 0 < a <= 1 -> (forall n, 0 <= x n <= 1) -> (forall n, x (S n) = a * y n + (1 - a) * x n) -> Un_cv y 0 -> Un_cv x 0.
Proof.
  intros Ha Hx Hr Hy eps He. destruct (Hy (eps / 2) ltac:(lra)) as (N & HN).
  assert (B : forall k, x (N + k)%nat <= eps / 2 + (1 - a) ^ k).
  { induction k as [|k IH]; [rewrite Nat.add_0_r; pose proof (Hx N); cbn; lra|]. rewrite Nat.add_succ_r, Hr. cbn [pow].
    pose proof (HN (N + k)%nat ltac:(lia)) as Y. unfold R_dist in Y. rewrite Rminus_0_r in Y. apply Rabs_def2 in Y. nra. }
  destruct (pow_lt_1_zero (1 - a) ltac:(rewrite Rabs_right; lra) (eps / 2) ltac:(lra)) as (N2 & HN2). exists (N + N2)%nat. intros n Hn.
  replace n with (N + (n - N))%nat by lia. unfold R_dist. rewrite Rminus_0_r, Rabs_right by (apply Rle_ge, Hx).
  pose proof (B (n - N)%nat). pose proof (HN2 (n - N)%nat ltac:(lia)) as E. apply Rabs_def2 in E. lra.
Qed.
Lemma at_least_cv a d : 0 < a <= 1 -> Un_cv (fun n => at_least a n d) 1.
Proof.
  intros Ha. assert (C : Un_cv (fun n => 1 - at_least a n d) 0).
  { induction d as [|d IH].
    - intros eps He. exists 0%nat. intros n _. unfold R_dist. replace (at_least a n 0) with 1 by (destruct n; reflexivity). rewrite !Rminus_0_r, Rminus_eq_0, Rabs_R0. exact He.
    - apply (relax a _ (fun n => 1 - at_least a n d) Ha); [|intros n; cbn [at_least]; ring|exact IH]. intros n. pose proof (at_least_range a n ltac:(lra) (S d)). lra. }
  intros eps He. destruct (C eps He) as (N & HN). exists N. intros n Hn. specialize (HN n Hn). unfold R_dist in *. rewrite Rminus_0_r in HN. rewrite Rabs_minus_sym. exact HN.
Qed.

(** the adapting sampler *)
Lemma no_zero_u o k : ora_r (no_zero o) k (DUniform 0 1) = (fun z => if Reqb z 0 then (0 + 1) / 2 else z) (ora_r o k (DUniform 0 1)).
Proof. reflexivity. Qed.
Lemma adaptive_run lb ub f df maxp s r (m : R) A : strictly_concave_on lb ub f df -> target_mass lb ub f A ->
  dom lb ub s -> dom lb ub r -> s <= r -> is_RInt (V := R_NormedModule) (fun v => exp (f v)) s r m ->
  forall n d h g, good_hull lb ub f df h -> average (off_zero (ars_run n f df lb ub maxp (Some (S d)) h)) (score g s r (m / A) d) 0.
Proof.
  intros HC TA Ds Dr Hsr Hm. induction n as [|n IH]; intros d h g GH.
  { exact (average_ret _ (Some ([], h)) (score g s r (m / A) d)). }
  pose proof GH as (G1 & G2 & G3 & G4 & G5 & G6 & G7).
  set (K := fun r : option (hull * option R) => match r with
    | None => ret None
    | Some (h', None) => ars_run n f df lb ub maxp (Some (S d)) h'
    | Some (h', Some v) => do r' <- ars_run n f df lb ub maxp (Some d) h'; ret (option_map (fun p => (v :: fst p, snd p)) r') end).
  apply (mean_ext _ _ (via no_zero (bind (ars_step f df lb ub maxp h) K))); [reflexivity|].
  destruct (strict_or_dup (h_x h) G3) as [SS|(j & Hj & Ej)].
  2:{ assert (HB : hull_breaks lb ub (h_x h) (h_fx h) (h_dfx h) = None) by (unfold hull_breaks; rewrite G1, G2, (dup_none f df (h_x h) j Hj Ej); reflexivity).
      apply (mean_done (value (score g s r (m / A) d)) _ (Ok None)). intros o k _. unfold via, bind, ars_step. rewrite HB. reflexivity. }
  assert (SUP : supports lb ub (h_x h)) by (split; [exact SS|split; [exact G4|exact G5]]).
  destruct (excluded_middle_informative (exists a, In a (h_x h) /\ df a = 0)) as [ZZ|NZ].
  { apply (mean_real (value (score g s r (m / A) d)) _ (DUniform 0 1) (fun _ => ret None) (fun _ => 0) 0).
    - intros o k _. unfold via, bind at 1, ars_step. rewrite G1, G2, (hull_breaks_ok lb ub f df (h_x h) HC SUP). unfold sample_envelope.
      rewrite (zero_none f df (h_x h) _ ZZ) by (apply breaks_length; exact G5). reflexivity.
    - intros z _. exact (average_ret _ None (score g s r (m / A) d)).
    - split; [lra|]. rewrite Rmult_0_r. apply int_zero. }
  assert (RD : ready lb ub f df h) by (split; [exact G1|split; [exact G2|split; [exact SUP|split; [intros a Ha E; apply NZ; exists a; auto|split; assumption]]]]).
  pose proof RD as (_ & _ & _ & H4 & H5 & H6).
  destruct (ready_whole lb ub f df h HC RD A TA) as (I & RA & _). pose proof (ready_window lb ub f df h HC RD s r m Ds Dr Hsr Hm) as W.
  apply (step_average no_zero (fun z => if Reqb z 0 then (0 + 1) / 2 else z)) with (P := dom lb ub)
     (phi := fun p => match d with O => g [] * (ind (in_win s r p) - m / A) | S _ => 0 end) (psi := 0) (vn := 0) (df := df); try assumption.
  - exact no_zero_u.
  - intros z Hz. destruct (Reqb_dec z 0) as [[-> _]|[_ ->]]; lra.
  - intros z p Hz ED. assert (TZ : 0 < (if Reqb z 0 then (0 + 1) / 2 else z) < 1) by (destruct (Reqb_dec z 0) as [[-> ->]|[N ->]]; lra).
    destruct (point_ok lb ub f df h HC SUP H4 H5 H6 _ TZ) as (EP & D & _). rewrite ED in EP. injection EP as ->. exact D.
  - exact (average_ret _ None (score g s r (m / A) d)).
  - intros p Dp. destruct d as [|d].
    + apply (mean_ext _ _ (ret (Some ([p], h)))).
      { intros o k _. unfold via, K. destruct n; reflexivity. }
      match goal with |- mean _ _ ?v => replace v with (score g s r (m / A) 0 (Some ([p], h))) by reflexivity end. apply average_ret.
    + apply (mean_ext _ _ (do r' <- off_zero (ars_run n f df lb ub maxp (Some (S d)) h); ret (option_map (fun q => (p :: fst q, snd q)) r'))); [reflexivity|].
      apply average_map. refine (average_ext _ _ _ _ _ _ (IH d h (fun l => g (p :: l)) GH)). intros [[ys h']|]; [|reflexivity]. unfold score, option_map. cbn [fst snd length Nat.eqb firstn].
      destruct (Nat.eqb_spec (length ys) (S d)) as [EL|]; [|reflexivity]. destruct ys as [|y0 ys]; [cbn in EL; lia|]. reflexivity.
  - intros p Dp. apply (mean_ext _ _ (off_zero (ars_run n f df lb ub maxp (Some (S d)) (next_hull f df maxp h p)))); [reflexivity|]. apply IH.
    unfold next_hull. destruct (Nat.ltb _ _); [apply (good_insert lb ub f df HC h p GH Dp)|exact GH].
  - assert (AN : A <> 0) by lra. assert (ZN : Z_ lb ub f df (h_x h) <> 0) by lra. destruct d as [|d].
    + refine (int_eq _ _ _ _ _ _ (int_lin _ _ _ _ (g []) (- (g [] * (m / A))) _ _ W I) _ _).
      * intros z. cbv beta. unfold ind. destruct (in_win s r (point lb ub f df h z)); ring.
      * field. split; assumption.
    + refine (int_eq _ _ _ _ _ _ (int_zero 0 1) _ eq_refl). intros z. ring.
Qed.

(** the statements *)
Lemma iteration_law lb ub f df maxp h A s r m : strictly_concave_on lb ub f df -> ready lb ub f df h -> target_mass lb ub f A -> window_mass lb ub f s r m ->
  exists Z, envelope_mass lb ub f df (h_x h) Z /\ 0 < A <= Z /\ chance (ars_step f df lb ub maxp h) gives (A / Z) /\ chance (ars_step f df lb ub maxp h) (gives_in s r) (m / Z).
Proof.
  intros HC HR TA (Ds & Dr & Hsr & Hm). destruct (ready_whole lb ub f df h HC HR A TA) as (_ & RA & E). exists (Z_ lb ub f df (h_x h)). split; [exact E|]. split; [exact RA|].
  apply one_step; assumption.
Qed.
Lemma fixed_law lb ub f df maxp h A : strictly_concave_on lb ub f df -> ready lb ub f df h -> (maxp <= length (h_x h))%nat -> target_mass lb ub f A ->
  exists a, 0 < a <= 1 /\ forall n ws ms, Forall2 (fun w m => window_mass lb ub f (fst w) (snd w) m) ws ms ->
    chance (ars_run n f df lb ub maxp (Some (length ws)) h) (all_in ws) (fold_right Rmult 1 (map (fun m => m / A) ms) * at_least a n (length ws)).
Proof.
  intros HC HR HF TA. destruct (ready_whole lb ub f df h HC HR A TA) as (_ & RA & _). exists (A / Z_ lb ub f df (h_x h)). split.
  - split; [apply Rdiv_lt_0_compat; lra|]. apply Rmult_le_reg_r with (Z_ lb ub f df (h_x h)); [lra|]. unfold Rdiv. rewrite Rmult_assoc, Rinv_l by lra. lra.
  - intros n ws ms HW. apply fixed_run; assumption.
Qed.
Lemma fixed_limit lb ub f df maxp h A ws ms : strictly_concave_on lb ub f df -> ready lb ub f df h -> (maxp <= length (h_x h))%nat -> target_mass lb ub f A ->
  Forall2 (fun w m => window_mass lb ub f (fst w) (snd w) m) ws ms ->
  limit_chance (fun n => ars_run n f df lb ub maxp (Some (length ws)) h) (all_in ws) (fold_right Rmult 1 (map (fun m => m / A) ms)).
Proof.
  intros HC HR HF TA HW. destruct (fixed_law lb ub f df maxp h A HC HR HF TA) as (a & Ha & L). set (p := fold_right _ _ _) in *. intros eps He.
  assert (PA : 0 < Rabs p + 1) by (pose proof (Rabs_pos p); lra).
  destruct (at_least_cv a (length ws) Ha (eps / (Rabs p + 1)) ltac:(apply Rdiv_lt_0_compat; lra)) as (N & HN). exists N. intros n Hn. eexists. split; [apply (L n ws ms HW)|]. fold p.
  specialize (HN n Hn). unfold R_dist in HN. replace (p * at_least a n (length ws) - p) with (p * (at_least a n (length ws) - 1)) by ring. rewrite Rabs_mult.
  set (e := Rabs (at_least a n (length ws) - 1)) in *. assert (0 <= e) by apply Rabs_pos. pose proof (Rabs_pos p).
  apply Rmult_lt_compat_r with (r := Rabs p + 1) in HN; [|lra]. unfold Rdiv in HN. rewrite Rmult_assoc, Rinv_l, Rmult_1_r in HN by lra. nra.
Qed.
Lemma adaptive_law lb ub f df maxp A s r m n d h g : strictly_concave_on lb ub f df -> target_mass lb ub f A -> window_mass lb ub f s r m -> good_hull lb ub f df h ->
  average (off_zero (ars_run n f df lb ub maxp (Some (S d)) h)) (score g s r (m / A) d) 0.
Proof. intros HC TA (Ds & Dr & Hsr & Hm) GH. apply adaptive_run; assumption. Qed.
Lemma target_exists lb ub f df h : strictly_concave_on lb ub f df -> ready lb ub f df h -> exists A, target_mass lb ub f A.
Proof. apply ready_target. Qed.
(** windows have masses *)
Lemma window_exists lb ub f df s r : strictly_concave_on lb ub f df -> dom lb ub s -> dom lb ub r -> s <= r -> exists m, window_mass lb ub f s r m.
Proof.
  intros HC Ds Dr Hsr. exists (RInt (V := R_CompleteNormedModule) (fun v => exp (f v)) s r). do 3 (split; [assumption|]).
  apply (RInt_correct (V := R_CompleteNormedModule)). apply (ex_RInt_continuous (V := R_CompleteNormedModule)). rewrite Rmin_left, Rmax_right by lra. intros v Hv.
  assert (dom lb ub v) by (apply (dom_between lb ub s v r); auto). apply continuity_pt_filterlim.
  apply (continuity_pt_comp f exp); [|apply derivable_continuous_pt, derivable_pt_exp]. apply derivable_continuous_pt. exists (df v). apply HC. assumption.
Qed.
Lemma nf_ready : ready NegInf PosInf nf ndf (hull_init nf ndf [1; -(1)]) /\ good_hull NegInf PosInf nf ndf (hull_init nf ndf [1; -(1)]).
Proof.
  assert (E : h_x (hull_init nf ndf [1; -(1)]) = [-(1); 1]).
  { unfold hull_init. cbn [h_x]. unfold np_sort. cbn. replace (Rleb 1 (-(1))) with false; [reflexivity|]. unfold Rleb. destruct (Rle_dec 1 (-(1))); [lra|reflexivity]. }
  split.
  - split; [reflexivity|]. split; [reflexivity|]. rewrite E. split.
    { split; [repeat constructor; lra|]. split; [repeat constructor; simpl; auto|discriminate]. }
    split; [intros a [<-|[<-|[]]]; unfold ndf; lra|]. split; intros _; [unfold ndf; simpl; lra|]. split; [unfold ndf; simpl; lra|simpl; lia].
  - split; [reflexivity|]. split; [reflexivity|]. rewrite E. split; [repeat constructor; lra|]. split; [repeat constructor; simpl; auto|]. split; [discriminate|].
    split; intros _; [unfold ndf; simpl; lra|]. split; [unfold ndf; simpl; lra|simpl; lia].
Qed.
