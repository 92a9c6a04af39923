(** The Ornstein-Uhlenbeck models on continuous paths meet what C106 and C107 ask. *)
From Coquelicot Require Import Hierarchy Continuity RInt.
From Coq Require Import Reals List Bool Arith ZArith Lia Lra.
From Verif Require Import Base Np Rng M_hit M_path M_skel M_seed SpecSkel SpecSeed M_models SpecModels M_sw SpecCan SpecLaw SpecEst SpecExact SpecExact2 SpecExact3 L_models L_models2 L_can4 SpecIrr L_irr6 L_exact3 L_exact9.
Import ListNotations.
Local Open Scope R_scope.

Section Cont.
Context (path : skel -> R -> R) (s : skel) (HL : lies path s) (T : R) (HT : 0 < T).
Lemma frac : forall u, 0 <= u <= T -> 0 <= u / T <= 1.
Proof.
  intros u Hu. split; [apply Rmult_le_pos; [lra|apply Rlt_le, Rinv_0_lt_compat; lra]|]. apply (Rmult_le_reg_r T); [lra|]. unfold Rdiv. rewrite Rmult_assoc, Rinv_l by lra. lra.
Qed.
Lemma along_cont : forall (f : R -> R) c x0 x1, (forall x, continuous f x) -> forall u, 0 <= u <= T -> continuous (along path f s T c x0 x1) u.
Proof.
  intros f c x0 x1 Hf u Hu. unfold along. apply (continuous_comp (fun u => segment_path path s T c x0 x1 u) f); [|apply Hf].
  apply (continuous_comp (fun u => u / T) (fun r => path_at c x0 x1 r (path s r))).
  - apply (continuous_mult (fun u : R => u) (fun _ => / T)); [apply continuous_id|apply continuous_const].
  - unfold path_at. apply (continuous_plus (fun r => path s r * c + x0) (fun r => r * (x1 - x0))).
    + apply (continuous_plus (fun r => path s r * c) (fun _ => x0)); [|apply continuous_const].
      apply (continuous_mult (path s) (fun _ => c)); [|apply continuous_const]. apply HL, frac, Hu.
    + apply (continuous_mult (fun r : R => r) (fun _ => x1 - x0)); [apply continuous_id|apply continuous_const].
Qed.
Lemma cont_integral : forall F : R -> R, (forall u, 0 <= u <= T -> continuous F u) -> is_RInt F 0 T (integral F T).
Proof. intros F HF. apply (RInt_correct (V := R_CompleteNormedModule)). apply (ex_RInt_continuous (V := R_CompleteNormedModule)). rewrite Rmin_left, Rmax_right by lra. exact HF. Qed.
Lemma pos_cont : forall F G : R -> R, (forall u, 0 <= u <= T -> continuous F u) -> (forall u, 0 <= u <= T -> continuous G u) -> forall u, 0 <= u <= T -> continuous (pos_part F G) u.
Proof.
  intros F G HF HG u Hu. unfold pos_part. apply (continuous_comp (fun u => F u - G u) (fun h => Rmax 0 h)); [|apply pos_continuous].
  apply (continuous_minus F G); auto.
Qed.
Lemma in_band : forall c x0 x1 u, 0 < c -> 0 <= u <= T -> low_z s * c + Rmin x0 x1 <= segment_path path s T c x0 x1 u <= high_z s * c + Rmax x0 x1.
Proof.
  intros c x0 x1 u Hc Hu. unfold segment_path, path_at. pose proof (frac u Hu) as F. destruct HL as [_ HP]. destruct (HP _ F) as [[P1 P2] _].
  assert (low_z s * c <= path s (u / T) * c) by (apply Rmult_le_compat_r; lra). assert (path s (u / T) * c <= high_z s * c) by (apply Rmult_le_compat_r; lra).
  set (r := u / T) in *. pose proof (Rmin_l x0 x1). pose proof (Rmin_r x0 x1). pose proof (Rmax_l x0 x1). pose proof (Rmax_r x0 x1).
  assert (Rmin x0 x1 <= x0 + r * (x1 - x0) <= Rmax x0 x1); [|lra]. split; nra.
Qed.
Lemma bound_exact : forall disc bounds c x0 x1, (forall x, continuous disc x) -> 0 < c -> encloses bounds disc -> spread NegInf PosInf bounds ->
  levels (fun u => along path disc s T c x0 x1 u - low_level bounds c x0 x1 s) T ->
  exact_on path disc bounds s T c x0 x1 (integral (along path disc s T c x0 x1) T) (low_level bounds c x0 x1 s) (high_level bounds c x0 x1 s).
Proof.
  intros disc bounds c x0 x1 HD Hc HE HS HV. unfold low_level, high_level in *. set (lo := low_z s * c + Rmin x0 x1) in *. set (hi := high_z s * c + Rmax x0 x1) in *.
  assert (LH : lo < hi). { unfold lo, hi. destruct HL as [H _]. assert (low_z s * c < high_z s * c) by (apply Rmult_lt_compat_r; lra). assert (Rmin x0 x1 <= Rmax x0 x1) by (apply (Rle_trans _ x0); [apply Rmin_l|apply Rmax_l]). lra. }
  destruct (HS lo hi LH) as (inf & le & ue & E & LU); try (split; exact Logic.I). specialize (HE lo hi ltac:(lra)). rewrite E in HV, HE. cbn [fst snd] in HV.
  unfold exact_on. fold lo. fold hi. rewrite E. cbn [fst snd]. split; [exists inf; reflexivity|].
  pose proof (cont_integral _ (along_cont disc c x0 x1 HD)) as DI.
  split; [lra|]. split; [lra|]. split; [|split; [|exact HV]].
  - intros u Hu. destruct (HE (segment_path path s T c x0 x1 u)) as [A B]; [apply in_band; auto|]. cbn in B. lra.
  - pose proof (is_RInt_const (V := R_NormedModule) 0 T le) as DC. unfold scal in DC; cbn in DC. unfold mult in DC; cbn in DC. replace (T - 0) with T in DC by ring.
    exact (is_RInt_minus (V := R_NormedModule) _ _ _ _ _ _ DI DC).
Qed.
Lemma diff_compared : forall (f g : R -> R) c x0 x1 c' y0 y1 C, (forall x, continuous f x) -> (forall x, continuous g x) -> 0 < C ->
  (forall u z, 0 <= u <= 1 -> low_z s <= z <= high_z s -> Rabs (f (path_at c x0 x1 u z) - g (path_at c' y0 y1 u z)) <= C) ->
  let F := along path f s T c x0 x1 in let G := along path g s T c' y0 y1 in levels (pos_part F G) T -> levels (pos_part G F) T ->
  compared path f g s T c x0 x1 c' y0 y1 C (integral F T) (integral G T) (integral (pos_part F G) T) (integral (pos_part G F) T).
Proof.
  intros f g c x0 x1 c' y0 y1 C Hf Hg HC HD F G L1 L2. pose proof (along_cont f c x0 x1 Hf) as CF. pose proof (along_cont g c' y0 y1 Hg) as CG.
  assert (B : forall u, 0 <= u <= T -> Rabs (F u - G u) <= C). { intros u Hu. destruct (proj2 HL _ (frac u Hu)) as [P _]. apply HD; auto. apply frac; auto. }
  split; [exact (cont_integral _ CF)|]. split; [exact (cont_integral _ CG)|]. split; (split; [exact HT|split; [exact HC|split; [|split]]]).
  - intros u Hu. pose proof (B u Hu) as B'. assert (B1 : F u - G u <= C /\ G u - F u <= C) by (clear - B'; unfold Rabs in B'; destruct (Rcase_abs _); lra). unfold F, G, along in B1. split; [apply Rmax_l|]. apply Rmax_lub; lra.
  - exact (cont_integral _ (pos_cont F G CF CG)).
  - exact L1.
  - intros u Hu. pose proof (B u Hu) as B'. assert (B1 : F u - G u <= C /\ G u - F u <= C) by (clear - B'; unfold Rabs in B'; destruct (Rcase_abs _); lra). unfold F, G, along in B1. split; [apply Rmax_l|]. apply Rmax_lub; lra.
  - exact (cont_integral _ (pos_cont G F CG CF)).
  - exact L2.
Qed.
End Cont.

Lemma quad_cont : forall (f : R -> R) a b, (forall x, f x = a * (x * x) + b) -> forall x, continuous f x.
Proof.
  intros f a b E x. apply (continuous_ext (fun x => a * (x * x) + b)); [intros y; symmetry; apply E|].
  apply (continuous_plus (fun x => a * (x * x)) (fun _ => b)); [|apply continuous_const]. apply (continuous_mult (fun _ => a) (fun x => x * x)); [apply continuous_const|].
  apply (continuous_mult (fun x : R => x) (fun x => x)); apply continuous_id.
Qed.
Lemma ou_cont thi x : continuous (ou_disc thi) x.
Proof. apply (quad_cont _ (par thi 0 ^ 2 / 2) (- par thi 0 / 2)). intros y. unfold ou_disc, ito_disc, ou_drift, ou_dx. field. Qed.
Lemma sw_facts : forall vol disc bounds grad thi y b g, ou_switching vol disc bounds grad -> row thi y = [b; g] -> 0 < b -> 0 < g ->
  (forall x, continuous (disc thi y) x) /\ 0 < vol thi y /\ encloses (bounds thi y) (disc thi y).
Proof.
  intros vol disc bounds grad thi y b g HM HR Hb Hg. assert (P : par2 thi y 0 = b /\ par2 thi y 1 = g) by (unfold par2; rewrite HR; split; reflexivity). destruct P as [P0 P1].
  destruct HM as [(-> & -> & -> & ->)|[(-> & -> & -> & ->)|(-> & -> & -> & ->)]].
  - split; [|split].
    + apply (quad_cont _ ((par2 thi y 0 * par2 thi y 1) ^ 2 / 2) (- par2 thi y 0 / 2)). intros x. unfold ou1_disc, sw_disc, ou1_drift, ou1_dx, ou1_vol. field. lra.
    + unfold ou1_vol. rewrite P1. apply Rdiv_lt_0_compat; lra.
    + apply tight_encloses. intros l u. apply ou1_bounds. lra.
  - split; [|split].
    + apply (quad_cont _ (par2 thi y 1 ^ 2 / 2) (- par2 thi y 0 / 2)). intros x. unfold ou2_disc, sw_disc, ou2_drift, ou2_dx, ou2_vol. field. split; lra.
    + unfold ou2_vol. rewrite P0, P1. apply Rdiv_lt_0_compat; lra.
    + apply tight_encloses. intros l u. apply ou2_bounds; lra.
  - destruct (prod_two thi y b g HR) as (Q & _ & _). split; [|split].
    + apply (quad_cont _ (g ^ 2 / 2) (- (b * g) / 4)). intros x. unfold ou3_disc, sw_disc, ou3_drift, ou3_dx, ou3_vol. rewrite Q, P0. field. lra.
    + unfold ou3_vol. rewrite P0. lra.
    + apply tight_encloses. intros l u. apply (ou3_bounds thi y b g); auto.
Qed.
Lemma sw_apart : forall vol disc bounds grad thi y, ou_switching vol disc bounds grad -> Forall pos2 thi -> (y < length thi)%nat -> spread NegInf PosInf (bounds thi y).
Proof.
  intros vol disc bounds grad thi y HM HP HY. destruct HM as [(-> & -> & -> & ->)|[(-> & -> & -> & ->)|(-> & -> & -> & ->)]].
  - exact (ou1_wide _ thi eq_refl HP y HY NegInf PosInf).
  - exact (ou2_wide _ thi eq_refl HP y HY NegInf PosInf).
  - exact (ou3_wide _ thi eq_refl HP y HY NegInf PosInf).
Qed.
Lemma sw_bound : forall vol disc bounds grad thi thi' y b g b' g' T v0 v1 s u z, ou_switching vol disc bounds grad -> row thi y = [b; g] -> row thi' y = [b'; g'] -> 0 < b -> 0 < g -> 0 < b' -> 0 < g' -> 0 < T ->
  0 <= u <= 1 -> low_z s <= z <= high_z s ->
  Rabs (disc thi y (path_at (sqrt T * vol thi y) v0 v1 u z) - disc thi' y (path_at (sqrt T * vol thi' y) v0 v1 u z)) <=
  sw_intensity (row thi y) (row thi' y) (grad (row thi y) (row thi' y) T v0 v1 (k_loose s) (k_tight s)).
Proof.
  intros vol disc bounds grad thi thi' y b g b' g' T v0 v1 s u z HM R1 R2. rewrite R1, R2. intros. destruct HM as [(-> & -> & -> & ->)|[(-> & -> & -> & ->)|(-> & -> & -> & ->)]].
  - apply ou1_diff; auto.
  - apply ou2_diff; auto.
  - apply ou3_diff; auto.
Qed.

Lemma sw_known_hidden : forall path vol disc bounds grad thi z h n, ou_switching vol disc bounds grad -> Forall pos2 thi -> Forall (fun y => (y < length thi)%nat) (a_y h) ->
  pieces_of z h n -> (forall j, (j < n)%nat -> 0 < span (a_t h) j) -> Forall (lies path) z ->
  (forall j s, nth_error z j = Some s -> levels (fun u => sw_along path (vol thi) (disc thi) h j s u - sw_low (vol thi) (bounds thi) h j s) (span (a_t h) j)) ->
  known_hidden path (vol thi) (disc thi) (bounds thi) z h n (fun j => piece z j (fun s => integral (sw_along path (vol thi) (disc thi) h j s) (span (a_t h) j)))
    (fun j => piece z j (sw_low (vol thi) (bounds thi) h j)) (fun j => piece z j (sw_high (vol thi) (bounds thi) h j)).
Proof.
  intros path vol disc bounds grad thi z h n HM HP HY HZ HI HL HV. split; [exact HZ|]. intros j s E. cbv zeta. unfold piece. rewrite E.
  destruct HZ as (N & LZ & LT & LY & LV). assert (Hj : (j < n)%nat) by (rewrite <- LZ; apply nth_error_Some; congruence).
  assert (HYJ : (nth j (a_y h) 0 < length thi)%nat). { rewrite Forall_forall in HY. apply HY, nth_In. lia. }
  destruct (pos_row _ thi _ eq_refl HP HYJ) as (b & g & R1 & Hb & Hg).
  destruct (sw_facts _ _ _ _ thi _ b g HM R1 Hb Hg) as (F1 & F2 & F3).
  specialize (HI j Hj). rewrite Forall_forall in HL. apply bound_exact; auto.
  - apply HL. eapply nth_error_In, E.
  - apply Rmult_lt_0_compat; [now apply sqrt_lt_R0|exact F2].
  - eapply sw_apart; eauto.
  - exact (HV j s E).
Qed.
Lemma sw_known_params : forall path vol disc bounds grad thi q i z h n, ou_switching vol disc bounds grad -> Forall pos2 thi -> pos2 q -> (i < length thi)%nat ->
  pieces_of z h n -> (forall j, (j < n)%nat -> 0 < span (a_t h) j) -> Forall (lies path) z ->
  let thi' := list_set thi i q in
  let C j := piece z j (fun s => sw_intensity (row thi i) (row thi' i) (grad (row thi i) (row thi' i) (span (a_t h) j) (nth j (a_v h) 0) (nth (S j) (a_v h) 0) (k_loose s) (k_tight s))) in
  let F j s := sw_along path (vol thi) (disc thi) h j s in let G j s := sw_along path (vol thi') (disc thi') h j s in
  (forall j s, nth_error z j = Some s -> nth j (a_y h) 0%nat = i -> 0 < C j /\ levels (pos_part (F j s) (G j s)) (span (a_t h) j) /\ levels (pos_part (G j s) (F j s)) (span (a_t h) j)) ->
  known_params path vol disc grad thi thi' z h i n C (fun j => piece z j (fun s => integral (F j s) (span (a_t h) j))) (fun j => piece z j (fun s => integral (G j s) (span (a_t h) j)))
    (fun j => piece z j (fun s => integral (pos_part (F j s) (G j s)) (span (a_t h) j))) (fun j => piece z j (fun s => integral (pos_part (G j s) (F j s)) (span (a_t h) j))).
Proof.
  intros path vol disc bounds grad thi q i z h n HM HP HQ Hi HZ HI HL thi' C F G HV. split; [exact HZ|]. intros j s E Y. cbv zeta.
  destruct (HV j s E Y) as (HC & L1 & L2). clear HV. unfold C, piece in *. rewrite E in *. split; [reflexivity|].
  destruct HZ as (N & LZ & _). assert (Hj : (j < n)%nat) by (rewrite <- LZ; apply nth_error_Some; congruence). specialize (HI j Hj).
  destruct (pos_row _ thi _ eq_refl HP Hi) as (b & g & R1 & Hb & Hg). destruct HQ as (b' & g' & -> & Hb' & Hg').
  assert (R2 : row thi' i = [b'; g']). { unfold thi', row. apply nth_error_nth. destruct (nth_error thi i) as [q1|] eqn:NQ; [exact (list_set_at _ thi i q1 [b'; g'] NQ)|]. apply nth_error_None in NQ. lia. }
  unfold F, G, sw_along in *. rewrite Y in *.
  apply (diff_compared path s) with (C := sw_intensity (row thi i) (row thi' i) (grad (row thi i) (row thi' i) (span (a_t h) j) (nth j (a_v h) 0) (nth (S j) (a_v h) 0) (k_loose s) (k_tight s))); auto.
  - rewrite Forall_forall in HL. apply HL. eapply nth_error_In, E.
  - exact (proj1 (sw_facts _ _ _ _ thi i b g HM R1 Hb Hg)).
  - exact (proj1 (sw_facts _ _ _ _ thi' i b' g' HM R2 Hb' Hg')).
  - intros u z0 Hu Hz0. exact (sw_bound vol disc bounds grad thi thi' i b g b' g' _ _ _ s u z0 HM R1 R2 Hb Hg Hb' Hg' HI Hu Hz0).
Qed.
Lemma ito_known : forall path thi b sg i q z t vt n, thi = [b; sg] -> 0 < b -> 0 < sg -> 0 < q -> (i < 2)%nat ->
  (0 < n)%nat -> length z = n -> length t = S n -> length vt = S n -> (forall j, (j < n)%nat -> 0 < span t j) -> Forall (lies path) z ->
  let thi' := list_set thi i q in
  let C j := piece z j (fun s => ito_intensity thi thi' (ou_bounds_grad thi thi' (span t j) (nth j vt 0) (nth (S j) vt 0) (k_loose s) (k_tight s))) in
  let F j s := ito_along path (ou_reduce thi) (ou_disc thi) t vt j s in let G j s := ito_along path (ou_reduce thi') (ou_disc thi') t vt j s in
  (forall j s, nth_error z j = Some s -> 0 < C j /\ levels (pos_part (F j s) (G j s)) (span t j) /\ levels (pos_part (G j s) (F j s)) (span t j)) ->
  known_ito path ou_reduce ou_disc ou_bounds_grad thi thi' z t vt n C (fun j => piece z j (fun s => integral (F j s) (span t j))) (fun j => piece z j (fun s => integral (G j s) (span t j)))
    (fun j => piece z j (fun s => integral (pos_part (F j s) (G j s)) (span t j))) (fun j => piece z j (fun s => integral (pos_part (G j s) (F j s)) (span t j))).
Proof.
  intros path thi b sg i q z t vt n -> Hb Hg Hq Hi N LZ LT LV HI HL thi' C F G HV. split; [exact N|]. do 3 (split; [assumption|]). intros j s E. cbv zeta.
  destruct (HV j s E) as (HC & L1 & L2). clear HV. unfold C, piece in *. rewrite E in *. split; [reflexivity|].
  assert (Hj : (j < n)%nat) by (rewrite <- LZ; apply nth_error_Some; congruence). specialize (HI j Hj).
  assert (R2 : exists b' sg', thi' = [b'; sg'] /\ 0 < b' /\ 0 < sg'). { unfold thi'. destruct i as [|[|i]]; [exists q, sg|exists b, q|lia]; repeat split; auto. }
  destruct R2 as (b' & g' & R2 & Hb' & Hg').
  unfold F, G, ito_along in *.
  apply (diff_compared path s) with (C := ito_intensity [b; sg] thi' (ou_bounds_grad [b; sg] thi' (span t j) (nth j vt 0) (nth (S j) vt 0) (k_loose s) (k_tight s))); auto.
  - rewrite Forall_forall in HL. apply HL. eapply nth_error_In, E.
  - apply ou_cont.
  - apply ou_cont.
  - intros u z0 Hu Hz0. rewrite R2. apply ou_diff; auto.
Qed.
Lemma ito_exact : forall path thi s T x0 x1, 0 < par thi 0 -> 0 < T -> lies path s ->
  let bounds := as_bounds (ou_bounds_disc thi) in
  levels (fun u => along path (ou_disc thi) s T (sqrt T) x0 x1 u - low_level bounds (sqrt T) x0 x1 s) T ->
  exact_on path (ou_disc thi) bounds s T (sqrt T) x0 x1 (integral (along path (ou_disc thi) s T (sqrt T) x0 x1) T) (low_level bounds (sqrt T) x0 x1 s) (high_level bounds (sqrt T) x0 x1 s).
Proof.
  intros path thi s T x0 x1 HB HT HL bounds HV. apply bound_exact; auto.
  - apply ou_cont.
  - now apply sqrt_lt_R0.
  - apply tight_encloses. intros l u. apply ou_bounds.
  - now apply ou_spread.
Qed.
