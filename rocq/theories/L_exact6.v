(** The dual coin on a known path; several coins; the steps with their pre-coins. *)
From Coquelicot Require Import Rcomplements Hierarchy RInt.
From Coq Require Import Reals List Bool Arith ZArith Lra Lia Psatz Permutation FunctionalExtensionality.
From Verif Require Import Base Np Rng L_list L_rng M_mjp M_hit M_path M_skel M_seed SpecSkel SpecSeed L_seed M_bf M_models M_sw M_mcem M_ito SpecLaw SpecCoin SpecEst SpecExact SpecExact2 SpecFactory
  L_ppp L_skel6 L_law L_law2 L_law3 L_law4 L_law5 L_law6 L_exact L_exact2 L_exact3 L_exact4 L_sde3.
Import ListNotations.
Local Open Scope R_scope.

(** ** instances *)
Lemma seed_coin_instance : forall fuel mp maxp, seed_poisson_coin fuel mp maxp = seed_coin_with (interpolate_skeleton fuel mp maxp).
Proof.
  assert (L : forall fuel mp maxp n norm denorm disc bd t le p s, seed_loop fuel mp maxp n norm denorm disc bd t le p s = seed_loop_with (interpolate_skeleton fuel mp maxp) n norm denorm disc bd t le p s).
  { intros fuel mp maxp n norm denorm disc bd t le. induction n as [|n IH]; intros p s; [reflexivity|]. cbn [seed_loop seed_loop_with]. f_equal. apply functional_extensionality. intros [[bt p']|]; [|reflexivity]. cbv zeta.
    change (interp_seed_with (interpolate_skeleton fuel mp maxp)) with (interpolate_seed fuel mp maxp). f_equal. apply functional_extensionality. intros q. f_equal. apply functional_extensionality. intros low. rewrite IH. reflexivity. }
  intros. do 6 (apply functional_extensionality; intros ?). unfold seed_poisson_coin, seed_coin_with. f_equal. apply functional_extensionality. intros [[ts le] ue]. destruct (all_some (gaps ue le)); [|reflexivity].
  f_equal. apply functional_extensionality. intros it. f_equal. apply functional_extensionality. intros ft. f_equal. apply functional_extensionality. intros p. rewrite L. reflexivity.
Qed.
Lemma dual_instance : forall fuel mp maxp, flip_dual_coin fuel mp maxp = dual_coin_with (interpolate_skeleton fuel mp maxp).
Proof.
  assert (L : forall fuel mp maxp n a b c d f g up it ft p s, dual_loop fuel mp maxp n a b c d f g up it ft p s = dual_loop_with (interpolate_skeleton fuel mp maxp) n a b c d f g up it ft p s).
  { intros fuel mp maxp n a b c d f g up it ft. induction n as [|n IH]; intros p s; [reflexivity|]. cbn [dual_loop dual_loop_with]. f_equal. apply functional_extensionality. intros [[bt p']|]; [|reflexivity]. cbv zeta.
    change (interp_seed_with (interpolate_skeleton fuel mp maxp)) with (interpolate_seed fuel mp maxp). do 3 (f_equal; apply functional_extensionality; intros ?). rewrite IH. reflexivity. }
  intros. do 10 (apply functional_extensionality; intros ?). unfold flip_dual_coin, dual_coin_with. do 2 (f_equal; apply functional_extensionality; intros ?). rewrite L. reflexivity.
Qed.
Lemma hidden_instance : forall fuel mp maxp, update_hidden_section fuel mp maxp = hidden_section_with (interpolate_skeleton fuel mp maxp).
Proof.
  intros fuel mp maxp. assert (E : flip_hidden_coins fuel mp maxp = hidden_coins_with (interpolate_skeleton fuel mp maxp)).
  { unfold flip_hidden_coins, hidden_coins_with. rewrite seed_coin_instance. reflexivity. }
  unfold update_hidden_section, hidden_section_with. rewrite E. reflexivity.
Qed.
Lemma params_instance : forall fuel mp maxp, update_params_section fuel mp maxp = params_section_with (interpolate_skeleton fuel mp maxp).
Proof.
  intros fuel mp maxp. assert (E : flip_param_coins fuel mp maxp = sw_coins_with (interpolate_skeleton fuel mp maxp)).
  { unfold flip_param_coins, sw_coins_with, sw_param_coin, sw_coin_with. rewrite dual_instance. reflexivity. }
  unfold update_params_section, params_section_with. rewrite E. reflexivity.
Qed.
Lemma ito_instance : forall fuel mp maxp reduce disc grad log_prior loglik batch pre pr maxf propose thi z t vt, thi <> [] ->
  ito_params fuel mp maxp reduce disc grad log_prior loglik batch pre pr maxf propose thi z t vt =
  (do sector <- draw_n (DPick (length thi)); ito_sector_with (interpolate_skeleton fuel mp maxp) reduce disc grad log_prior loglik batch pre pr maxf propose thi z t vt sector).
Proof.
  intros fuel mp maxp reduce disc grad log_prior loglik batch pre pr maxf propose thi z t vt H. assert (E : ito_flip_param_coins fuel mp maxp = ito_coins_with (interpolate_skeleton fuel mp maxp)).
  { unfold ito_flip_param_coins, ito_coins_with, ito_param_coin, ito_coin_with. rewrite dual_instance. reflexivity. }
  unfold ito_params, ito_sector_with. destruct thi; [congruence|]. cbn [length Nat.eqb]. rewrite E. reflexivity.
Qed.

(** ** the dual coin *)
Lemma gap_max : forall up a b, dual_gap up a b = Rmax 0 (if up then b - a else a - b).
Proof. intros [] a b; unfold dual_gap; match goal with |- context [Rltb ?x ?y] => destruct (Rltb_dec x y) as [[X ->]|[X ->]] end; [rewrite Rmax_right by lra|rewrite Rmax_left by lra|rewrite Rmax_right by lra|rewrite Rmax_left by lra]; reflexivity. Qed.
Lemma frozen_total : forall w disc cent T b m, 0 < T -> 0 < b -> (0 < m)%nat ->
  total (do p <- ppp_start 1 [b; T] m; coin_with (frozen w) (S (length (pp_sizes p))) disc [b; T] cent p tt) (fun _ => True).
Proof.
  intros w disc cent T b m0 HT Hb HB o k V. pose proof (start_run b T m0 o k) as SR. unfold bind. destruct (ppp_start 1 [b; T] m0 o k) as [[q|e|] k1]; [|destruct SR as (_ & _ & [X|[X|X]]); lra || lia|contradiction].
  destruct SR as (_ & _ & _ & _ & SZ & _ & UB). destruct q as [m sizes u]. cbn [pp_n pp_sizes pp_ub] in *. assert (HU : 0 <= u) by lra. clear UB. revert u HU k1. clear k.
  induction sizes as [|i rest IH]; intros u HU k1; [cbn; exact Logic.I|]. inversion SZ as [|? ? Si Sr]; subst. cbn [length]. remember (S (length rest)) as n. cbn [coin_with].
  pose proof (ppp_next_ok b [T] Hb ltac:(constructor; [exact HT|constructor]) (fun _ => True) (mk_ppp m (i :: rest) u) i rest eq_refl Si HU o k1 V Logic.I) as N.
  unfold bind at 1. destruct (ppp_next [b; T] (mk_ppp m (i :: rest) u) o k1) as [[r|e|] k2]; try contradiction.
  cbn [fst] in N. destruct N as (bt & p' & -> & N1 & N2 & N3 & _). cbv zeta. rewrite (run_bind _ _ _ _ _ _ (eq_refl : frozen _ tt _ o k2 = (Ok _, k2))).
  destruct (existsb _ _); [cbn; exact Logic.I|]. destruct p' as [m' sz u']. cbn [pp_n pp_ub pp_sizes fst snd] in *. subst m' sz n. apply (IH Sr u'). lra.
Qed.
Section Dual.
Context (path : skel -> R -> R) (norm denorm norm' denorm' : normop) (T c x0 x1 c' y0 y1 : R) (OP : operators norm denorm T c x0 x1) (OP' : operators norm' denorm' T c' y0 y1) (HT : 0 < T).
Context (f g : R -> R) (up : bool) (s : skel).
Let gap u := Rmax 0 (if up then g (segment_path path s T c' y0 y1 u) - f (segment_path path s T c x0 x1 u) else f (segment_path path s T c x0 x1 u) - g (segment_path path s T c' y0 y1 u)).
Lemma dual_pinned_loop : forall b, 0 < b -> (forall u, 0 <= u <= T -> gap u <= b) -> forall n m sizes u, sizes_ok m sizes -> 0 <= u -> forall o k, valid o ->
  dual_loop_with (pinned path) n norm denorm norm' denorm' f g up b T (mk_ppp m sizes u) s o k =
  (do r <- coin_with (frozen (fun u => u)) n gap [b; T] 0 (mk_ppp m sizes u) tt; ret (fst r, s)) o k.
Proof.
  intros b Hb HG n. induction n as [|n IH]; intros m sizes u SZ HU o k V; [reflexivity|]. cbn [dual_loop_with coin_with].
  destruct sizes as [|i rest]; [reflexivity|]. inversion SZ as [|? ? Si Sr]; subst.
  pose proof (ppp_next_ok b [T] Hb ltac:(constructor; [exact HT|constructor]) (fun _ => True) (mk_ppp m (i :: rest) u) i rest eq_refl Si HU o k V Logic.I) as N.
  unfold bind at 1. symmetry. unfold bind at 1. unfold bind at 1. symmetry. destruct (ppp_next [b; T] (mk_ppp m (i :: rest) u) o k) as [[r|e|] k1]; try contradiction.
  cbn [fst] in N. destruct N as (bt & p' & -> & N1 & N2 & N3 & _ & N5 & _). cbv zeta. cbn [pp_n pp_ub pp_sizes] in *.
  rewrite (run_bind _ _ _ _ _ _ (interp_pinned path norm denorm T c x0 x1 OP s _ o k1)). cbn [fst snd].
  rewrite (run_bind _ _ _ _ _ _ (interp_pinned path norm' denorm' T c' y0 y1 OP' s _ o k1)). cbn [fst snd].
  assert (F : Forall (fun u => 0 <= u < T) (map (fun r => nth 1 r 0) (col1_sort bt))).
  { apply Forall_forall. intros x Hx. apply in_map_iff in Hx as (r & <- & Hr). apply (Permutation_in r (col1_sort_perm' bt)) in Hr. rewrite Forall_forall in N5. destruct (N5 r Hr) as (t & l & -> & _ & BX).
    inversion BX as [|? y ? ? By]; subst. cbn. exact By. }
  assert (GE : forall l, map (fun c0 : R * R => dual_gap up (f (fst c0)) (g (snd c0))) (combine (map (segment_path path s T c x0 x1) l) (map (segment_path path s T c' y0 y1) l)) = map gap l).
  { intros l. induction l as [|x l IHl]; [reflexivity|]. cbn [map combine fst snd]. rewrite IHl, gap_max. reflexivity. }
  rewrite GE. assert (AS : existsb (fun v => Rltb b v) (map gap (map (fun r => nth 1 r 0) (col1_sort bt))) = false).
  { revert F. generalize (map (fun r => nth 1 r 0) (col1_sort bt)). intros l F. induction F as [|x l Hx F IHl]; [reflexivity|]. cbn [map existsb]. rewrite IHl. rewrite (proj2 (Rltb_false b (gap x))); [reflexivity|]. apply HG. lra. }
  rewrite AS. cbn [negb assert_]. erewrite run_bind by reflexivity.
  rewrite (run_bind _ _ _ _ _ _ (eq_refl : frozen _ tt _ o k1 = (Ok _, k1))). cbn [fst snd].
  assert (EX : forall l : list (list R), existsb (fun c0 : R * R => Rltb (snd c0) (fst c0)) (combine (map gap (map (fun r => nth 1 r 0) l)) (map (fun r => nth 0 r 0) l)) =
    existsb (fun c0 : R * R => Rltb (snd c0) (gap (fst c0) - 0)) (combine (map (fun u => u) (map (fun r => nth 1 r 0) l)) (map (fun r => nth 0 r 0) l))).
  { intros l. induction l as [|r l IHl]; [reflexivity|]. cbn [map combine existsb fst snd]. rewrite IHl, Rminus_0_r. reflexivity. }
  rewrite EX. match goal with |- (if ?e then _ else _) o k1 = (let (_, _) := (if ?e' then _ else _) o k1 in _) => change e' with e; destruct e end; [reflexivity|]. destruct p' as [m' sz u']. cbn [pp_n pp_ub pp_sizes] in *. subst m' sz. apply (IH m rest u' Sr ltac:(lra) o k1 V).
Qed.
Let cn b batch := do p <- ppp_start 1 [b; T] batch; coin_with (frozen (fun u => u)) (S (length (pp_sizes p))) gap [b; T] 0 p tt.
Lemma dual_run : forall b v batch, regular gap T b v -> forall o k, valid o ->
  dual_coin_with (pinned path) s b norm denorm f norm' denorm' g up batch o k = (do r <- cn b batch; ret (fst r, s)) o k.
Proof.
  intros b v batch (_ & Hb & HG & _) o k V. unfold dual_coin_with. rewrite (op_denorm_none _ _ _ _ _ _ OP). cbn [map fst hd_error]. erewrite run_bind by reflexivity. replace (1 * T) with T by ring.
  unfold cn. pose proof (start_run b T batch o k) as SR. unfold bind. destruct (ppp_start 1 [b; T] batch o k) as [[q|e|] k1]; try reflexivity.
  destruct SR as (_ & _ & _ & _ & SZ & _ & UB). destruct q as [m sizes u]. cbn [pp_n pp_sizes pp_ub] in *. subst u.
  rewrite (dual_pinned_loop b Hb (fun u Hu => proj2 (HG u Hu)) _ m sizes 0 SZ (Rle_refl 0) o k1 V). reflexivity.
Qed.
Lemma dual_coin_law : forall b v batch, regular gap T b v -> (0 < batch)%nat ->
  total (dual_coin_with (pinned path) s b norm denorm f norm' denorm' g up batch) (fun r => snd r = s) /\
  exists p, chance (dual_coin_with (pinned path) s b norm denorm f norm' denorm' g up batch) fst p /\ Rabs (p - exp (- v)) <= poisson_tail (b * T) batch.
Proof.
  intros b v batch RG HB. pose proof RG as (_ & Hb & HG & _).
  assert (RG' : regular (fun u => gap ((fun u => u) u) - 0) T b v).
  { replace (fun u => gap ((fun u => u) u) - 0) with gap; [exact RG|]. apply functional_extensionality. intros u. symmetry. apply Rminus_0_r. }
  destruct (frozen_law (fun u => u) gap 0 T b v batch RG' HB) as (p & Hp & HE).
  pose proof (dual_run b v batch RG) as RUN.
  pose proof (frozen_total (fun u => u) gap 0 T b batch HT Hb HB) as TC. change (chance (cn b batch) fst p) in Hp. change (total (cn b batch) (fun _ => True)) in TC.
  split.
  - intros o k V. rewrite RUN by exact V. specialize (TC o k V). unfold bind. destruct (cn b batch o k) as [[r|e|] k1]; cbn in *; auto.
  - exists p. split; [|exact HE]. unfold chance. apply (average_comp _ _ _ _ _ RUN). apply average_map. exact Hp.
Qed.
End Dual.
(** the two directions flip the same coins *)
Lemma dual_swap : forall path norm denorm norm' denorm' T c x0 x1 c' y0 y1 f g up s b v batch, operators norm denorm T c x0 x1 -> operators norm' denorm' T c' y0 y1 ->
  regular (fun u => Rmax 0 (if (up : bool) then g (segment_path path s T c' y0 y1 u) - f (segment_path path s T c x0 x1 u) else f (segment_path path s T c x0 x1 u) - g (segment_path path s T c' y0 y1 u))) T b v ->
  forall o k, valid o -> dual_coin_with (pinned path) s b norm denorm f norm' denorm' g up batch o k = dual_coin_with (pinned path) s b norm' denorm' g norm denorm f (negb up) batch o k.
Proof.
  intros path norm denorm norm' denorm' T c x0 x1 c' y0 y1 f g up s b v batch OP OP' RG o k V.
  assert (E : (fun u => Rmax 0 (if up then g (segment_path path s T c' y0 y1 u) - f (segment_path path s T c x0 x1 u) else f (segment_path path s T c x0 x1 u) - g (segment_path path s T c' y0 y1 u))) =
    (fun u => Rmax 0 (if negb up then f (segment_path path s T c x0 x1 u) - g (segment_path path s T c' y0 y1 u) else g (segment_path path s T c' y0 y1 u) - f (segment_path path s T c x0 x1 u)))) by (destruct up; reflexivity).
  pose proof (proj1 RG) as HT.
  rewrite (dual_run path norm denorm norm' denorm' T c x0 x1 c' y0 y1 OP OP' HT f g up s b v batch RG o k V).
  rewrite E in RG. rewrite (dual_run path norm' denorm' norm denorm T c' y0 y1 c x0 x1 OP' OP HT g f (negb up) s b v batch RG o k V). destruct up; reflexivity.
Qed.
