(** The uniform law is the only one that redrawing a cut path keeps, the stationary law the only one
    that redrawing an uncut path keeps. *)
From Coquelicot Require Import Rcomplements Hierarchy.
From Coq Require Import Reals List Bool Arith Lia Lra Psatz.
From Verif Require Import Base Np Rng L_rng M_mjp SpecMjp SpecLin SpecLaw SpecFdd SpecRedraw L_law L_law2 L_stat L_mutate L_fdd3 L_fwd4 L_fwd5 L_fwd6 L_fwd7 L_redraw L_redraw2 L_redraw3 L_mat Mat.
Import ListNotations.
Local Open Scope R_scope.

Lemma cut_obs_app : forall Ts r ys t, length ys = length Ts -> cut_obs t (Ts ++ r) ys = cut_obs t Ts ys.
Proof.
  induction Ts as [|T Ts IH]; intros r [|y ys] t E; try discriminate; [destruct r; reflexivity|]. cbn [app cut_obs]. rewrite IH by (cbn in E; lia). reflexivity.
Qed.
Lemma uniform_kept : forall L dim gen, (2 <= dim)%nat -> generator dim gen -> pos_off dim gen -> expm_exact L ->
  forall p : vec, (forall i, (i < dim)%nat -> p i = / INR dim) -> forall pieces, (2 <= length pieces)%nat -> askable dim pieces -> redraw_keeps L dim gen p pieces.
Proof.
  intros L dim gen Hd Hg Ho HL p PU pieces HN A ps HP. destruct pieces as [|[T0 o0] r]; [cbn in HN; lia|].
  destruct (exists_last (l := r)) as (mids & [Tq oq] & ->). { intros ->. cbn in HN. lia. }
  assert (EN : (length ((T0, o0) :: mids ++ [(Tq, oq)]) - 1)%nat = S (length mids)) by (cbn [length]; rewrite app_length; cbn; lia).
  rewrite EN in *. destruct (redraw_invariant L dim gen Hd Hg Ho HL p PU T0 o0 mids Tq oq A ps HP) as (l & L1 & L2). exists l. split; [exact L1|].
  rewrite <- L2. apply sum_states_ext. intros ys E _. f_equal. apply rsum_ext. intros x _. cbn [map fst]. rewrite map_app.
  change (T0 :: map fst mids ++ map fst [(Tq, oq)]) with ((T0 :: map fst mids) ++ map fst [(Tq, oq)]). rewrite cut_obs_app by (cbn [length]; rewrite map_length; exact E). reflexivity.
Qed.
Lemma has_max : forall n (p : vec), exists m, (m < S n)%nat /\ forall j, (j < S n)%nat -> p j <= p m.
Proof.
  induction n as [|n IH]; intros p.
  - exists 0%nat. split; [lia|]. intros j Hj. replace j with 0%nat by lia. lra.
  - destruct (IH p) as (m & Hm & M). destruct (Rle_dec (p m) (p (S n))) as [K|K].
    + exists (S n). split; [lia|]. intros j Hj. destruct (Nat.eq_dec j (S n)) as [->|N]; [lra|]. apply (Rle_trans _ (p m)); [apply M; lia|exact K].
    + exists m. split; [lia|]. intros j Hj. destruct (Nat.eq_dec j (S n)) as [->|N]; [lra|]. apply M. lia.
Qed.
(** a vector kept by a matrix with positive entries whose columns sum to one is constant *)
Lemma positive_kernel : forall dim (K : mat) (p : vec), (forall x i, (x < dim)%nat -> (i < dim)%nat -> 0 < K x i) -> (forall i, (i < dim)%nat -> rsum dim (fun x => K x i) = 1) ->
  (forall i, (i < dim)%nat -> rsum dim (fun x => p x * K x i) = p i) -> forall i j, (i < dim)%nat -> (j < dim)%nat -> p i = p j.
Proof.
  intros dim K p KP KS KI. destruct dim as [|n]; [intros; lia|]. destruct (has_max n p) as (m & Hm & M).
  assert (E : forall i, (i < S n)%nat -> p i = p m).
  { intros i Hi. destruct (Rle_lt_or_eq_dec _ _ (M i Hi)) as [LT|EQ]; [|exact EQ]. exfalso.
    assert (PP : 0 < rsum (S n) (fun x => (p m - p x) * K x m)).
    { apply (rsum_pos (S n) _ i); [|exact Hi|].
      - intros j Hj. apply Rmult_le_pos; [pose proof (M j Hj); lra|apply Rlt_le; apply KP; assumption].
      - apply Rmult_lt_0_compat; [lra|apply KP; assumption]. }
    rewrite (rsum_ext (S n) _ (fun x => p m * K x m - p x * K x m)) in PP by (intros; ring). rewrite rsum_minus, rsum_scal_l, KS, KI in PP by exact Hm. lra. }
  intros i j Hi Hj. rewrite (E i Hi), (E j Hj). reflexivity.
Qed.
Lemma uniform_only : forall L dim gen, (2 <= dim)%nat -> generator dim gen -> pos_off dim gen -> expm_exact L ->
  forall p, rsum dim p = 1 -> forall T0 Tq, 0 < T0 -> 0 < Tq -> (forall i, (i < dim)%nat -> redraw_keeps L dim gen p [(T0, [(0, i)]); (Tq, [])]) ->
  forall i, (i < dim)%nat -> p i = / INR dim.
Proof.
  intros L dim gen Hd Hg Ho HL p P1 T0 Tq H0 Hq HK.
  set (P := fun t => get_trans L dim t gen).
  assert (Z : forall x y, (x < dim)%nat -> (y < dim)%nat -> P 0 x y = ind (Nat.eqb x y)).
  { intros x y Hx Hy. unfold P. rewrite <- (tr_trans L dim gen HL 0 x y Hx Hy). apply tr_0; assumption. }
  assert (PP : forall x y, (x < dim)%nat -> (y < dim)%nat -> 0 < P T0 x y) by (intros x y Hx Hy; exact (trans_all_pos L dim gen Hd Hg Ho HL T0 x y H0 Hx Hy)).
  assert (CP : forall y, (y < dim)%nat -> 0 < rsum dim (fun j => P T0 j y)).
  { intros y Hy. apply (rsum_pos dim _ y); [|exact Hy|apply PP; exact Hy]. intros j Hj. apply Rlt_le. apply PP; assumption. }
  assert (IDL : forall (f : nat -> R) i, (i < dim)%nat -> rsum dim (fun x => f x * ind (Nat.eqb x i)) = f i).
  { intros f i Hi. rewrite <- (rsum_delta_r dim f i Hi). apply rsum_ext. intros j _. destruct (Nat.eqb j i); cbn [ind]; ring. }
  set (K := fun x i : nat => rsum dim (fun y => P T0 x y * (P T0 i y / rsum dim (fun j => P T0 j y)))).
  assert (KI : forall i, (i < dim)%nat -> rsum dim (fun x => p x * K x i) = p i).
  { intros i Hi. 
    assert (A : askable dim [(T0, [(0, i)]); (Tq, [])]).
    { apply Forall_cons; [split; [exact H0|split; [cbn; lra|apply Forall_cons; [exact Hi|apply Forall_nil]]]|]. apply Forall_cons; [split; [exact Hq|split; [cbn; lra|apply Forall_nil]]|apply Forall_nil]. }
    set (ps := fun ys : list nat => let y := hd 0%nat ys in [step_piece T0 y y; step_piece Tq y y]).
    assert (HP : forall ys, length ys = 1%nat -> Forall (fun y => (y < dim)%nat) ys -> cut_at dim [T0; Tq] ys (ps ys)).
    { intros ys E F. destruct ys as [|y [|]]; try discriminate. inversion F; subst. apply ex_cut. assumption. }
    destruct (HK i Hi ps HP) as (l & L1 & L2). cbn [length Nat.sub sum_states map fst snd spread app] in L1, L2. change (fun t => get_trans L dim t gen) with P in L2.
    assert (LV : forall y, (y < dim)%nat -> l [y] = P T0 i y / rsum dim (fun j => P T0 j y)).
    { intros y Hy. assert (FY : Forall (fun z => (z < dim)%nat) [y]) by (apply Forall_cons; [exact Hy|apply Forall_nil]).
      destruct (L1 [y] eq_refl FY) as (c & C1 & C2).
      destruct (cut_parts dim T0 [(0, i)] [] Tq [] [y] (ps [y]) A eq_refl FY (HP [y] eq_refl FY)) as (p0 & ms & q & y1 & ys1 & EE & E2 & Hy1 & Hys1 & F1 & F2 & F3 & F4 & F5 & K1 & K2 & K3).
      injection EE as <- <-. destruct ms as [|m ms]; [|discriminate].
      destruct (mutate_law L dim gen Hd Hg Ho HL p0 [] q [(0, i)] [] [] K1 K2 K3) as (d & D1 & D2).
      apply (UL_sequence c); [exact C2|]. apply (Un_cv_ext d).
      { intros n. apply (average_unique _ (mutate_partition L n (ps [y]) dim gen) (fun a => ind (all_visit [[(0, i)]; []] a))); [rewrite E2; apply D1|apply C1]. }
      match type of D2 with Un_cv d ?v => replace (P T0 i y / rsum dim (fun j => P T0 j y)) with v; [exact D2|] end.
      rewrite F1, F2. cbn [app map combine fold_right markov]. fold P. replace (0 - 0) with 0 by ring. rewrite (Rminus_0_r T0).
      change (get_trans L dim 0 gen) with (P 0). change (get_trans L dim T0 gen) with (P T0).
      rewrite (rsum_ext dim (fun i0 => P 0 i0 i * (P T0 i y * 1)) (fun i0 => P T0 i y * ind (Nat.eqb i0 i))) by (intros j Hj; rewrite Z by assumption; ring).
      rewrite (IDL (fun _ => P T0 i y) i Hi). pose proof (CP y Hy). field. lra. }
    transitivity (rsum dim (fun x => p x * markov P 0 x [(0 + 0, i)])).
    - rewrite <- L2. unfold K. rewrite (rsum_ext dim _ (fun x => rsum dim (fun y => p x * (P T0 x y * (P T0 i y / rsum dim (fun j => P T0 j y)))))) by (intros; symmetry; apply rsum_scal_l).
      rewrite rsum_swap. apply rsum_ext. intros y Hy. rewrite (LV y Hy). rewrite <- rsum_scal_r. apply rsum_ext. intros x Hx. cbn [cut_obs markov]. rewrite Rplus_0_l, Rminus_0_r. ring.
    - rewrite <- (IDL p i Hi) at 1. apply rsum_ext. intros x Hx. cbn [markov]. replace (0 + 0 - 0) with 0 by ring. rewrite (Z x i Hx Hi). ring. }
  assert (KE : forall i j, (i < dim)%nat -> (j < dim)%nat -> p i = p j).
  { apply (positive_kernel dim K p); [| |exact KI].
    - intros x i Hx Hi. unfold K. apply (rsum_pos dim _ x); [|exact Hx|].
      + intros y Hy. apply Rmult_le_pos; [apply Rlt_le; apply PP; assumption|]. apply Rlt_le. apply Rdiv_lt_0_compat; [apply PP; assumption|apply CP; exact Hy].
      + apply Rmult_lt_0_compat; [apply PP; assumption|]. apply Rdiv_lt_0_compat; [apply PP; assumption|apply CP; exact Hx].
    - intros i Hi. unfold K. rewrite rsum_swap. rewrite (rsum_ext dim _ (fun y => P T0 i y)); [exact (mass L dim gen Hg HL i T0 Hi (Rlt_le _ _ H0))|].
      intros y Hy. rewrite rsum_scal_r. pose proof (CP y Hy). field. lra. }
  intros i Hi. assert (N : 0 < INR dim) by (apply lt_0_INR; lia).
  rewrite (rsum_ext dim p (fun _ => p i)) in P1 by (intros j Hj; apply KE; assumption). rewrite rsum_const in P1.
  apply (Rmult_eq_reg_l (INR dim)); [|lra]. rewrite P1. field. lra.
Qed.

Lemma uncut_law : forall L dim gen, (2 <= dim)%nat -> generator dim gen -> pos_off dim gen -> expm_exact L -> solve_ok L dim (stat_matrix gen) stat_rhs ->
  forall p, rsum dim p = 1 -> forall T, 0 < T ->
  ((forall o, in_order 0 o T -> Forall (fun c => (snd c < dim)%nat) o -> redraw_keeps L dim gen p [(T, o)]) <-> stationary dim gen p).
Proof.
  intros L dim gen Hd Hg Ho HL HS p P1 T HT. set (P := fun t => get_trans L dim t gen).
  assert (Z : forall x y, (x < dim)%nat -> (y < dim)%nat -> P 0 x y = ind (Nat.eqb x y)).
  { intros x y Hx Hy. unfold P. rewrite <- (tr_trans L dim gen HL 0 x y Hx Hy). apply tr_0; assumption. }
  assert (IDL : forall (f : nat -> R) i, (i < dim)%nat -> rsum dim (fun x => f x * ind (Nat.eqb x i)) = f i).
  { intros f i Hi. rewrite <- (rsum_delta_r dim f i Hi). apply rsum_ext. intros j _. destruct (Nat.eqb j i); cbn [ind]; ring. }
  assert (ONE : rsum dim (fun x => p x * markov P 0 x (cut_obs 0 [T] [])) = 1) by (rewrite <- P1; apply rsum_ext; intros; cbn [cut_obs markov]; ring).
  assert (CUT : cut_at dim [T] [] [step_piece T 0 0]).
  { split; [reflexivity|]. split; [|split; reflexivity]. apply Forall_cons; [split; [discriminate|repeat (apply Forall_cons; [lia|]); apply Forall_nil]|apply Forall_nil]. }
  assert (SOLE : forall ps, cut_at dim [T] [] ps -> forall o, in_order 0 o T -> Forall (fun c => (snd c < dim)%nat) o -> exists q, ps = [q] /\ asked dim o q).
  { intros ps (C1 & C2 & _) o O1 O2. destruct ps as [|q [|]]; try discriminate. injection C1 as C1. exists q. split; [reflexivity|]. inversion C2 as [|? ? (D1 & D2) _]; subst. repeat split; assumption. }
  assert (ROWS : forall i, (i < dim)%nat -> rsum dim (gen i) = 0) by (intros i Hi; apply Hg; exact Hi).
  assert (UNI : forall a b, rsum dim a = 1 -> stationary dim gen a -> rsum dim b = 1 -> stationary dim gen b -> forall i, (i < dim)%nat -> a i = b i).
  { intros a b A1 A2 B1 B2. apply (proj1 (stat_unique dim gen ltac:(lia) ROWS b B1 B2) (stat_nonsingular dim gen ltac:(lia) ROWS Ho) a A1 A2). }
  split.
  - intros HK.
    assert (PI : exists s, rsum dim s = 1 /\ stationary dim gen s /\ forall i, (i < dim)%nat -> p i = s i).
    { destruct (mutate_single L dim gen (step_piece T 0 0) [] Hd Hg Ho HL HS) as (s & S1 & _ & S3 & _). { destruct (SOLE _ CUT [] ltac:(cbn; lra) ltac:(constructor)) as (q & EQ & AQ). injection EQ as <-. exact AQ. }
      exists s. split; [exact S1|]. split; [exact S3|]. intros i Hi.
      assert (O1 : in_order 0 [(0, i)] T) by (cbn; lra). assert (O2 : Forall (fun c : R * nat => (snd c < dim)%nat) [(0, i)]) by (apply Forall_cons; [exact Hi|apply Forall_nil]).
      destruct (HK [(0, i)] O1 O2 (fun _ => [step_piece T 0 0])) as (l & L1 & L2). { intros ys E _. destruct ys; [exact CUT|discriminate]. }
      cbn [length Nat.sub sum_states map fst snd spread app] in L1, L2. change (fun t => get_trans L dim t gen) with P in L2. rewrite ONE, Rmult_1_l in L2.
      destruct (SOLE _ CUT [(0, i)] O1 O2) as (q & EQ & AQ). injection EQ as <-.
      destruct (mutate_single L dim gen (step_piece T 0 0) [(0, i)] Hd Hg Ho HL HS AQ) as (s' & S1' & _ & S3' & d & D1 & D2).
      destruct (L1 [] eq_refl (Forall_nil _)) as (c & C1 & C2).
      assert (LV : l [] = s' i).
      { apply (UL_sequence c); [exact C2|]. apply (Un_cv_ext d).
        { intros n. apply (average_unique _ (mutate_partition L n [step_piece T 0 0] dim gen) (fun a => ind (all_visit [[(0, i)]] a))); [apply D1|apply C1]. }
        rewrite <- (IDL s' i Hi). match type of D2 with Un_cv d ?v => replace (rsum dim (fun x => s' x * ind (Nat.eqb x i))) with v; [exact D2|] end.
        apply rsum_ext. intros x Hx. cbn [markov]. change (get_trans L dim (0 - 0) gen) with (P (0 - 0)). replace (0 - 0) with 0 by ring. rewrite (Z x i Hx Hi). ring. }
      transitivity (s' i); [|apply UNI; assumption]. rewrite <- LV, L2. rewrite <- (IDL p i Hi). apply rsum_ext. intros x Hx. cbn [markov]. replace (0 + 0 - 0) with 0 by ring. rewrite (Z x i Hx Hi). ring. }
    destruct PI as (s & S1 & S3 & PE). intros j Hj. rewrite <- (S3 j Hj). apply rsum_ext. intros x Hx. rewrite (PE x Hx). reflexivity.
  - intros PS o O1 O2 ps HP. destruct (SOLE (ps []) (HP [] eq_refl (Forall_nil _)) o O1 O2) as (q & EQ & AQ).
    destruct (mutate_single L dim gen q o Hd Hg Ho HL HS AQ) as (s & S1 & _ & S3 & d & D1 & D2).
    exists (fun _ => rsum dim (fun x => s x * markov P 0 x o)). cbn [length Nat.sub sum_states map fst snd spread app]. split.
    + intros ys E _. destruct ys; [|discriminate]. exists d. split; [|exact D2]. intros fuel. rewrite EQ. apply D1.
    + change (fun t => get_trans L dim t gen) with P. rewrite ONE, Rmult_1_l, app_nil_r, map_shift0. apply rsum_ext. intros x Hx. rewrite (UNI s p S1 S3 P1 PS x Hx). reflexivity.
Qed.
Lemma no_law_kept : exists dim gen, generator dim gen /\ pos_off dim gen /\ forall L, expm_exact L -> solve_ok L dim (stat_matrix gen) stat_rhs ->
  ~ exists p, rsum dim p = 1 /\ (forall i, (i < dim)%nat -> redraw_keeps L dim gen p [(1, [(0, i)]); (1, [])]) /\ (forall o, in_order 0 o 2 -> Forall (fun c => (snd c < dim)%nat) o -> redraw_keeps L dim gen p [(2, o)]).
Proof.
  exists 2%nat, gen12. split; [exact gen12_generator|]. split; [exact gen12_pos|]. intros L HL HS (p & P1 & K1 & K2).
  pose proof (uniform_only L 2 gen12 (le_n 2) gen12_generator gen12_pos HL p P1 1 1 ltac:(lra) ltac:(lra) K1) as U.
  pose proof (proj1 (uncut_law L 2 gen12 (le_n 2) gen12_generator gen12_pos HL HS p P1 2 ltac:(lra)) K2 0%nat ltac:(lia)) as S0.
  cbn [rsum] in S0. rewrite !U in S0 by lia. cbn in S0. lra.
Qed.
