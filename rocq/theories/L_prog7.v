(** Redrawing the pieces of a partition is reversible for whole paths. *)
From Coq Require Import Reals List Bool Arith Lra Lia.
From Verif Require Import Base Rng M_mjp SpecMjp SpecLin SpecLaw SpecFdd SpecJumps SpecProg L_law2 L_demo L_simdemo L_lindemo L_jumps3 L_prog5 L_prog6 Mat.
Import ListNotations.
Local Open Scope R_scope.

Section Rev.
  Variables (L : linalg) (dim : nat) (gen : mat).

  Let mid (rs : list route) (ss : list (skel R)) : R :=
    fold_right Rmult 1 (map (fun c => route_prob gen (sk_fin (snd c)) (fst c) / get_trans L dim (sk_fin (snd c)) gen (from_of (fst c)) (to_of (fst c))) (combine rs ss)).
  Let ok (r : route) (s : skel R) : Prop := sound_piece dim s /\ sound_route dim (sk_fin s) r /\ from_of r = first_of s /\ to_of r = final_of s.

  Lemma routes_app : forall Ts Us A B, length Ts = length A -> routes_prob gen (Ts ++ Us) (A ++ B) = routes_prob gen Ts A * routes_prob gen Us B.
  Proof.
    unfold routes_prob. induction Ts as [|T Ts IH]; intros Us [|a A] B E; try discriminate E; cbn [app combine map fold_right fst snd]; [lra|].
    injection E as E. rewrite (IH _ _ _ E). lra.
  Qed.

  Lemma ok_length : forall A ss, Forall2 ok A ss -> length A = length ss.
  Proof. induction 1; cbn; congruence. Qed.

  Lemma mids_balance : forall mids mids' A B, map sk_fin mids = map sk_fin mids' -> Forall2 ok A mids -> Forall2 ok B mids -> Forall2 ok A mids' -> Forall2 ok B mids' ->
    routes_prob gen (map sk_fin mids) A * mid B mids = routes_prob gen (map sk_fin mids) B * mid A mids'.
  Proof.
    unfold routes_prob, mid. induction mids as [|s mids IH]; intros mids' A B E FA FB FA' FB'.
    - destruct mids'; [|discriminate E]. inversion FA; inversion FB; subst. cbn. lra.
    - destruct mids' as [|s' mids']; [discriminate E|]. cbn [map] in E. injection E as Es E.
      inversion FA as [|a ? A' ? Ha TA]; subst. inversion FB as [|b ? B' ? Hb TB]; subst.
      inversion FA' as [|? ? ? ? Ha' TA']; subst. inversion FB' as [|? ? ? ? Hb' TB']; subst.
      specialize (IH _ _ _ E TA TB TA' TB'). cbn [map combine fold_right fst snd].
      destruct Ha as (_ & _ & Ha1 & Ha2), Hb as (_ & _ & Hb1 & Hb2).
      rewrite Ha1, Ha2, <- Es. rewrite Hb1, Hb2. unfold Rdiv in IH |- *.
      set (g := / get_trans L dim (sk_fin s) gen (first_of s) (final_of s)).
      match goal with |- (?x * ?u) * ((?y * g) * ?v) = (?y * ?w) * ((?x * g) * ?z) =>
        transitivity (x * y * g * (u * v)); [ring|]; rewrite IH; ring end.
  Qed.

  Lemma mutate_reversible : (2 <= dim)%nat -> generator dim gen -> pos_off dim gen -> expm_exact L ->
    forall p mids q p' mids' q' a0 A aq b0 B bq,
    fits dim p mids q a0 A aq -> fits dim p mids q b0 B bq -> fits dim p' mids' q' a0 A aq -> fits dim p' mids' q' b0 B bq ->
    map sk_fin (p :: mids ++ [q]) = map sk_fin (p' :: mids' ++ [q']) ->
    let Ts := map sk_fin (p :: mids ++ [q]) in
    exists N c c' l l',
      (forall fuel, (N <= fuel)%nat -> chance (mutate_partition L fuel (p :: mids ++ [q]) dim gen) (all_follow (b0 :: B ++ [bq])) (c fuel)) /\ Un_cv c l /\
      (forall fuel, (N <= fuel)%nat -> chance (mutate_partition L fuel (p' :: mids' ++ [q']) dim gen) (all_follow (a0 :: A ++ [aq])) (c' fuel)) /\ Un_cv c' l' /\
      routes_prob gen Ts (a0 :: A ++ [aq]) * l = routes_prob gen Ts (b0 :: B ++ [bq]) * l'.
  Proof.
    intros Hd Hg Hp HL p mids q p' mids' q' a0 A aq b0 B bq FA FB FA' FB' E.
    destruct FA as (_ & _ & A0 & AM & _ & _ & A1). destruct FA' as (C1 & C2 & C3 & CM & C4 & C5 & C6). destruct FB as (D1 & D2 & D3 & DM & D4 & D5 & D6).
    destruct FB' as (_ & _ & B0 & BM & _ & _ & B1).
    destruct (mutate_paths L dim gen Hd Hg Hp HL p mids q b0 B bq D1 D2 D3 DM D4 D5 D6) as (N & c & H1 & H2).
    destruct (mutate_paths L dim gen Hd Hg Hp HL p' mids' q' a0 A aq C1 C2 C3 CM C4 C5 C6) as (N' & c' & H3 & H4).
    exists (Nat.max N N'), c, c'. eexists. eexists.
    split; [intros fuel HF; apply H1; lia|]. split; [exact H2|]. split; [intros fuel HF; apply H3; lia|]. split; [exact H4|].
    cbn [map] in E. injection E as Ep E. rewrite !map_app in E. cbn [map] in E.
    assert (Em : map sk_fin mids = map sk_fin mids' /\ sk_fin q = sk_fin q') by (apply app_inj_tail; exact E).
    destruct Em as (Em & Eq).
    assert (LA : length A = length (map sk_fin mids)) by (rewrite map_length; exact (ok_length _ _ AM)).
    assert (LB : length B = length (map sk_fin mids)) by (rewrite map_length; exact (ok_length _ _ DM)).
    assert (X : forall r0 R0 rq, length R0 = length (map sk_fin mids) ->
      routes_prob gen (map sk_fin (p :: mids ++ [q])) (r0 :: R0 ++ [rq]) = route_prob gen (sk_fin p) r0 * (routes_prob gen (map sk_fin mids) R0 * route_prob gen (sk_fin q) rq)).
    { intros r0 R0 rq LR. cbn [map]. rewrite map_app. change (map sk_fin [q]) with [sk_fin q].
      change (route_prob gen (sk_fin p) r0 * routes_prob gen (map sk_fin mids ++ [sk_fin q]) (R0 ++ [rq]) = route_prob gen (sk_fin p) r0 * (routes_prob gen (map sk_fin mids) R0 * route_prob gen (sk_fin q) rq)).
      rewrite routes_app by (symmetry; exact LR). unfold routes_prob at 2. cbn [combine map fold_right fst snd]. ring. }
    rewrite (X a0 A aq LA), (X b0 B bq LB).
    pose proof (mids_balance mids mids' A B Em AM DM CM BM) as Q. unfold mid in Q.
    rewrite <- Ep, <- Eq. replace (final_of p') with (final_of p) by congruence. unfold Rdiv in Q |- *.
    set (g := / rsum dim (fun j => get_trans L dim (sk_fin p) gen j (final_of p))).
    match goal with |- ?x * (?u * ?w) * (?y * g * ?v * ?z) = _ => transitivity (x * y * g * w * z * (u * v)); [ring|] end.
    rewrite Q. ring.
  Qed.
End Rev.

(** from staying in the first state to an excursion *)
Definition still_route : route := (0%nat, [], []).
Lemma fits_example : fits 2 demo [demo] demo loop_route [loop_route] loop_route /\ fits 2 demo [demo] demo still_route [still_route] still_route.
Proof.
  destruct route_example as (_ & _ & _ & _ & _ & _ & _ & _ & S1 & S2 & S3 & S4 & _).
  assert (S5 : sound_route 2 (sk_fin demo) still_route).
  { unfold sound_route, still_route, from_of. cbn [fst snd length combine]. repeat split; try lia; try apply Forall_nil; cbn; lra. }
  assert (S6 : from_of still_route = first_of demo) by (rewrite <- S3; reflexivity).
  assert (S7 : to_of still_route = final_of demo) by (rewrite <- S4; reflexivity).
  split; (split; [exact S1|split; [assumption|split; [assumption|split; [|split; [exact S1|split; assumption]]]]]);
    (apply Forall2_cons; [|apply Forall2_nil]); (split; [exact S1|split; [assumption|split; assumption]]).
Qed.

(** a path that is not cut *)
Lemma mutate_uncut : forall L dim gen p, generator dim gen -> (2 <= dim)%nat -> pos_off dim gen -> solve_ok L dim (stat_matrix gen) stat_rhs -> 0 < sk_fin p ->
  exists pi, rsum dim pi = 1 /\ stationary dim gen pi /\
  forall r, sound_route dim (sk_fin p) r -> forall fuel, (length (snd (fst r)) + 2 <= fuel)%nat ->
  chance (mutate_partition L fuel [p] dim gen) (all_follow [r]) (pi (from_of r) * route_prob gen (sk_fin p) r).
Proof.
  intros L dim gen p Hg Hd Hp HS HT. destruct (path_law_stat L dim gen (sk_fin p) Hg Hd Hp HS HT) as (pi & A1 & _ & A2 & A3).
  exists pi. split; [exact A1|]. split; [exact A2|]. intros r (B1 & B2 & B3 & B4 & _) fuel HF.
  unfold chance, mutate_partition. apply average_map.
  apply (average_ext _ _ (fun s => ind (goes (from_of r :: snd (fst r)) (snd r) s))).
  - intros s. unfold all_follow. cbn [combine forallb fst snd]. rewrite andb_true_r. reflexivity.
  - apply A3; assumption.
Qed.
