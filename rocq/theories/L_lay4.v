(** The law of the layer of a Brownian bridge: the seeds. *)
From Coquelicot Require Import Hierarchy RInt RInt_analysis.
From Coq Require Import Reals List Bool Arith Lia Lra.
From Verif Require Import Base Np Rng L_rng M_mjp M_hit M_path SpecHit SpecLaw SpecEsc SpecLay L_hit2 L_hit3 L_hit4 L_hit5 L_hit6 L_hit7 L_hit8 L_hit9 L_heat3 L_heat4 L_heat5 L_heat6 L_can2 L_law L_law2 L_law3 L_law4 L_law5 L_law6 L_law7 L_esc L_esc2 L_lay L_lay2 L_lay3.
Import ListNotations.
Local Open Scope R_scope.

Section Layer.
  Variables (t a b : R) (lb ub : ext).
  Hypotheses (Ht : 0 < t) (Hlb : elt lb (Fin (Rmin a b))) (Hub : elt (Fin (Rmax a b)) ub).
  Variables (L : nat) (p : R).
  Hypotheses (HL : (1 <= L)%nat) (Hp : layer_escape t a b lb ub L p).
  Notation found := (fun j : nat => (j <=? L)%nat).
  Notation loop := (fun fuel u => layer_loop fuel fuel 1 t a b lb ub u).

  Lemma measure_eps eps : 0 < eps -> exists n0, forall fuel, (n0 <= fuel)%nat -> forall lo, 0 <= lo <= 1 -> exists v, is_RInt (layer_of t a b lb ub L fuel) lo 1 v /\ Rabs (v - (1 - Rmax lo p)) <= eps.
  Proof.
    intros He. assert (0 < INR L) by (apply lt_0_INR; lia).
    destruct (close_eps t a b lb ub Ht Hlb Hub L HL (eps / INR L)) as (n0 & H0); [apply Rdiv_lt_0_compat; lra|].
    exists (n0 + L)%nat. intros fuel Hf lo Hlo.
    destruct (layer_measure t a b lb ub Ht Hlb Hub L p HL Hp fuel _ (H0 fuel ltac:(lia)) lo Hlo) as (v & Iv & Dv). exists v. split; [exact Iv|].
    specialize (Dv ltac:(lia)). replace (INR L * (eps / INR L)) with eps in Dv by (field; lra). exact Dv.
  Qed.
  Lemma uniform_layer c : 0 <= c < 1 -> c <= p -> limit_chance (fun fuel => do u <- draw_r (DUniform c 1); loop fuel u) found ((1 - p) / (1 - c)).
  Proof.
    intros Hc Hcp eps He. destruct (measure_eps (eps * (1 - c) / 2) ltac:(nra)) as (n0 & H0). exists n0. intros fuel Hf.
    destruct (H0 fuel Hf c ltac:(lra)) as (v & Iv & Dv). rewrite (Rmax_right c p) in Dv by lra. exists (v / (1 - c)). split.
    - apply (average_r _ (DUniform c 1) (loop fuel) _ (layer_of t a b lb ub L fuel)).
      + split; [lra|]. assert (EV : (1 - c) * (v / (1 - c)) = v) by (field; lra). rewrite EV. exact Iv.
      + intros u (w & Hw & ->). refine (layer_value t a b lb ub Ht Hlb Hub L HL fuel _ _). split; nra.
    - replace (v / (1 - c) - (1 - p) / (1 - c)) with ((v - (1 - p)) * / (1 - c)) by (field; lra). rewrite Rabs_mult.
      rewrite (Rabs_right (/ (1 - c))) by (left; apply Rinv_0_lt_compat; lra).
      apply Rle_lt_trans with (eps * (1 - c) / 2 * / (1 - c)); [apply Rmult_le_compat_r; [left; apply Rinv_0_lt_compat; lra|exact Dv]|].
      replace (eps * (1 - c) / 2 * / (1 - c)) with (eps / 2) by (field; lra). lra.
  Qed.
  Variables (l u : R) (q : R).
  Hypotheses (Hl : l < Rmin a b) (Hu : Rmax a b < u) (Hq : brown_escape t (a - (l + u) / 2) (b - (l + u) / 2) ((u - l) / 2) q) (Hqp : q <= p).
  Lemma reject_layer n : limit_chance (fun fuel => do s <- layer_reject fuel n t a b l u; loop fuel s) found ((1 - q ^ n) * ((1 - p) / (1 - q))).
  Proof.
    pose proof (Rmin_l a b) as M1. pose proof (Rmin_r a b) as M2. pose proof (Rmax_l a b) as M3. pose proof (Rmax_r a b) as M4.
    assert (A1 : Rabs (a - (l + u) / 2) < (u - l) / 2) by (apply inside_abs; lra). assert (A2 : Rabs (b - (l + u) / 2) < (u - l) / 2) by (apply inside_abs; lra).
    pose proof (p_range t a b lb ub Ht Hlb Hub L p HL Hp) as PR. pose proof (proj1 (esc_full t _ _ _ q Ht A1 A2 Hq)) as QR.
    induction n as [|n IH].
    - intros eps He. exists 0%nat. intros fuel _. exists 0. split; [|cbn; rewrite Rminus_eq_0, Rmult_0_l, Rminus_eq_0, Rabs_R0; exact He].
      apply (mean_done (value (fun j => ind (j <=? L)%nat)) _ (Raise BudgetConstraintError)). reflexivity.
    - intros eps He. destruct (IH (eps / 4) ltac:(lra)) as (n1 & H1). destruct (measure_eps (eps / 4) ltac:(lra)) as (n2 & H2).
      destruct (esc_tight t _ _ _ q Ht A1 A2 Hq (eps / 8) ltac:(lra)) as (n3 & H3). exists (n1 + n2 + n3)%nat. intros fuel Hf.
      destruct (H1 fuel ltac:(lia)) as (w & Cw & Dw). destruct (H3 fuel ltac:(lia)) as ((T, F) & T1 & T2 & T3 & T4). cbn [fst snd] in T1, T2, T3, T4.
      destruct (H2 fuel ltac:(lia) F ltac:(lra)) as (v & Iv & Dv). exists (T * w + v). split.
      + set (g := fun s => match answer T F s with Ok true => w | Ok false => layer_of t a b lb ub L fuel s | _ => 0 end).
        apply (mean_ext _ _ (do s <- draw_r (DUniform 0 1); do esc <- sample_brownbr_esc fuel t (a - (l + u) / 2) (b - (l + u) / 2) ((u - l) / 2) None (Some s);
           if esc then (do s' <- layer_reject fuel n t a b l u; loop fuel s') else loop fuel s)).
        { intros o k _. cbn [layer_reject]. unfold bind, draw_r. cbv beta iota zeta. destruct (sample_brownbr_esc _ _ _ _ _ _ _ _ _) as [[[|]| |] k']; reflexivity. }
        apply (average_r _ (DUniform 0 1) _ _ g).
        * split; [lra|]. rewrite Rminus_0_r, Rmult_1_l. apply (rint_split _ 0 T 1 ((T - 0) * w) v); [ring| |].
          -- refine (is_RInt_ext (fun _ => w) _ _ _ _ _ (is_RInt_const 0 T w)). rewrite Rmin_left, Rmax_right by lra. intros s Hs. unfold g, answer. rewrite (proj2 (Rltb_true s T)) by lra. reflexivity.
          -- apply (rint_split _ T F 1 ((F - T) * 0) v); [ring| |].
             ++ refine (is_RInt_ext (fun _ => 0) _ _ _ _ _ (is_RInt_const T F 0)). rewrite Rmin_left, Rmax_right by lra. intros s Hs. unfold g, answer.
                rewrite (proj2 (Rltb_false s T)) by lra. rewrite (proj2 (Rltb_false F s)) by lra. reflexivity.
             ++ refine (is_RInt_ext _ _ _ _ _ _ Iv). rewrite Rmin_left, Rmax_right by lra. intros s Hs. unfold g, answer.
                rewrite (proj2 (Rltb_false s T)) by lra. rewrite (proj2 (Rltb_true F s)) by lra. reflexivity.
        * intros s (x & Hx & ->). replace (0 + (1 - 0) * x) with x by ring. assert (S1 : 0 <= x <= 1) by lra.
          pose proof (esc_run t _ _ _ fuel x Ht A1 A2 S1) as R0. rewrite T4 in R0 by exact S1. unfold g.
          destruct (answer T F x) as [[|]| |] eqn:EA.
          -- apply (mean_ext _ _ (do s' <- layer_reject fuel n t a b l u; loop fuel s')); [|exact Cw]. intros o k _. unfold bind at 1. rewrite R0. reflexivity.
          -- apply (mean_ext _ _ (loop fuel x)); [|exact (layer_value t a b lb ub Ht Hlb Hub L HL fuel x S1)]. intros o k _. unfold bind at 1. rewrite R0. reflexivity.
          -- unfold answer in EA. destruct (Rltb x T), (Rltb F x); discriminate.
          -- apply (mean_done (value (fun j => ind (j <=? L)%nat)) _ NoFuel). intros o k _. unfold bind at 1. rewrite R0. reflexivity.
      + set (z := (1 - q ^ n) * ((1 - p) / (1 - q))) in *.
        assert (Z : (1 - q ^ S n) * ((1 - p) / (1 - q)) = q * z + (1 - p)) by (unfold z; cbn; field; lra). rewrite Z.
        assert (QN : 0 <= q ^ n <= 1) by (split; [apply pow_le; lra|rewrite <- (pow1 n); apply pow_incr; lra]).
        assert (RT : 0 <= (1 - p) / (1 - q) <= 1).
        { split; [apply Rmult_le_pos; [lra|left; apply Rinv_0_lt_compat; lra]|]. apply Rmult_le_reg_r with (1 - q); [lra|]. replace ((1 - p) / (1 - q) * (1 - q)) with (1 - p) by (field; lra). lra. }
        assert (ZR : 0 <= z <= 1) by (unfold z; nra).
        apply Rabs_def2 in Dw. assert (Dv2 : - (eps / 4) <= v - (1 - Rmax F p) <= eps / 4) by (revert Dv; unfold Rabs; destruct (Rcase_abs _); lra).
        assert (MX : p <= Rmax F p <= p + eps / 8) by (unfold Rmax; destruct (Rle_dec _ _); lra).
        assert (X1 : - (eps / 4) <= T * (w - z) <= eps / 4) by (split; nra). assert (X2 : - (eps / 8) <= (T - q) * z <= 0) by (split; nra).
        apply Rabs_def1; nra.
  Qed.
End Layer.

Lemma layer_law n t a b lb ub L p q : 0 < t -> elt lb (Fin (Rmin a b)) -> elt (Fin (Rmax a b)) ub -> (1 <= L)%nat ->
  layer_escape t a b lb ub L p -> leaves t a b lb ub q ->
  limit_chance (fun fuel => sample_layer fuel n t a b lb ub) (fun j => j <=? L)%nat (attempts lb ub q n * ((1 - p) / (1 - q))).
Proof.
  intros Ht Hlb Hub HL Hp Hq. pose proof (p_range t a b lb ub Ht Hlb Hub L p HL Hp) as PR.
  assert (QP : q <= p).
  { destruct (layer_at t a b lb ub Ht Hlb Hub L HL) as (le & ue & p' & E & EL & EU & B1 & B2 & _ & _ & _). destruct Hp as (x & y & Ex & Px). rewrite E in Ex. injection Ex as <- <-.
    exact (leaves_le t a b lb ub le ue p q Ht EL EU B1 B2 Px Hq). }
  assert (G : forall m, limit_chance (fun fuel => do u <- m fuel; layer_loop fuel fuel 1 t a b lb ub u) (fun j => j <=? L)%nat (attempts lb ub q n * ((1 - p) / (1 - q))) ->
    (forall fuel o k, layer_seed fuel n t a b lb ub o k = m fuel o k) -> limit_chance (fun fuel => sample_layer fuel n t a b lb ub) (fun j => j <=? L)%nat (attempts lb ub q n * ((1 - p) / (1 - q)))).
  { intros m H E eps He. destruct (H eps He) as (n0 & H0). exists n0. intros fuel Hf. destruct (H0 fuel Hf) as (c & C & D). exists c. split; [|exact D].
    refine (mean_ext _ _ _ _ _ _ C). intros o k _. unfold sample_layer. rewrite (proj2 (Rltb_true 0 t) Ht). unfold assert_, bind, ret. cbn [andb]. cbv beta iota. rewrite E. reflexivity. }
  destruct lb as [|l|], ub as [|v|]; cbn in Hlb, Hub; try contradiction; cbn [attempts leaves] in *; try rewrite Rmult_1_l in *.
  - subst q. assert (RM : Rmin (- b) (- a) = - Rmax a b) by (unfold Rmin, Rmax; destruct (Rle_dec _ _), (Rle_dec _ _); lra).
    destruct (one_sided t (- b) (- a) (- v) Ht ltac:(lra)) as (c & EC & C & E). assert (CE : reach t a b (Fin v) = c).
    { rewrite E. cbn. f_equal. f_equal. field. lra. }
    rewrite CE in *. apply (G (fun _ => draw_r (DUniform c 1))).
    + apply (uniform_layer t a b NegInf (Fin v) Ht Hlb Hub L p HL Hp c); lra.
    + intros fuel o k. unfold layer_seed. rewrite EC. reflexivity.
  - subst q. apply (G (fun _ => draw_r (DUniform 0 1))); [|reflexivity].
    apply (uniform_layer t a b NegInf PosInf Ht Hlb Hub L p HL Hp 0); lra.
  - apply (G (fun fuel => layer_reject fuel n t a b l v)); [|reflexivity].
    apply (reject_layer t a b (Fin l) (Fin v) Ht Hlb Hub L p HL Hp l v q Hlb Hub Hq QP).
  - subst q. destruct (one_sided t a b l Ht Hlb) as (c & EC & C & E). assert (CE : reach t a b (Fin l) = c) by (rewrite E; reflexivity).
    rewrite CE in *. apply (G (fun _ => draw_r (DUniform c 1))).
    + apply (uniform_layer t a b (Fin l) PosInf Ht Hlb Hub L p HL Hp c); lra.
    + intros fuel o k. unfold layer_seed. rewrite EC. reflexivity.
Qed.
Lemma limit_minus : forall A (m : nat -> M A) E E' p q, (forall x, E' x = true -> E x = true) -> limit_chance m E p -> limit_chance m E' q -> limit_chance m (fun x => E x && negb (E' x)) (p - q).
Proof.
  intros A m E E' p q I H H' eps He. destruct (H (eps / 2) ltac:(lra)) as (n1 & H1). destruct (H' (eps / 2) ltac:(lra)) as (n2 & H2). exists (n1 + n2)%nat. intros fuel Hf.
  destruct (H1 fuel ltac:(lia)) as (c & C & D). destruct (H2 fuel ltac:(lia)) as (c' & C' & D'). exists (c + (-1) * c'). split.
  - refine (average_ext _ _ _ _ _ _ (average_plus _ _ _ _ _ _ C (average_scal _ _ _ _ (-1) C'))). intros x. cbn. pose proof (I x) as Ix. destruct (E x), (E' x); cbn; try lra; discriminate (Ix eq_refl).
  - replace (c + -1 * c' - (p - q)) with ((c - p) - (c' - q)) by ring. apply Rabs_def2 in D, D'. apply Rabs_def1; lra.
Qed.
Lemma layer_exact n t a b lb ub L p' p q : 0 < t -> elt lb (Fin (Rmin a b)) -> elt (Fin (Rmax a b)) ub -> (1 <= L)%nat ->
  layer_escape t a b lb ub L p' -> layer_escape t a b lb ub (S L) p -> leaves t a b lb ub q ->
  limit_chance (fun fuel => sample_layer fuel n t a b lb ub) (fun j => j =? S L)%nat (attempts lb ub q n * ((p' - p) / (1 - q))).
Proof.
  intros Ht Hlb Hub HL Hp' Hp Hq.
  pose proof (layer_law n t a b lb ub (S L) p q Ht Hlb Hub ltac:(lia) Hp Hq) as H1. pose proof (layer_law n t a b lb ub L p' q Ht Hlb Hub HL Hp' Hq) as H2.
  replace (attempts lb ub q n * ((p' - p) / (1 - q))) with (attempts lb ub q n * ((1 - p) / (1 - q)) - attempts lb ub q n * ((1 - p') / (1 - q))) by (unfold Rdiv; ring).
  intros eps He. destruct (limit_minus _ _ _ (fun j => (j <=? L)%nat) _ _ (fun x Hx => proj2 (Nat.leb_le x (S L)) (Nat.le_le_succ_r _ _ (proj1 (Nat.leb_le x L) Hx))) H1 H2 eps He) as (n0 & H0). exists n0. intros fuel Hf.
  destruct (H0 fuel Hf) as (c & C & D). exists c. split; [|exact D]. refine (average_ext _ _ _ _ _ _ C). intros x. cbn. f_equal.
  destruct (Nat.eqb_spec x (S L)) as [->|N]. { rewrite (proj2 (Nat.leb_le (S L) (S L))) by lia. rewrite (proj2 (Nat.leb_gt (S L) L)) by lia. reflexivity. }
  destruct (Nat.leb_spec x (S L)), (Nat.leb_spec x L); try reflexivity; lia.
Qed.
Lemma layer_inhabited : exists p q p', layer_escape 1 0 0 (Fin (-1)) (Fin 1) 1 p /\ leaves 1 0 0 (Fin (-1)) (Fin 1) q /\ layer_escape 1 0 0 NegInf PosInf 1 p' /\ leaves 1 0 0 NegInf PosInf 0 /\ q <= p < 1 /\ 0 <= p' < 1.
Proof.
  assert (M : Rmin 0 0 = 0) by (apply Rmin_left; lra). assert (M' : Rmax 0 0 = 0) by (apply Rmax_left; lra).
  assert (E1 : elt (Fin (-1)) (Fin (Rmin 0 0))) by (cbn; lra). assert (E2 : elt (Fin (Rmax 0 0)) (Fin 1)) by (cbn; lra).
  assert (E3 : elt NegInf (Fin (Rmin 0 0))) by exact Logic.I. assert (E4 : elt (Fin (Rmax 0 0)) PosInf) by exact Logic.I.
  destruct (layer_at 1 0 0 _ _ ltac:(lra) E1 E2 1 ltac:(lia)) as (le & ue & p & E & EL & EU & B1 & B2 & _ & _ & P).
  destruct (layer_at 1 0 0 _ _ ltac:(lra) E3 E4 1 ltac:(lia)) as (le' & ue' & p' & E' & _ & _ & _ & _ & _ & _ & P').
  assert (A : Rabs (0 - (-1 + 1) / 2) < (1 - -1) / 2) by (apply inside_abs; lra).
  destruct (brown_full_range 1 _ _ _ ltac:(lra) A A) as (q & Q & _).
  assert (X : layer_escape 1 0 0 (Fin (-1)) (Fin 1) 1 p) by (exists le, ue; auto). assert (X' : layer_escape 1 0 0 NegInf PosInf 1 p') by (exists le', ue'; auto).
  exists p, q, p'. split; [exact X|]. split; [exact Q|]. split; [exact X'|]. split; [reflexivity|].
  pose proof (p_range 1 0 0 _ _ ltac:(lra) E1 E2 1 p ltac:(lia) X). pose proof (p_range 1 0 0 _ _ ltac:(lra) E3 E4 1 p' ltac:(lia) X').
  split; [|assumption]. split; [|lra]. exact (leaves_le 1 0 0 (Fin (-1)) (Fin 1) le ue p q ltac:(lra) EL EU B1 B2 P Q).
Qed.
