(** The transition probabilities are a semigroup; redrawing leaves the process invariant. *)
From Coquelicot Require Import Rcomplements Hierarchy Rbar Lim_seq Continuity Derive Series PSeries.
From Coq Require Import Reals List Bool Arith Lia Lra Psatz.
From Verif Require Import Base Np Rng L_rng M_mjp SpecMjp SpecLin SpecLaw SpecFdd SpecRedraw L_law L_law2 L_stat L_mutate L_fwd4 L_fwd5 L_fwd6 L_mat Mat.
Import ListNotations.
Local Open Scope R_scope.

Lemma is_derive_rsum : forall n (f : nat -> R -> R) (d : nat -> R) t, (forall k, (k < n)%nat -> is_derive (f k) t (d k)) -> is_derive (fun t => rsum n (fun k => f k t)) t (rsum n d).
Proof.
  induction n as [|n IH]; intros f d t H; cbn [rsum]; [apply (is_derive_const (V := R_NormedModule) 0)|].
  apply (is_derive_plus (V := R_NormedModule) (fun t => rsum n (fun k => f k t)) (f n)); [apply IH; intros; apply H; lia|apply H; lia].
Qed.
Section Semigroup.
  Variables (L : linalg) (dim : nat) (gen : mat).
  Hypothesis Hgen : generator dim gen.
  Hypothesis HL : expm_exact L.
  Notation tr := (tr dim gen).
  Notation Pt := (fun t => get_trans L dim t gen).
  Lemma tr_forward : forall x y t, (x < dim)%nat -> (y < dim)%nat -> is_derive (fun t => tr t x y) t (rsum dim (fun z => tr t x z * gen z y)).
  Proof.
    intros x y t Hx Hy.
    assert (E : PSeries (PS_derive (coef dim gen x y)) t = rsum dim (fun z => tr t x z * gen z y)).
    { unfold PSeries. apply is_series_unique. apply (is_series_ext (fun n => rsum dim (fun z => gen z y * (coef dim gen x z n * t ^ n)))).
      - intros n. unfold PS_derive, coef. rewrite (proj2 (Nat.ltb_lt _ _) Hx), (proj2 (Nat.ltb_lt _ _) Hy). cbn [andb mpow]. unfold mmul. rewrite fact_simpl, mult_INR.
        transitivity (rsum dim (fun k => mpow dim gen n x k * gen k y) * (t ^ n / INR (fact n))).
        + rewrite <- rsum_scal_r. apply rsum_ext. intros z Hz. rewrite (proj2 (Nat.ltb_lt _ _) Hz). cbn [andb]. unfold Rdiv. ring.
        + match goal with |- ?a = ?b => change (@eq R a b) end. field. split; [apply INR_fact_neq_0|apply not_0_INR; discriminate].
      - rewrite (rsum_ext dim (fun z => tr t x z * gen z y) (fun z => gen z y * tr t x z)) by (intros; ring).
        apply (is_series_rsum dim (fun z n => gen z y * (coef dim gen x z n * t ^ n))). intros z Hz. rewrite (tr_trans L dim gen HL t x z Hx Hz).
        apply (is_series_scal (K := R_AbsRing) (V := R_NormedModule) (gen z y)). apply series_trans; assumption. }
    rewrite <- E. apply is_derive_PSeries. exact (radius L dim gen HL x y t).
  Qed.
  Lemma tr_mass : forall x t, (x < dim)%nat -> 0 <= t -> rsum dim (tr t x) = 1.
  Proof.
    intros x t Hx Ht.
    assert (Z : rsum dim (tr 0 x) = 1).
    { rewrite (rsum_ext dim (tr 0 x) (fun y => if Nat.eqb x y then 1 else 0)); [apply (rsum_delta dim (fun _ => 1) x Hx)|]. intros y Hy. rewrite (tr_0 dim gen x y Hx Hy). destruct (Nat.eqb x y); reflexivity. }
    destruct (Rle_lt_or_eq_dec 0 t Ht) as [Lt| <-]; [|exact Z]. rewrite <- Z. symmetry.
    apply (eq_is_derive (V := R_NormedModule) (fun t => rsum dim (tr t x)) 0 t); [|exact Lt]. intros w _.
    assert (D : rsum dim (fun y => rsum dim (fun z => tr w x z * gen z y)) = 0).
    { rewrite rsum_swap. apply rsum_0. intros z Hz. rewrite rsum_scal_l. rewrite (proj2 Hgen z Hz). ring. }
    change (@zero R_NormedModule) with 0. rewrite <- D. apply (is_derive_rsum dim (fun y t => tr t x y)). intros y Hy. apply tr_forward; assumption.
  Qed.
  Lemma tr_semigroup : forall x y s t, (x < dim)%nat -> (y < dim)%nat -> 0 <= s -> rsum dim (fun z => tr s x z * tr t z y) = tr (s + t) x y.
  Proof.
    intros x y s t Hx Hy Hs. set (c := s + t). set (phi := fun w => rsum dim (fun z => tr w x z * tr (c - w) z y)).
    assert (P0 : phi 0 = tr c x y).
    { unfold phi. rewrite (rsum_ext dim _ (fun z => if Nat.eqb x z then tr c z y else 0)); [apply (rsum_delta dim (fun z => tr c z y) x Hx)|].
      intros z Hz. rewrite (tr_0 dim gen x z Hx Hz), Rminus_0_r. destruct (Nat.eqb x z); cbn; ring. }
    transitivity (phi s); [unfold phi, c; replace (s + t - s) with t by ring; reflexivity|]. rewrite <- P0.
    destruct (Rle_lt_or_eq_dec 0 s Hs) as [Lt| <-]; [|reflexivity]. symmetry. apply (eq_is_derive (V := R_NormedModule) phi 0 s); [|exact Lt]. intros w _.
    set (d := fun z => rsum dim (fun k => tr w x k * gen k z) * tr (c - w) z y + tr w x z * (- rsum dim (fun k => gen z k * tr (c - w) k y))).
    assert (D : rsum dim d = 0).
    { unfold d. rewrite rsum_plus. rewrite (rsum_ext dim (fun z => rsum dim (fun k => tr w x k * gen k z) * tr (c - w) z y) (fun z => rsum dim (fun k => tr w x k * gen k z * tr (c - w) z y))) by (intros; symmetry; apply rsum_scal_r).
      rewrite rsum_swap. rewrite <- rsum_plus. apply rsum_0. intros k Hk. 
      rewrite (rsum_ext dim (fun z => tr w x k * gen k z * tr (c - w) z y) (fun z => tr w x k * (gen k z * tr (c - w) z y))) by (intros; ring). rewrite rsum_scal_l. ring. }
    change (@zero R_NormedModule) with 0. rewrite <- D. unfold phi. apply (is_derive_rsum dim (fun z w => tr w x z * tr (c - w) z y) d w). intros z Hz. unfold d.
    apply (is_derive_mult (fun w => tr w x z) (fun w => tr (c - w) z y) w); [apply tr_forward; assumption|].
    pose proof (is_derive_comp (V := R_NormedModule) (fun t => tr t z y) (fun w => c - w) w _ (-1) (tr_derive L dim gen HL z y (c - w) Hz Hy)) as K.
    assert (DM : is_derive (fun w => c - w) w (-1)).
    { replace (-1) with (0 - 1) by ring. apply (is_derive_minus (V := R_NormedModule) (fun _ => c) (fun w => w)); [apply (is_derive_const (V := R_NormedModule) c)|apply (is_derive_id (K := R_AbsRing))]. }
    specialize (K DM). match type of K with is_derive _ _ ?l => replace (- rsum dim (fun k => gen z k * tr (c - w) k y)) with l; [exact K|] end.
    unfold scal; cbn; unfold mult; cbn. ring.
  Qed.
  Lemma mass : forall x t, (x < dim)%nat -> 0 <= t -> rsum dim (fun y => Pt t x y) = 1.
  Proof. intros x t Hx Ht. rewrite <- (tr_mass x t Hx Ht). apply rsum_ext. intros y Hy. symmetry. apply tr_trans; assumption. Qed.
  Lemma semigroup : forall x y s t, (x < dim)%nat -> (y < dim)%nat -> 0 <= s -> rsum dim (fun z => Pt s x z * Pt t z y) = Pt (s + t) x y.
  Proof.
    intros x y s t Hx Hy Hs. cbv beta. rewrite <- (tr_trans L dim gen HL (s + t) x y Hx Hy), <- (tr_semigroup x y s t Hx Hy Hs). apply rsum_ext. intros z Hz. rewrite !(tr_trans L dim gen HL) by assumption. reflexivity.
  Qed.
  (** ** splicing what is seen of two pieces *)
  Notation shift T := (map (fun c : R * nat => (T + fst c, snd c))).
  Lemma markov_shift : forall (P : R -> nat -> nat -> R) o T u x, markov P (T + u) x (shift T o) = markov P u x o.
  Proof. intros P. induction o as [|[v y] o IH]; intros T u x; [reflexivity|]. cbn [map markov fst snd]. rewrite IH. f_equal. f_equal. ring. Qed.
  Lemma splice : forall o u0 T x rest, in_order u0 o T -> (x < dim)%nat -> Forall (fun p => (snd p < dim)%nat) o -> Forall (fun p => (snd p < dim)%nat) rest ->
    rsum dim (fun y => markov Pt u0 x (o ++ [(T, y)]) * markov Pt 0 y rest) = markov Pt u0 x (o ++ shift T rest).
  Proof.
    induction o as [|[u y] o IH]; intros u0 T x rest HO Hx Ro Rr.
    - cbn [in_order app] in *. destruct rest as [|[u b] r]; cbn [map markov fst snd].
      + transitivity (rsum dim (fun y => Pt (T - u0) x y)); [|apply mass; [exact Hx|lra]]. apply rsum_ext. intros; cbv beta; ring.
      + inversion Rr; subst. cbn [snd] in *. replace (T + u - u0) with ((T - u0) + u) by ring.
        rewrite <- (semigroup x b (T - u0) u Hx) by (assumption || lra). rewrite (Rmult_comm (rsum dim _)), <- rsum_scal_l. apply rsum_ext. intros y Hy. rewrite (markov_shift Pt r T u b), Rminus_0_r. cbv beta. ring.
    - cbn [in_order app markov] in *. destruct HO as [H1 H2]. inversion Ro; subst. cbn [snd] in *. rewrite <- (IH u T y rest H2) by assumption. rewrite <- rsum_scal_l. apply rsum_ext. intros z Hz. cbv beta. ring.
  Qed.
End Semigroup.
