(** The envelope as an integral of the exponential of the upper hull. *)
From Coq Require Import Reals List ZArith Bool Arith Lia Lra Sorted.
From Coquelicot Require Import Rbar Hierarchy Continuity Derive AutoDerive RInt RInt_gen RInt_analysis.
From Verif Require Import Base Np Rng M_adapt M_ars SpecArs L_list L_path L_mat L_adapt L_ars L_ars2 Mat.
Import ListNotations.
Local Open Scope R_scope.

Lemma min_spec (l : list R) d : (In d l \/ True) -> (fold_right Rmin d l = d \/ In (fold_right Rmin d l) l) /\ fold_right Rmin d l <= d /\ forall a, In a l -> fold_right Rmin d l <= a.
Proof.
  intros _. induction l as [|b l (I1 & I2 & I3)]; cbn; [repeat split; auto; lra || contradiction|].
  set (m := fold_right Rmin d l) in *. unfold Rmin. destruct (Rle_dec b m).
  - split; [right; left; reflexivity|]. split; [lra|]. intros a [<-|H]; [lra|]. specialize (I3 a H). lra.
  - split; [destruct I1 as [->|I1]; [left; reflexivity|right; right; exact I1]|]. split; [exact I2|]. intros a [<-|H]; [lra|]. exact (I3 a H).
Qed.
Lemma least_spec f df x v : x <> [] -> (exists a, In a x /\ least_tangent f df x v = tangent f df a v) /\ forall a, In a x -> least_tangent f df x v <= tangent f df a v.
Proof.
  intros N. unfold least_tangent. destruct (min_spec (map (fun a => tangent f df a v) x) (tangent f df (hd 0 x) v) (or_intror I)) as (I1 & I2 & I3). split.
  - destruct I1 as [->|I1].
    + exists (hd 0 x). split; [destruct x; [congruence|left; reflexivity]|reflexivity].
    + apply in_map_iff in I1. destruct I1 as (a & <- & Ha). exists a. split; [exact Ha|reflexivity].
  - intros a Ha. apply I3. apply in_map_iff. exists a. auto.
Qed.
Lemma least_unique f df x v up : x <> [] -> (exists a, In a x /\ up = tangent f df a v) -> (forall a, In a x -> up <= tangent f df a v) -> up = least_tangent f df x v.
Proof.
  intros N (a & Ha & ->) U. destruct (least_spec f df x v N) as ((b & Hb & E) & L). apply Rle_antisym; [rewrite E; apply U; exact Hb|apply L; exact Ha].
Qed.
Lemma tangent_cont f df a v : continuity_pt (tangent f df a) v.
Proof. unfold tangent. reg. Qed.
Lemma rmin_cont g h v : continuity_pt g v -> continuity_pt h v -> continuity_pt (fun v => Rmin (g v) (h v)) v.
Proof.
  intros G H. apply continuity_pt_ext with (fun v => (g v + h v - Rabs (g v - h v)) / 2).
  - intros t. unfold Rmin. destruct (Rle_dec (g t) (h t)); [rewrite Rabs_left1 by lra|rewrite Rabs_right by lra]; field.
  - apply (continuity_pt_mult (fun v => g v + h v - Rabs (g v - h v)) (fun _ => / 2)); [|apply continuity_pt_const; intros ? ?; reflexivity].
    apply (continuity_pt_minus (fun v => g v + h v) (fun v => Rabs (g v - h v))); [apply (continuity_pt_plus g h); assumption|].
    apply (continuity_pt_comp (fun v => g v - h v) Rabs); [apply (continuity_pt_minus g h); assumption|apply Rcontinuity_abs].
Qed.
Lemma least_cont f df x v : continuity_pt (least_tangent f df x) v.
Proof.
  unfold least_tangent. set (d := hd 0 x). clearbody d. induction x as [|a x IH]; cbn; [apply tangent_cont|]. apply rmin_cont; [apply tangent_cont|exact IH].
Qed.
Lemma env_cont f df x v : continuous (fun v => exp (least_tangent f df x v)) v.
Proof. apply continuity_pt_filterlim. apply (continuity_pt_comp (least_tangent f df x) exp); [apply least_cont|apply derivable_continuous_pt, derivable_pt_exp]. Qed.

Lemma sum_incr g i j : (i < j)%nat -> (forall k, (k < j)%nat -> 0 < g k) -> rsum i g < rsum j g.
Proof.
  intros H P. induction j as [|j IH]; [lia|]. rewrite rsum_S. pose proof (P j ltac:(lia)). destruct (Nat.eq_dec i j) as [->|N]; [lra|].
  specialize (IH ltac:(lia)). assert (rsum i g < rsum j g) by (apply IH; intros; apply P; lia). lra.
Qed.

(** improper integrals of functions that agree between the limits *)
Global Instance lim_filter e : ProperFilter (lim e).
Proof. destruct e; cbn; typeclasses eauto. Qed.
Lemma lim_ext (g h : R -> R) lo hi m : elt lo hi -> (forall v, ele lo (Fin v) -> ele (Fin v) hi -> g v = h v) ->
  is_RInt_gen (V := R_NormedModule) g (lim lo) (lim hi) m -> is_RInt_gen (V := R_NormedModule) h (lim lo) (lim hi) m.
Proof.
  intros L E H. refine (is_RInt_gen_ext (V := R_NormedModule) (Fa := lim lo) (Fb := lim hi) g h m _ H).
  destruct lo as [|a|], hi as [|b|]; cbn in L; try contradiction.
  - apply (Filter_prod _ _ _ (fun x => x < b) (fun y => y = b)); [exists b; auto|reflexivity|]. intros x y Hx -> v Hv. cbn in Hv. rewrite Rmax_right in Hv by lra. apply E; cbn; auto. lra.
  - apply (Filter_prod _ _ _ (fun x => x < 0) (fun y => 0 < y)); [exists 0; auto|exists 0; auto|]. intros x y _ _ v _. apply E; exact Logic.I.
  - apply (Filter_prod _ _ _ (fun x => x = a) (fun y => y = b)); [reflexivity|reflexivity|]. intros x y -> -> v Hv. cbn in Hv. rewrite Rmax_right, Rmin_left in Hv by lra. apply E; cbn; lra.
  - apply (Filter_prod _ _ _ (fun x => x = a) (fun y => a < y)); [reflexivity|exists a; auto|]. intros x y -> Hy v Hv. cbn in Hv. rewrite Rmin_left in Hv by lra. apply E; cbn; auto. lra.
Qed.
Lemma gen_unique (g : R -> R) lo hi l l' : is_RInt_gen (V := R_NormedModule) g (lim lo) (lim hi) l -> is_RInt_gen (V := R_NormedModule) g (lim lo) (lim hi) l' -> l = l'.
Proof.
  intros H H'. rewrite <- (is_RInt_gen_unique (V := R_CompleteNormedModule) g l H). apply (is_RInt_gen_unique (V := R_CompleteNormedModule) g l' H').
Qed.
Lemma gen_chasles (g : R -> R) lo b hi l l' : is_RInt_gen (V := R_NormedModule) g (lim lo) (at_point b) l -> is_RInt_gen (V := R_NormedModule) g (at_point b) (lim hi) l' ->
  is_RInt_gen (V := R_NormedModule) g (lim lo) (lim hi) (l + l').
Proof. intros H H'. exact (is_RInt_gen_Chasles (V := R_NormedModule) g b l l' H H'). Qed.

Section Env.
  Context (lb ub : ext) (f df : R -> R) (x : list R).
  Hypothesis HC : strictly_concave_on lb ub f df.
  Hypothesis HSup : supports lb ub x.
  Hypothesis NZ : forall a, In a x -> df a <> 0.
  Hypothesis HLB : lb = NegInf -> 0 < df (hd 0 x).
  Hypothesis HUB : ub = PosInf -> df (last x 0) < 0 /\ (2 <= length x)%nat.
  Notation n := (length x).
  Notation X j := (nth j x 0).
  Notation Y j := (nth j (breaks lb ub f df x) PosInf).
  Notation V j e := (val f df (nth j x 0) e).
  Notation E := (fun v => exp (least_tangent f df x v)).
  Definition M_ (j : nat) : R := (V j (Y (S j)) - V j (Y j)) / df (X j).
  Definition Z_ : R := rsum n M_.
  Lemma x_ne : x <> [].
  Proof. apply HSup. Qed.
  Lemma on_segment j v : (j < n)%nat -> ele (Y j) (Fin v) -> ele (Fin v) (Y (S j)) -> tangent f df (X j) v = least_tangent f df x v.
  Proof.
    intros Hj L U. apply least_unique; [apply x_ne| |].
    - exists (X j). split; [apply nth_In; exact Hj|reflexivity].
    - intros a Ha. destruct (In_nth x a 0 Ha) as (k & Hk & <-). apply (tangents_min lb ub f df x v j HC HSup Hj L U k Hk).
  Qed.
  Lemma y_order j : (j < n)%nat -> elt (Y j) (Y (S j)).
  Proof. intros Hj. apply (breaks_sorted lb ub f df x j (S j) HC HSup). lia. Qed.
  Lemma ele_trans a b c : ele a b -> ele b c -> ele a c.
  Proof. destruct a, b, c; cbn; auto; try contradiction; lra. Qed.
  Lemma M_pos j : (j < n)%nat -> 0 < M_ j.
  Proof. intros Hj. apply val_lt; [apply (nzj df x NZ); exact Hj|apply (okl_lo lb ub f df x HC HSup NZ HLB HUB j Hj)|apply (okl_hi lb ub f df x HC HSup HUB j Hj)|apply y_order; exact Hj]. Qed.
  Lemma seg_mass j : (j < n)%nat -> is_RInt_gen (V := R_NormedModule) E (lim (Y j)) (lim (Y (S j))) (M_ j).
  Proof.
    intros Hj. apply (lim_ext (fun v => exp (tangent f df (X j) v))); [apply y_order; exact Hj| |].
    - intros v L U. f_equal. apply on_segment; assumption.
    - apply (mass_ok f df (X j) (nzj df x NZ j Hj)); [apply (okl_lo lb ub f df x HC HSup NZ HLB HUB j Hj)|apply (okl_hi lb ub f df x HC HSup HUB j Hj)].
  Qed.
  Lemma part_mass j v : (j < n)%nat -> elt (Y j) (Fin v) -> ele (Fin v) (Y (S j)) ->
    is_RInt_gen (V := R_NormedModule) E (lim (Y j)) (at_point v) ((V j (Fin v) - V j (Y j)) / df (X j)) /\ 0 < (V j (Fin v) - V j (Y j)) / df (X j).
  Proof.
    intros Hj L U. pose proof (okl_lo lb ub f df x HC HSup NZ HLB HUB j Hj) as O. split.
    - apply (lim_ext (fun v => exp (tangent f df (X j) v)) _ _ (Fin v) _ L).
      + intros w L' U'. f_equal. apply on_segment; [exact Hj|exact L'|apply (ele_trans _ (Fin v)); assumption].
      + apply (mass_ok f df (X j) (nzj df x NZ j Hj)); [exact O|exact Logic.I].
    - apply val_lt; [apply (nzj df x NZ); exact Hj|exact O|exact Logic.I|exact L].
  Qed.
  Lemma break_fin j : (S j < n)%nat -> exists y, Y (S j) = Fin y.
  Proof. intros H. rewrite breaks_mid by exact H. eexists. reflexivity. Qed.
  Lemma left_break j y : (S j < n)%nat -> Y (S j) = Fin y -> is_RInt_gen (V := R_NormedModule) E (lim lb) (at_point y) (rsum (S j) M_).
  Proof.
    revert y. induction j as [|j IH]; intros y Hj Ey.
    - pose proof (seg_mass 0 ltac:(lia)) as S0. rewrite Ey, breaks_0 in S0. cbn [rsum]. rewrite Rplus_0_l. exact S0.
    - destruct (break_fin j ltac:(lia)) as (y' & Ey'). pose proof (seg_mass (S j) ltac:(lia)) as S0. rewrite Ey, Ey' in S0. rewrite rsum_S.
      exact (gen_chasles _ lb y' (Fin y) _ _ (IH y' ltac:(lia) Ey') S0).
  Qed.
  Lemma left_mass j v : (j < n)%nat -> elt (Y j) (Fin v) -> ele (Fin v) (Y (S j)) ->
    is_RInt_gen (V := R_NormedModule) E (lim lb) (at_point v) (rsum j M_ + (V j (Fin v) - V j (Y j)) / df (X j)).
  Proof.
    intros Hj L U. destruct (part_mass j v Hj L U) as (P & _). destruct j as [|j].
    - rewrite breaks_0 in P at 1. cbn [rsum]. rewrite Rplus_0_l. exact P.
    - destruct (break_fin j ltac:(lia)) as (y & Ey). rewrite Ey in *. exact (gen_chasles _ lb y (Fin v) _ _ (left_break j y ltac:(lia) Ey) P).
  Qed.
  Lemma total_mass : envelope_mass lb ub f df x Z_.
  Proof.
    unfold envelope_mass, Z_. pose proof (n_pos lb ub df x HSup NZ HLB HUB) as NP. pose proof (seg_mass (n - 1) ltac:(lia)) as SL. replace (S (n - 1)) with n in SL by lia. rewrite breaks_last in SL by apply x_ne.
    destruct (Nat.eq_dec n 1) as [E1|N1].
    - rewrite E1 in *. cbn [Nat.sub] in SL. rewrite breaks_0 in SL. cbn [rsum]. rewrite Rplus_0_l. exact SL.
    - destruct (break_fin (n - 2) ltac:(lia)) as (y & Ey). replace (n - 1)%nat with (S (n - 2)) in SL by lia. rewrite Ey in SL.
      replace (rsum n M_) with (rsum (S (n - 2)) M_ + M_ (S (n - 2))) by (rewrite <- rsum_S; f_equal; lia).
      exact (gen_chasles _ lb y ub _ _ (left_break (n - 2) y ltac:(lia) Ey) SL).
  Qed.
  Lemma Z_pos : 0 < Z_.
  Proof. unfold Z_. replace 0 with (rsum 0 M_) by reflexivity. apply (sum_incr M_ 0 n); [exact (n_pos lb ub df x HSup NZ HLB HUB)|]. intros k Hk. apply M_pos. exact Hk. Qed.
  Lemma rsum_le_M i j : (i <= j <= n)%nat -> rsum i M_ <= rsum j M_.
  Proof. intros H. destruct (Nat.eq_dec i j) as [->|N]; [lra|]. left. apply sum_incr; [lia|]. intros k Hk. apply M_pos. lia. Qed.
  (** every point between the bounds has mass on both sides *)
  Lemma dom_mass v : dom lb ub v -> exists w, 0 < w < Z_ /\ is_RInt_gen (V := R_NormedModule) E (lim lb) (at_point v) w.
  Proof.
    intros D. destruct (esearch_ok lb ub f df x v HC HSup D) as (i & Hi & _ & L & U). apply not_elt in U.
    exists (rsum i M_ + (V i (Fin v) - V i (Y i)) / df (X i)). split; [|apply left_mass; assumption].
    destruct (part_mass i v Hi L U) as (_ & P). pose proof (rsum_le_M 0 i ltac:(lia)) as R0. cbn [rsum] in R0. split; [lra|].
    assert (T : (V i (Fin v) - V i (Y i)) / df (X i) <= M_ i /\ (elt (Fin v) (Y (S i)) -> (V i (Fin v) - V i (Y i)) / df (X i) < M_ i)).
    { assert (SS : elt (Fin v) (Y (S i)) -> (V i (Fin v) - V i (Y i)) / df (X i) < M_ i).
      { intros Q. pose proof (val_lt f df (X i) (Fin v) (Y (S i)) (nzj df x NZ i Hi) Logic.I (okl_hi lb ub f df x HC HSup HUB i Hi) Q) as W. unfold M_.
        replace ((V i (Y (S i)) - V i (Y i)) / df (X i)) with ((V i (Y (S i)) - V i (Fin v)) / df (X i) + (V i (Fin v) - V i (Y i)) / df (X i)) by (field; apply (nzj df x NZ i Hi)). lra. }
      split; [|exact SS]. destruct (Y (S i)) as [|y|] eqn:EY; cbn in U; try contradiction; [|left; apply SS; exact Logic.I].
      destruct U as [U|U]; [left; apply SS; exact U|]. subst y. unfold M_. rewrite EY. lra. }
    destruct T as (T1 & T2). destruct (Nat.eq_dec (S i) n) as [En|Nn].
    - assert (elt (Fin v) (Y (S i))) by (rewrite En, breaks_last by apply x_ne; apply D). specialize (T2 H).
      unfold Z_. rewrite <- En, rsum_S. lra.
    - pose proof (rsum_le_M (S (S i)) n ltac:(lia)) as R2. rewrite !rsum_S in R2. pose proof (M_pos (S i) ltac:(lia)). unfold Z_. lra.
  Qed.
  (** the point drawn from the envelope *)
  Lemma draw_mass o k z : ora_r o k (DUniform 0 1) = z -> 0 < z < 1 ->
    exists p, fst (sample_envelope x (map f x) (map df x) (breaks lb ub f df x) o k) = Ok (Some p) /\ dom lb ub p /\ is_RInt_gen (V := R_NormedModule) E (lim lb) (at_point p) (z * Z_).
  Proof.
    intros HO Hz. destruct (envelope_inverse lb ub f df x HC HSup NZ HLB HUB o k z HO Hz) as (p & i & M & m & R0 & Hi & L & U & D & HM & Hm & EQ).
    exists p. split; [exact R0|]. split; [exact D|].
    assert (EM : forall j, (j < n)%nat -> M j = M_ j).
    { intros j Hj. apply (gen_unique (fun v => exp (tangent f df (X j) v)) (Y j) (Y (S j))); [apply HM; exact Hj|].
      apply (mass_ok f df (X j) (nzj df x NZ j Hj)); [apply (okl_lo lb ub f df x HC HSup NZ HLB HUB j Hj)|apply (okl_hi lb ub f df x HC HSup HUB j Hj)]. }
    assert (Em : m = (V i (Fin p) - V i (Y i)) / df (X i)).
    { apply (gen_unique (fun v => exp (tangent f df (X i) v)) (Y i) (Fin p)); [exact Hm|].
      apply (mass_ok f df (X i) (nzj df x NZ i Hi)); [apply (okl_lo lb ub f df x HC HSup NZ HLB HUB i Hi)|exact Logic.I]. }
    replace (z * Z_) with (rsum i M_ + (V i (Fin p) - V i (Y i)) / df (X i)); [apply left_mass; assumption|].
    rewrite <- Em. unfold Z_. rewrite <- (rsum_ext n M M_ EM). rewrite <- EQ. f_equal. apply rsum_ext. intros j Hj. symmetry. apply EM. lia.
  Qed.
End Env.
