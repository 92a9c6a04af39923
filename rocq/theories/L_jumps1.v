(** The joint law of the states and the jump times of a forward path. *)
From Coquelicot Require Import Hierarchy Rbar Lim_seq Continuity Derive RInt RInt_analysis RInt_gen Series AutoDerive.
From Coq Require Import Reals List Bool Arith Lia Lra.
From Verif Require Import Base Np Rng L_rng M_mjp SpecMjp SpecLin SpecLaw SpecFdd SpecJumps L_law L_law2 L_law4 L_law5 L_sim L_race L_fdd1 L_fdd3 L_fwd1 L_fwd2 L_fwd3 L_mat Mat.
Import ListNotations.
Local Open Scope R_scope.

Lemma max_cont : forall m v, continuous (fun v => Rmax v m) v.
Proof.
  intros m v. apply (continuous_ext (fun v => / 2 * (v + m + Rabs (v - m)))).
  - intros w. unfold Rmax, Rabs. destruct (Rle_dec w m), (Rcase_abs (w - m)); req; lra.
  - apply (continuous_scal_r (V := R_NormedModule) (/ 2) (fun v => v + m + Rabs (v - m))).
    apply (continuous_plus (V := R_NormedModule) (fun v => v + m) (fun v => Rabs (v - m))).
    + apply (continuous_plus (V := R_NormedModule) (fun v => v) (fun _ => m)); [apply continuous_id|apply continuous_const].
    + apply (continuous_comp (fun v => v - m) Rabs); [|apply continuity_pt_filterlim, Rcontinuity_abs].
      apply (continuous_minus (V := R_NormedModule) (fun v => v) (fun _ => m)); [apply continuous_id|apply continuous_const].
Qed.
Lemma int_of : forall (f : R -> R) a b, (forall x, continuous f x) -> ex_RInt f a b.
Proof. intros f a b H. apply (ex_RInt_continuous (V := R_CompleteNormedModule)). intros z _. apply H. Qed.
Lemma prim_cont : forall (f : R -> R) a x, (forall x, continuous f x) -> continuous (fun b => RInt f a b) x.
Proof.
  intros f a x H. apply (ex_derive_continuous (fun b => RInt f a b)). eexists.
  apply (is_derive_RInt (V := R_CompleteNormedModule) f (fun b => RInt f a b) a x).
  - apply filter_forall. intros y. apply (RInt_correct (V := R_CompleteNormedModule)). apply int_of. exact H.
  - apply H.
Qed.
Lemma cut_cont : forall (f : R -> R) m v, (forall x, continuous f x) -> continuous (fun v => RInt f v (Rmax v m)) v.
Proof.
  intros f m v H. apply (continuous_ext (fun v => RInt f 0 (Rmax v m) - RInt f 0 v)).
  - intros w. pose proof (RInt_Chasles (V := R_CompleteNormedModule) f 0 w (Rmax w m) (int_of _ _ _ H) (int_of _ _ _ H)) as C.
    change (RInt f 0 w + RInt f w (Rmax w m) = RInt f 0 (Rmax w m)) in C. req. rewrite <- C. ring.
  - apply (continuous_minus (V := R_NormedModule) (fun v => RInt f 0 (Rmax v m)) (fun v => RInt f 0 v)); [|apply prim_cont; exact H].
    apply (continuous_comp (fun v => Rmax v m) (fun b => RInt f 0 b)); [apply max_cont|apply prim_cont; exact H].
Qed.
Lemma over_ext : forall T bs t0 f g, (forall ts, f ts = g ts) -> over_times T bs t0 f = over_times T bs t0 g.
Proof.
  intros T bs. induction bs as [|b bs IH]; intros t0 f g H; cbn [over_times]; [apply H|]. apply RInt_ext. intros t _. apply IH. intros ts. apply H.
Qed.

Section Path.
  Variables (dim : nat) (gen : mat) (T : R).
  Hypothesis Hgen : generator dim gen.
  Notation q x := (- gen x x).

  (** the probability of going on from x at time v through xs with the jumps bounded by bs *)
  Fixpoint W (xs : list nat) (bs : list R) (v : R) (x : nat) : R :=
    match xs, bs with
    | y :: xs', b :: bs' => exp (q x * v) * RInt (fun w => exp (- q x * w) * (gen x y * W xs' bs' w y)) v (Rmax v (Rmin b T))
    | _, _ => exp (q x * (v - T))
    end.
  Lemma tail_cont : forall x v, continuous (fun v => exp (q x * (v - T))) v.
  Proof. intros x v. apply (ex_derive_continuous (fun v => exp (q x * (v - T)))). auto_derive. exact Logic.I. Qed.
  Lemma W_smooth : forall xs bs, smooth (W xs bs).
  Proof.
    induction xs as [|y xs IH]; intros bs z w; cbn [W]; [apply tail_cont|]. destruct bs as [|b bs]; [apply tail_cont|].
    apply (continuous_mult (fun v => exp (q z * v)) (fun v => RInt (fun w => exp (- q z * w) * (gen z y * W xs bs w y)) v (Rmax v (Rmin b T)))); [apply exp_cont|].
    apply cut_cont. intros v. apply (continuous_mult (fun w => exp (- q z * w)) (fun w => gen z y * W xs bs w y)); [apply exp_cont|].
    apply (continuous_scal_r (V := R_NormedModule) (gen z y) (fun w => W xs bs w y)). apply IH.
  Qed.
  Lemma W_body : forall xs bs x y w, continuous (fun w => exp (- q x * w) * (gen x y * W xs bs w y)) w.
  Proof.
    intros xs bs x y w. apply (continuous_mult (fun w => exp (- q x * w)) (fun w => gen x y * W xs bs w y)); [apply exp_cont|].
    apply (continuous_scal_r (V := R_NormedModule) (gen x y) (fun w => W xs bs w y)). apply W_smooth.
  Qed.
  Lemma over_W : forall xs bs v x c, length bs = length xs ->
    over_times T bs v (fun ts => c * path_density gen T v x ts xs) = c * W xs bs v x.
  Proof.
    induction xs as [|y xs IH]; intros [|b bs] v x c HL; try discriminate HL; cbn [over_times W path_density].
    - f_equal. f_equal. ring.
    - injection HL as HL.
      rewrite (RInt_ext _ (fun t => scal (c * exp (q x * v)) (exp (- q x * t) * (gen x y * W xs bs t y)))).
      + rewrite (RInt_scal (V := R_CompleteNormedModule)); [|apply int_of; intros; apply W_body].
        unfold scal; cbn; unfold mult; cbn. req. ring.
      + intros t _. rewrite (over_ext _ _ _ _ (fun ts => (c * (exp (gen x x * (t - v)) * gen x y)) * path_density gen T t y ts xs)) by (intros; ring).
        rewrite IH by exact HL. unfold scal; cbn; unfold mult; cbn. req.
        replace (gen x x * (t - v)) with (q x * v + - q x * t) by ring. rewrite exp_plus. ring.
  Qed.

  Section Val.
    Variables (u : R) (x : nat).
    Hypothesis Hu : u < T.
    Hypothesis Hx : (x < dim)%nat.
    Notation rates := (np_delete (row_list dim gen x) x).
    Definition inb (b s : R) : bool := Rltb s 0 || (Rltb (u + s) T && Rleb (u + s) b).
    Definition pval (xs : list nat) (bs : list R) (r : ext * nat) : R :=
      match xs, bs with
      | y :: xs', b :: bs' => match fst r with
          | Fin s => if inb b s then ind (Nat.eqb (tgt x (snd r)) y) * W xs' bs' (u + s) y else 0
          | _ => 0
          end
      | _, _ => match fst r with Fin s => if Rltb (u + s) T then 0 else 1 | _ => 1 end
      end.
    Lemma stay_law : average (draw_holds rates) (fun hs => pval [] [] (race PosInf 0 0 hs)) (exp (q x * (u - T))).
    Proof.
      assert (H1 : forall s, s < T - u -> (fun s => Rltb (u + s) T) s = true) by (intros s Hs; apply Rltb_true; lra).
      assert (H2 : forall s, T - u < s -> (fun s => Rltb (u + s) T) s = false) by (intros s Hs; apply Rltb_false; lra).
      pose proof (race_law (T - u) 1 (fun s => Rltb (u + s) T) (fun _ _ => 0) ltac:(lra) H1 H2 (fun k s => continuous_const 0 s)
        rates PosInf 0 0 (rates_nonneg dim gen Hgen x Hx) ltac:(discriminate) ltac:(discriminate)) as RL.
      refine (average_eq _ _ _ _ _ _ (average_ext _ _ _ _ _ _ RL)).
      - cbn [outcome].
        pose proof (part_leg dim gen Hgen u x Hx (fun _ _ => 0) (T - u) (fun z w => continuous_const 0 w)) as PL.
        change (fun (k : nat) (s : R) => (fun (_ : R) (_ : nat) => 0) (u + s) (tgt x k)) with (fun (_ : nat) (_ : R) => 0) in PL. rewrite PL.
        rewrite (total_flow dim gen Hgen x Hx). unfold leg.
        rewrite (RInt_ext _ (fun _ => 0)).
        + rewrite RInt_const. unfold scal; cbn; unfold mult; cbn. rewrite Rmult_0_r, Rmult_0_r, Rplus_0_r, Rmult_1_l. f_equal. ring.
        + intros w _. unfold body. rewrite (flow_rsum dim gen x _ Hx). rewrite (rsum_ext dim _ (fun _ => 0)) by (intros; ring). rewrite rsum_const. req. ring.
      - intros hs. unfold gain, pval. destruct (fst (race PosInf 0 0 hs)) as [|s|]; reflexivity.
    Qed.
    Lemma jump_law : forall y xs b bs, (y < dim)%nat -> y <> x ->
      average (draw_holds rates) (fun hs => pval (y :: xs) (b :: bs) (race PosInf 0 0 hs)) (W (y :: xs) (b :: bs) u x).
    Proof.
      intros y xs b bs Hy Hne. set (tau := Rmax u (Rmin b T) - u).
      assert (Ht : 0 <= tau) by (unfold tau; pose proof (Rmax_l u (Rmin b T)); lra).
      assert (H1 : forall s, s < tau -> inb b s = true).
      { intros s Hs. unfold inb. destruct (Rltb_dec s 0) as [[_ ->]|[N ->]]; [reflexivity|]. cbn [orb].
        assert (u + s < Rmin b T).
        { unfold tau, Rmax in Hs. destruct (Rle_dec u (Rmin b T)); lra. }
        pose proof (Rmin_l b T). pose proof (Rmin_r b T). rewrite (proj2 (Rltb_true _ _)) by lra. apply Rleb_true. lra. }
      assert (H2 : forall s, tau < s -> inb b s = false).
      { intros s Hs. unfold inb. rewrite (proj2 (Rltb_false _ _)) by lra. cbn [orb].
        assert (Rmin b T < u + s) by (unfold tau in Hs; pose proof (Rmax_r u (Rmin b T)); lra).
        destruct (Rltb_dec (u + s) T) as [[L ->]|[L ->]]; [|reflexivity]. cbn [andb]. apply Rleb_false.
        unfold Rmin in H. destruct (Rle_dec b T); lra. }
      set (F := fun w z => ind (Nat.eqb z y) * W xs bs w y).
      assert (SF : smooth F) by (intros z w; apply (continuous_scal_r (V := R_NormedModule) (ind (Nat.eqb z y)) (fun w => W xs bs w y)); apply W_smooth).
      pose proof (race_law tau 0 (inb b) (fun k s => F (u + s) (tgt x k)) Ht H1 H2 (fun k s => shift_smooth u x F k s SF)
        rates PosInf 0 0 (rates_nonneg dim gen Hgen x Hx) ltac:(discriminate) ltac:(discriminate)) as RL.
      refine (average_eq _ _ _ _ _ _ (average_ext _ _ _ _ _ _ RL)).
      - cbn [outcome W]. rewrite (part_leg dim gen Hgen u x Hx F tau SF). unfold leg. rewrite Rmult_0_l, Rplus_0_l. f_equal.
        replace (u + tau) with (Rmax u (Rmin b T)) by (unfold tau; ring). apply RInt_ext. intros w _. unfold body. f_equal.
        rewrite (flow_rsum dim gen x _ Hx). unfold F. rewrite (proj2 (Nat.eqb_neq x y)) by congruence.
        rewrite (rsum_ext dim _ (fun z => if Nat.eqb z y then gen x z * W xs bs w y else 0)).
        + rewrite (rsum_delta_r dim (fun z => gen x z * W xs bs w y)) by exact Hy. cbn [ind]. req. ring.
        + intros z _. destruct (Nat.eqb z y); cbn [ind]; ring.
      - intros hs. unfold gain, pval, F. destruct (fst (race PosInf 0 0 hs)) as [|s|]; reflexivity.
    Qed.
  End Val.
End Path.
