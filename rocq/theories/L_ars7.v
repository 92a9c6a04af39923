(** The law of one iteration and of the loop. *)
From Coq Require Import Reals List ZArith Bool Arith Lia Lra Sorted.
From Coquelicot Require Import Rbar Hierarchy Continuity Derive AutoDerive RInt RInt_gen RInt_analysis.
From Verif Require Import Base Np Rng M_adapt M_ars SpecArs SpecLaw L_list L_path L_mat L_adapt L_rng L_law L_law2 L_law5 L_ars L_ars2 L_ars3 L_ars4 L_ars5 L_ars6 Mat.
Import ListNotations.
Local Open Scope R_scope.

Definition next_hull (f df : R -> R) (maxp : nat) (h : hull) (p : R) : hull :=
  if Nat.ltb (length (h_x h)) maxp then
    mk_hull (insert_at (h_x h) (searchsorted_left (h_x h) p) p) (insert_at (h_fx h) (searchsorted_left (h_x h) p) (f p)) (insert_at (h_dfx h) (searchsorted_left (h_x h) p) (df p))
  else h.
(** runs with the oracle changed *)
Section Via.
  Context (tr : oracle -> oracle) (t : R -> R).
  Hypothesis HT : forall o k, ora_r (tr o) k (DUniform 0 1) = t (ora_r o k (DUniform 0 1)).
  Hypothesis T1 : forall z, 0 < z < 1 -> t z = z.
  Definition via {A} (m : M A) : M A := fun o k => m (tr o) k.
  Context {B : Type} (K : option (hull * option R) -> M B) (F : B -> R).
  Lemma done_average (m : M B) r : (forall o k, valid o -> m o k = (r, k)) -> average m F (value F r).
  Proof. intros E. apply (mean_done (value F) m r). exact E. Qed.
  Lemma tested_law f df maxp h y p a b :
    average (via (K (Some (h, Some p)))) F a -> average (via (K (Some (next_hull f df maxp h p, None)))) F b ->
    exists c, average (via (bind (tested f df maxp h y (Some p)) K)) F c /\
      forall lo up, eval_lower (h_x h) (h_fx h) p = Ok lo -> eval_upper (h_x h) (h_fx h) (h_dfx h) y p = Ok up -> ele lo (Fin (f p)) -> f p <= up ->
        c = exp (f p - up) * a + (1 - exp (f p - up)) * b.
  Proof.
    intros Ha Hb. unfold tested. destruct (eval_lower (h_x h) (h_fx h) p) as [lo|e|] eqn:E1.
    2:{ exists 0. split; [|intros; discriminate]. apply (done_average _ (Raise e)). reflexivity. }
    2:{ exists 0. split; [|intros; discriminate]. apply (done_average _ NoFuel). reflexivity. }
    destruct (eval_upper (h_x h) (h_fx h) (h_dfx h) y p) as [up|e|] eqn:E2.
    2:{ exists 0. split; [|intros; discriminate]. apply (done_average _ (Raise e)). reflexivity. }
    2:{ exists 0. split; [|intros; discriminate]. apply (done_average _ NoFuel). reflexivity. }
    set (T := Rmax (level up lo) (level up (Fin (f p)))).
    assert (TR : 0 <= T <= 1) by (pose proof (level_range up lo); pose proof (level_range up (Fin (f p))); unfold T, Rmax; destruct (Rle_dec _ _); lra).
    assert (BB : forall u, 0 <= u < 1 -> orb (cut u up lo) (cut u up (Fin (f p))) = true <-> u < T).
    { intros u Hu. rewrite orb_true_iff, !cut_level by exact Hu. unfold T, Rmax. destruct (Rle_dec _ _); split; intros; lra. }
    exists (T * a + (1 - T) * b). split.
    - set (cont := fun u => if orb (cut u up lo) (cut u up (Fin (f p))) then K (Some (h, Some p)) else K (Some (next_hull f df maxp h p, None))).
      apply (mean_real (value F) _ (DUniform 0 1) (fun u => via (cont (t u))) (fun u => if orb (cut (t u) up lo) (cut (t u) up (Fin (f p))) then a else b)).
      + intros o k _. unfold via, lift, bind, draw_r, ret. cbv beta iota zeta. rewrite HT.
        fold (cut (t (ora_r o k (DUniform 0 1))) up lo). fold (cut (t (ora_r o k (DUniform 0 1))) up (Fin (f p))). unfold cont, next_hull.
        destruct (cut _ up lo); [reflexivity|]. destruct (cut _ up (Fin (f p))); [reflexivity|]. cbn [orb]. destruct (Nat.ltb _ _); reflexivity.
      + intros u _. unfold cont. destruct (orb _ _); [exact Ha|exact Hb].
      + split; [lra|]. rewrite Rminus_0_r, Rmult_1_l.
        assert (KK : forall a b (c : R), is_RInt (V := R_NormedModule) (fun _ : R => c) a b ((b - a) * c)) by (intros; exact (is_RInt_const a0 b0 c)).
        replace (T * a + (1 - T) * b) with (plus ((T - 0) * a) ((1 - T) * b)) by (unfold plus; cbn; ring).
        apply (is_RInt_Chasles (V := R_NormedModule) _ 0 T 1).
        * refine (is_RInt_ext (V := R_NormedModule) _ _ _ _ _ _ (KK 0 T a)). rewrite Rmin_left, Rmax_right by lra. intros u Hu. rewrite T1 by lra. rewrite (proj2 (BB u ltac:(lra))) by lra. reflexivity.
        * refine (is_RInt_ext (V := R_NormedModule) _ _ _ _ _ _ (KK T 1 b)). rewrite Rmin_left, Rmax_right by lra. intros u Hu. rewrite T1 by lra.
          destruct (orb _ _) eqn:EO; [apply (BB u ltac:(lra)) in EO; lra|reflexivity].
    - intros lo' up' Q1 Q2 LO U. injection Q1 as <-. injection Q2 as <-.
      assert (L2 : level up (Fin (f p)) = exp (f p - up)). { cbn. apply Rmin_right. rewrite <- exp_0. apply exp_mono. lra. }
      assert (L1 : level up lo <= exp (f p - up)).
      { destruct lo as [|w|]; cbn in *; [left; apply exp_pos| |contradiction]. eapply Rle_trans; [apply Rmin_r|]. apply exp_mono. lra. }
      unfold T. rewrite L2, Rmax_right by exact L1. reflexivity.
  Qed.
  Lemma step_average lb ub f df maxp h (P : R -> Prop) phi psi vn v : strictly_concave_on lb ub f df -> h_fx h = map f (h_x h) -> h_dfx h = map df (h_x h) ->
    supports lb ub (h_x h) -> (forall a, In a (h_x h) -> df a <> 0) -> (lb = NegInf -> 0 < df (hd 0 (h_x h))) -> (ub = PosInf -> df (last (h_x h) 0) < 0 /\ (2 <= length (h_x h))%nat) ->
    (forall z p, 0 <= z < 1 -> at_draw lb ub f df h (t z) = Ok (Some p) -> P p) ->
    average (via (K None)) F vn ->
    (forall p, P p -> average (via (K (Some (h, Some p)))) F (phi p)) ->
    (forall p, P p -> average (via (K (Some (next_hull f df maxp h p, None)))) F psi) ->
    is_RInt (V := R_NormedModule) (fun z => accept f df h (point lb ub f df h z) * phi (point lb ub f df h z) + (1 - accept f df h (point lb ub f df h z)) * psi) 0 1 v ->
    average (via (bind (ars_step f df lb ub maxp h) K)) F v.
  Proof.
    intros HC Hfx Hdf HSup NZ HLB HUB HP KN KA KR HI. set (y := breaks lb ub f df (h_x h)).
    assert (ST : forall o k, via (bind (ars_step f df lb ub maxp h) K) o k =
      bind (draw_r (DUniform 0 1)) (fun z => via (bind (bind (fun o k => (at_draw lb ub f df h (t z), k)) (tested f df maxp h y)) K)) o k).
    { intros o k. change (bind (ars_step f df lb ub maxp h) K (tr o) k = bind (bind (fun o' k' => (at_draw lb ub f df h (t (ora_r o k (DUniform 0 1))), k')) (tested f df maxp h y)) K (tr o) (S k)).
      rewrite <- HT. unfold bind at 1 2. assert (SE : ars_step f df lb ub maxp h (tr o) k = bind (fun _ k' => (at_draw lb ub f df h (ora_r (tr o) k (DUniform 0 1)), k')) (tested f df maxp h y) (tr o) (S k)); [|rewrite SE; reflexivity].
      unfold ars_step. rewrite Hfx, Hdf, (hull_breaks_ok lb ub f df (h_x h) HC HSup). unfold bind at 1. rewrite (envelope_run lb ub f df h HC HSup NZ HLB HUB). unfold bind at 4.
      destruct (at_draw _ _ _ _ _ _) as [xo| |]; try reflexivity. unfold tested. rewrite Hfx, Hdf. reflexivity. }
    assert (EX : forall z, 0 <= z < 1 -> exists c, average (via (bind (bind (fun o k => (at_draw lb ub f df h (t z), k)) (tested f df maxp h y)) K)) F c).
    { intros z Hz. destruct (at_draw lb ub f df h (t z)) as [[p|]|e|] eqn:ED.
      - destruct (tested_law f df maxp h y p (phi p) psi (KA p (HP z p Hz ED)) (KR p (HP z p Hz ED))) as (c & C & _). exists c. refine (mean_ext _ _ _ _ _ _ C). reflexivity.
      - exists vn. refine (mean_ext _ _ _ _ _ _ KN). reflexivity.
      - exists 0. apply (done_average _ (Raise e)). reflexivity.
      - exists 0. apply (done_average _ NoFuel). reflexivity. }
    destruct (EX 0 ltac:(lra)) as (c0 & C0).
    set (g := fun z => if Reqb z 0 then c0 else accept f df h (point lb ub f df h z) * phi (point lb ub f df h z) + (1 - accept f df h (point lb ub f df h z)) * psi).
    apply (mean_real (value F) _ (DUniform 0 1) (fun z => via (bind (bind (fun o k => (at_draw lb ub f df h (t z), k)) (tested f df maxp h y)) K)) g v).
    - intros o k _. apply ST.
    - intros z (w & Hw & ->). replace (0 + (1 - 0) * w) with w by ring. unfold g. destruct (Reqb_dec w 0) as [[-> ->]|[N ->]]; [exact C0|].
      destruct (point_ok lb ub f df h HC HSup NZ HLB HUB w ltac:(lra)) as (EP & D & _). set (q := point lb ub f df h w) in *.
      assert (Pq : P q) by (apply (HP w q Hw); rewrite T1 by lra; exact EP).
      destruct (tested_law f df maxp h y q (phi q) psi (KA q Pq) (KR q Pq)) as (c & C & V).
      destruct (eval_lower_ok lb ub f df (h_x h) q (strictly_concave _ _ _ _ HC) HSup D) as (lo & EL & LO & _).
      destruct (eval_upper_ok lb ub f df (h_x h) q HC HSup D) as (up & EU & U1 & U2 & U3).
      rewrite Hfx, Hdf in V. specialize (V lo up EL EU LO U1). rewrite (least_unique f df (h_x h) q up (proj2 (proj2 HSup)) U2 U3) in V. fold (accept f df h q) in V. rewrite <- V.
      refine (mean_ext _ _ _ _ _ _ C). intros o k _. unfold via, bind. rewrite T1 by lra. rewrite EP. reflexivity.
    - split; [lra|]. rewrite Rminus_0_r, Rmult_1_l. refine (is_RInt_ext (V := R_NormedModule) _ _ _ _ _ _ HI). rewrite Rmin_left, Rmax_right by lra. intros z Hz. unfold g.
      destruct (Reqb_dec z 0) as [[-> _]|[_ ->]]; [lra|reflexivity].
  Qed.
End Via.
