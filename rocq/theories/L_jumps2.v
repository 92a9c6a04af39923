(** The law of the states and jump times of a whole forward path. *)
From Coquelicot Require Import Hierarchy Rbar Lim_seq Continuity Derive RInt RInt_analysis RInt_gen Series AutoDerive.
From Coq Require Import Reals List Bool Arith Lia Lra.
From Verif Require Import Base Np Rng L_rng M_mjp SpecMjp SpecLin SpecLaw SpecFdd SpecJumps L_law L_law2 L_law4 L_law5 L_sim L_race L_fdd1 L_fdd3 L_fwd1 L_fwd2 L_fwd3 L_jumps1 L_mat Mat.
Import ListNotations.
Local Open Scope R_scope.

Lemma race_in : forall l best bi i, fst (race best bi i l) = best \/ In (fst (race best bi i l)) l.
Proof.
  induction l as [|a l IH]; intros best bi i; [left; reflexivity|]. cbn [race]. destruct (eltb a best).
  - destruct (IH a i (S i)) as [-> |H]; right; [left; reflexivity|right; exact H].
  - destruct (IH best bi (S i)) as [-> |H]; [left; reflexivity|right; right; exact H].
Qed.
Lemma goes_next : forall u x y xs b bs s w z ts zs, sk_t s = w :: ts -> sk_x s = z :: zs ->
  goes (x :: y :: xs) (b :: bs) (cons_path u x s) = Nat.eqb z y && (Rleb w b && goes (y :: xs) bs s).
Proof.
  intros u x y xs b bs s w z ts zs Ht Hx. unfold goes, cons_path. cbn [sk_t sk_x tl]. rewrite Ht, Hx. cbn [combine forallb fst snd tl].
  destruct (list_eq_dec Nat.eq_dec (x :: z :: zs) (x :: y :: xs)) as [E|E], (list_eq_dec Nat.eq_dec (z :: zs) (y :: xs)) as [F|F]; try congruence.
  - injection F as -> ->. rewrite Nat.eqb_refl. reflexivity.
  - rewrite !andb_false_r. reflexivity.
Qed.
Lemma goes_more : forall u x s z zs, sk_x s = z :: zs -> goes [x] [] (cons_path u x s) = false.
Proof. intros u x s z zs Hx. unfold goes, cons_path. cbn [sk_x]. rewrite Hx. destruct (list_eq_dec _ _ _); [discriminate|reflexivity]. Qed.

Section Path.
  Variables (dim : nat) (gen : mat) (T : R).
  Hypothesis Hgen : generator dim gen.
  Hypothesis Hd : (2 <= dim)%nat.
  Notation loop n := (forwards_loop n T dim gen [] []).

  Lemma path_loop : forall xs n bs u x, u < T -> (x < dim)%nat -> Forall (fun y => (y < dim)%nat) xs -> moves_on x xs ->
    length bs = length xs -> (length xs + 2 <= n)%nat ->
    average (loop n (Fin u) x) (fun s => ind (goes (x :: xs) bs s)) (W gen T xs bs u x).
  Proof.
    induction xs as [|y xs IH]; intros n bs u x Hu Hx HS HM HL Hn; (destruct n as [|n]; [cbn in Hn; lia|]);
      cbn [forwards_loop]; rewrite (proj2 (Rltb_true u T) Hu).
    all: pose (GD := fun hs => length hs = (dim - 1)%nat /\ Forall (fun h => match h with Fin x => 0 < x | PosInf => True | NegInf => False end) hs).
    all: assert (RG : returns (draw_holds (np_delete (row_list dim gen x) x)) GD) by
      (apply (returns_weaken' _ _ (fun hs => length hs = length (np_delete (row_list dim gen x) x) /\ Forall (fun h => match h with Fin x => 0 < x | PosInf => True | NegInf => False end) hs));
        [intros o k V0; exact (draw_holds_spec (fun _ => True) _ o k V0 Logic.I)|intros hs [E G]; rewrite delete_row_length in E by exact Hx; split; [exact E|exact G]]).
    all: assert (DEAD : forall rc lx b0, match lx with Fin w => T <= w | _ => True end ->
          average (bind (loop n lx (tgt x (snd (rc : ext * nat)))) (fun s => ret (cons_path u x s))) (fun s => ind (goes b0 bs s)) (ind (goes b0 bs (mk_skel [u] [x] T)))).
    1, 3: intros rc lx b0 HLx; (destruct n as [|n']; [cbn in Hn; lia|]);
      (assert (ER : forall o k, loop (S n') lx (tgt x (snd rc)) o k = ret (mk_skel [] [] T) o k) by
         (intros o k; cbn [forwards_loop]; destruct lx as [|w|]; try reflexivity; rewrite (proj2 (Rltb_false w T)) by lra; reflexivity));
      apply (average_comp _ (ret (cons_path u x (mk_skel [] [] T)))); [intros o k _; unfold bind; rewrite ER; reflexivity|];
      exact (average_ret _ _ _).
    - destruct bs as [|b bs]; [|discriminate HL].
      apply (average_bind _ _ (draw_holds (np_delete (row_list dim gen x) x)) _ _ (fun hs => pval gen T u x [] [] (race PosInf 0 0 hs)) GD).
      + apply (stay_law dim gen T Hgen u x Hu Hx).
      + exact RG.
      + intros hs [LH GH]. destruct hs as [|h hs]; [simpl in LH; lia|].
        destruct (race_argmin h hs) as [E1 E2]. rewrite E1. set (rc := race PosInf 0 0 (h :: hs)) in *.
        apply (average_comp _ (bind (loop n (eadd_r u (fst rc)) (tgt x (snd rc))) (fun s => ret (cons_path u x s)))).
        { intros o k _. unfold bind at 1. cbn [lift_opt]. unfold ret at 1. rewrite E2. rewrite <- (loop_prefix dim gen T n [u] [x] [] []). reflexivity. }
        assert (G1 : ind (goes [x] [] (mk_skel [u] [x] T)) = 1).
        { unfold goes. cbn [sk_x sk_t tl combine forallb]. destruct (list_eq_dec _ _ _); [reflexivity|congruence]. }
        unfold pval. destruct (fst rc) as [|s|] eqn:EF; cbn [eadd_r].
        * rewrite <- G1. exact (DEAD rc NegInf [x] Logic.I).
        * destruct (Rltb_dec (u + s) T) as [[LT ->]|[LT ->]].
          -- apply (average_map _ _ (loop n (Fin (u + s)) (tgt x (snd rc))) (cons_path u x)).
             assert (HB : (snd rc < dim - 1)%nat) by (rewrite <- LH; apply race_bound; cbn [length]; lia).
             pose proof (average_false _ _ _ _ (loop_law dim gen T Hgen Hd n (u + s) (tgt x (snd rc)) [] LT (tgt_lt dim x _ HB) ltac:(cbn; lra))) as A.
             refine (average_swap _ _ _ _ _ _ A). refine (returns_weaken' _ _ _ _ (loop_first dim gen T n (u + s) (tgt x (snd rc)) LT) _).
             intros s0 (ts & zs & Ht & Hzs). rewrite (goes_more u x s0 _ zs Hzs). reflexivity.
          -- rewrite <- G1. exact (DEAD rc (Fin (u + s)) [x] ltac:(lra)).
        * rewrite <- G1. exact (DEAD rc PosInf [x] Logic.I).
    - destruct bs as [|b bs]; [discriminate HL|]. inversion HS as [|? ? HY HS']; subst. destruct HM as [HN HM]. injection HL as HL. cbn [length] in Hn.
      apply (average_bind _ _ (draw_holds (np_delete (row_list dim gen x) x)) _ _ (fun hs => pval gen T u x (y :: xs) (b :: bs) (race PosInf 0 0 hs)) GD).
      + apply (jump_law dim gen T Hgen u x Hx); assumption.
      + exact RG.
      + intros hs [LH GH]. destruct hs as [|h hs]; [simpl in LH; lia|].
        destruct (race_argmin h hs) as [E1 E2]. rewrite E1. pose proof (race_in (h :: hs) PosInf 0 0) as RI. set (rc := race PosInf 0 0 (h :: hs)) in *.
        apply (average_comp _ (bind (loop n (eadd_r u (fst rc)) (tgt x (snd rc))) (fun s => ret (cons_path u x s)))).
        { intros o k _. unfold bind at 1. cbn [lift_opt]. unfold ret at 1. rewrite E2. rewrite <- (loop_prefix dim gen T n [u] [x] [] []). reflexivity. }
        assert (G1 : ind (goes (x :: y :: xs) (b :: bs) (mk_skel [u] [x] T)) = 0).
        { unfold goes. cbn [sk_x]. destruct (list_eq_dec _ _ _); [discriminate|reflexivity]. }
        unfold pval. destruct (fst rc) as [|s|] eqn:EF; cbn [eadd_r].
        * rewrite <- G1. exact (DEAD rc NegInf _ Logic.I).
        * assert (S0 : 0 < s).
          { destruct RI as [RI|RI]; [discriminate RI|]. rewrite Forall_forall in GH. exact (GH _ RI). }
          unfold inb. rewrite (proj2 (Rltb_false s 0)) by lra. cbn [orb].
          destruct (Rltb_dec (u + s) T) as [[LT ->]|[LT ->]].
          -- apply (average_map _ _ (loop n (Fin (u + s)) (tgt x (snd rc))) (cons_path u x)). cbn [andb].
             assert (HB : (snd rc < dim - 1)%nat) by (rewrite <- LH; apply race_bound; cbn [length]; lia).
             destruct (Rleb (u + s) b) eqn:EB; [destruct (Nat.eqb (tgt x (snd rc)) y) eqn:EY|].
             ++ apply Nat.eqb_eq in EY. rewrite EY. cbn [ind]. rewrite Rmult_1_l.
                refine (average_swap _ _ _ _ _ _ (IH n bs (u + s) y LT HY HS' HM HL ltac:(lia))).
                refine (returns_weaken' _ _ _ _ (loop_first dim gen T n (u + s) y LT) _).
                intros s0 (ts & zs & Ht & Hzs). rewrite (goes_next u x y xs b bs s0 (u + s) y ts zs Ht Hzs), Nat.eqb_refl, EB. reflexivity.
             ++ cbn [ind]. rewrite Rmult_0_l.
                pose proof (average_false _ _ _ _ (loop_law dim gen T Hgen Hd n (u + s) (tgt x (snd rc)) [] LT (tgt_lt dim x _ HB) ltac:(cbn; lra))) as A.
                refine (average_swap _ _ _ _ _ _ A). refine (returns_weaken' _ _ _ _ (loop_first dim gen T n (u + s) (tgt x (snd rc)) LT) _).
                intros s0 (ts & zs & Ht & Hzs). rewrite (goes_next u x y xs b bs s0 (u + s) _ ts zs Ht Hzs), EY. reflexivity.
             ++ pose proof (average_false _ _ _ _ (loop_law dim gen T Hgen Hd n (u + s) (tgt x (snd rc)) [] LT (tgt_lt dim x _ HB) ltac:(cbn; lra))) as A.
                refine (average_swap _ _ _ _ _ _ A). refine (returns_weaken' _ _ _ _ (loop_first dim gen T n (u + s) (tgt x (snd rc)) LT) _).
                intros s0 (ts & zs & Ht & Hzs). rewrite (goes_next u x y xs b bs s0 (u + s) _ ts zs Ht Hzs), EB, andb_false_r. reflexivity.
          -- cbn [andb]. rewrite <- G1. exact (DEAD rc (Fin (u + s)) _ ltac:(lra)).
        * rewrite <- G1. exact (DEAD rc PosInf _ Logic.I).
  Qed.
End Path.
