(** The probability, with a given number of steps left, that the rest of a forward path is seen in given states. *)
From Coquelicot Require Import Hierarchy Rbar Lim_seq Continuity Derive RInt RInt_analysis RInt_gen Series AutoDerive.
From Coq Require Import Reals List Bool Arith Lia Lra.
From Verif Require Import Base Np Rng L_rng M_mjp SpecMjp SpecLin SpecLaw SpecFdd L_law L_law2 L_law4 L_law5 L_sim L_race L_fdd1 L_fdd3 L_fwd1 L_fwd2 L_mat Mat.
Import ListNotations.
Local Open Scope R_scope.

Section Step.
  Variables (dim : nat) (gen : mat) (T : R).
  Hypothesis Hgen : generator dim gen.
  Notation flow := (flow dim gen).
  Notation q x := (- gen x x).

  Definition body (x : nat) (F : R -> nat -> R) (w : R) : R := exp (- q x * w) * flow x (F w).
  Definition leg (x : nat) (F : R -> nat -> R) (v c : R) : R := exp (q x * v) * RInt (body x F) v c.
  Fixpoint step (W : list (R * nat) -> R -> nat -> R) (al : R) (rem : list (R * nat)) (v : R) (x : nat) : R :=
    match rem with
    | [] => leg x (W []) v T + exp (q x * (v - T)) * al
    | (c, y) :: r => leg x (fun w z => W ((c, y) :: r) w z - ind (Nat.eqb x y) * W r w z) v c + ind (Nat.eqb x y) * step W al r v x
    end.
  Definition alive (n : nat) : R := match n with O => 0 | _ => 1 end.
  Fixpoint V (n : nat) : list (R * nat) -> R -> nat -> R :=
    match n with
    | O => fun _ _ _ => 0
    | S m => step (V m) (alive m)
    end.

  Definition smooth (F : R -> nat -> R) : Prop := forall z w, continuous (fun w => F w z) w.
  Lemma body_cont : forall x F w, smooth F -> continuous (body x F) w.
  Proof.
    intros x F w H. apply (continuous_mult (fun w => exp (- q x * w)) (fun w => flow x (F w))); [apply exp_cont|].
    apply (flow_cont dim gen x (fun z w => F w z)). intros z. apply H.
  Qed.
  Lemma body_int : forall x F a b, smooth F -> is_RInt (body x F) a b (RInt (body x F) a b).
  Proof.
    intros x F a b H. apply (RInt_correct (V := R_CompleteNormedModule)). apply (ex_RInt_continuous (V := R_CompleteNormedModule)). intros z _. apply body_cont. exact H.
  Qed.
  Lemma leg_cont : forall x F c v, smooth F -> continuous (fun v => leg x F v c) v.
  Proof.
    intros x F c v H. unfold leg. apply (continuous_mult (fun v => exp (q x * v)) (fun v => RInt (body x F) v c)); [apply exp_cont|].
    apply (ex_derive_continuous (fun v => RInt (body x F) v c)). eexists.
    apply (is_derive_RInt' (V := R_CompleteNormedModule) (body x F) (fun v => RInt (body x F) v c) v c).
    - apply filter_forall. intros y. apply body_int. exact H.
    - apply body_cont. exact H.
  Qed.
  Lemma smooth_mix : forall F G k, smooth F -> smooth G -> smooth (fun w z => F w z - k * G w z).
  Proof.
    intros F G k HF HG z w. apply (continuous_minus (V := R_NormedModule) (fun w => F w z) (fun w => k * G w z)); [apply HF|].
    apply (continuous_scal_r (V := R_NormedModule) k (fun w => G w z)). apply HG.
  Qed.
  Lemma step_smooth : forall W al rem, (forall r, smooth (W r)) -> smooth (step W al rem).
  Proof.
    intros W al rem HW z w. induction rem as [|[c y] r IH]; cbn [step].
    - apply (continuous_plus (V := R_NormedModule) (fun w => leg z (W []) w T) (fun w => exp (q z * (w - T)) * al)); [apply leg_cont, HW|].
      apply (ex_derive_continuous (fun w => exp (q z * (w - T)) * al)). auto_derive. exact Logic.I.
    - apply (continuous_plus (V := R_NormedModule) (fun w => leg z (fun w z0 => W ((c, y) :: r) w z0 - ind (Nat.eqb z y) * W r w z0) w c) (fun w => ind (Nat.eqb z y) * step W al r w z)).
      + apply leg_cont. apply smooth_mix; apply HW.
      + apply (continuous_scal_r (V := R_NormedModule) (ind (Nat.eqb z y)) (fun w => step W al r w z)). exact IH.
  Qed.
  Lemma V_smooth : forall n rem, smooth (V n rem).
  Proof.
    induction n as [|n IH]; intros rem; [intros z w; apply continuous_const|]. cbn [V]. apply step_smooth. exact IH.
  Qed.

  (** ** paths seen from the next jump *)
  Fixpoint after (x : nat) (u : R) (rem : list (R * nat)) : bool * list (R * nat) :=
    match rem with
    | [] => (true, [])
    | (c, y) :: r => if Rltb c u then (Nat.eqb x y && fst (after x u r), snd (after x u r)) else (true, rem)
    end.
  Fixpoint stays (x : nat) (rem : list (R * nat)) : bool :=
    match rem with
    | [] => true
    | (c, y) :: r => Nat.eqb x y && stays x r
    end.
  Lemma in_order_ge : forall rem lo hi, in_order lo rem hi -> forall p, In p rem -> lo <= fst p <= hi.
  Proof.
    induction rem as [|[c y] r IH]; intros lo hi H p Hp; [destruct Hp|]. destruct H as [H1 H2].
    assert (HH : forall l b h, in_order b l h -> b <= h).
    { induction l as [|[c' y'] l IL]; intros b h G; [exact G|]. destruct G as [G1 G2]. apply IL in G2. lra. }
    destruct Hp as [<-|Hp]; cbn; [split; [exact H1|exact (HH _ _ _ H2)]|]. specialize (IH c hi H2 p Hp). lra.
  Qed.
  Lemma in_order_weak : forall rem lo hi lo', lo' <= lo -> in_order lo rem hi -> in_order lo' rem hi.
  Proof. intros [|[c y] r] lo hi lo' H G; cbn in *; [lra|]. destruct G as [G1 G2]. split; [lra|exact G2]. Qed.
  Lemma after_order : forall rem x u lo hi, in_order lo rem hi -> u <= hi -> in_order u (snd (after x u rem)) hi.
  Proof.
    induction rem as [|[c y] r IH]; intros x u lo hi H Hu; cbn [after]; [exact Hu|]. destruct H as [H1 H2].
    destruct (Rltb_dec c u) as [[_ ->]|[N ->]]; [apply (IH x u c hi H2 Hu)|]. split; [lra|exact H2].
  Qed.
  Definition cons_path (u : R) (x : nat) (s : skel R) : skel R := mk_skel (u :: sk_t s) (x :: sk_x s) (sk_fin s).
  Lemma visits_alone : forall u x rem fin, visits rem (mk_skel [u] [x] fin) = stays x rem.
  Proof.
    intros u x rem fin. unfold visits. cbn [sk_t sk_x combine]. induction rem as [|[c y] r IH]; [reflexivity|]. cbn [forallb stays]. rewrite IH. reflexivity.
  Qed.
  Lemma visits_next : forall rem lo hi u x u' z s ts xs, in_order lo rem hi -> sk_t s = u' :: ts -> sk_x s = z :: xs ->
    visits rem (cons_path u x s) = fst (after x u' rem) && visits (snd (after x u' rem)) s.
  Proof.
    intros rem lo hi u x u' z s ts xs HO Ht Hx. unfold visits, cons_path. cbn [sk_t sk_x]. rewrite Ht, Hx. cbn [combine].
    revert lo HO. induction rem as [|[c y] r IH]; intros lo HO; [reflexivity|]. cbn [forallb after].
    destruct HO as [H1 H2]. destruct (Rltb_dec c u') as [[L ->]|[N ->]].
    - rewrite (IH c H2). cbn [fst snd]. rewrite <- andb_assoc. f_equal. cbn [seen fst snd]. destruct (Rle_dec u' c); [lra|]. reflexivity.
    - cbn [fst snd andb forallb]. f_equal; [cbn [seen fst snd]; destruct (Rle_dec u' c) as [G|]; [reflexivity|lra]|].
      assert (HG : forall p, In p r -> u' <= fst p) by (intros p Hp; pose proof (in_order_ge r c hi H2 p Hp); lra).
      clear - HG. induction r as [|[d w] r IH]; [reflexivity|]. cbn [forallb]. f_equal; [cbn [seen fst snd]; pose proof (HG (d, w) (or_introl eq_refl)) as Hd; cbn in Hd; destruct (Rle_dec u' d); [reflexivity|lra]|]. apply IH. intros p Hp. apply HG. right. exact Hp.
  Qed.

  Lemma loop_prefix : forall n t1 x1 t x last lx o k,
    forwards_loop n T dim gen (t1 ++ t) (x1 ++ x) last lx o k =
    bind (forwards_loop n T dim gen t x last lx) (fun s => ret (mk_skel (t1 ++ sk_t s) (x1 ++ sk_x s) (sk_fin s))) o k.
  Proof.
    induction n as [|n IH]; intros t1 x1 t x last lx o k; [reflexivity|]. cbn [forwards_loop]. destruct last as [|u|]; try reflexivity.
    destruct (Rltb u T); [|reflexivity]. unfold bind.
    destruct (draw_holds (np_delete (row_list dim gen lx) lx) o k) as [[hs| |] k1]; try reflexivity.
    destruct (lift_opt ValueError (eargmin hs) o k1) as [[m| |] k2]; try reflexivity.
    rewrite <- !app_assoc. rewrite IH. reflexivity.
  Qed.
  Lemma loop_head : forall n t x last lx, returns (forwards_loop n T dim gen t x last lx) (fun s => exists ts xs, sk_t s = t ++ ts /\ sk_x s = x ++ xs).
  Proof.
    intros n t x last lx o k _. pose proof (loop_prefix n t x [] [] last lx o k) as E. rewrite !app_nil_r in E. rewrite E. unfold bind.
    destruct (forwards_loop n T dim gen [] [] last lx o k) as [[s| |] k1]; cbn; auto. exists (sk_t s), (sk_x s). split; reflexivity.
  Qed.
  Lemma loop_first : forall n u x, u < T -> returns (forwards_loop n T dim gen [] [] (Fin u) x) (fun s => exists ts xs, sk_t s = u :: ts /\ sk_x s = x :: xs).
  Proof.
    intros [|n] u x Hu o k V0; cbn [forwards_loop]; [exact Logic.I|]. rewrite (proj2 (Rltb_true u T) Hu). unfold bind at 1.
    destruct (draw_holds (np_delete (row_list dim gen x) x) o k) as [[hs| |] k1]; try exact Logic.I.
    unfold bind at 1. destruct (lift_opt ValueError (eargmin hs) o k1) as [[m| |] k2]; try exact Logic.I.
    apply (loop_head n ([] ++ [u]) ([] ++ [x])). exact V0.
  Qed.

  Section Val.
    Variables (n : nat) (u : R) (x : nat).
    Hypothesis Hu : u < T.
    Hypothesis Hx : (x < dim)%nat.
    Notation rates := (np_delete (row_list dim gen x) x).
    Definition val (rem : list (R * nat)) (r : ext * nat) : R :=
      match fst r with
      | Fin s => if Rltb (u + s) T then ind (fst (after x (u + s) rem)) * V n (snd (after x (u + s) rem)) (u + s) (tgt x (snd r)) else ind (stays x rem) * alive n
      | _ => ind (stays x rem) * alive n
      end.
    Lemma part_leg : forall (F : R -> nat -> R) m, smooth F -> part (fun k s => F (u + s) (tgt x k)) 0 rates m = leg x F u (u + m).
    Proof.
      intros F m HF. unfold part, leg. rewrite (total_flow dim gen Hgen x Hx).
      assert (E : RInt (body x F) u (u + m) = RInt (fun s => 1 * body x F (1 * s + u)) 0 m).
      { pose proof (RInt_comp_lin (V := R_CompleteNormedModule) (body x F) 1 u 0 m) as C.
        rewrite Rmult_0_r, Rplus_0_l, Rmult_1_l, (Rplus_comm m u) in C. symmetry. apply C. eexists. apply body_int. exact HF. }
      rewrite E. rewrite <- (RInt_scal (V := R_CompleteNormedModule)).
      - apply RInt_ext. intros s _. rewrite (flow_pull dim gen x (fun z s => F (u + s) z) s Hx). unfold body, scal; cbn; unfold mult; cbn.
        rewrite Rmult_1_l, Rmult_1_l, (Rplus_comm s u). rewrite <- Rmult_assoc, <- exp_plus. req. f_equal. f_equal. ring.
      - eexists. apply (is_RInt_ext (fun s => scal 1 (body x F (1 * s + u)))); [intros; reflexivity|].
        apply (is_RInt_comp_lin (V := R_NormedModule) (body x F) 1 u 0 m). apply body_int. exact HF.
    Qed.
    Lemma shift_smooth : forall (F : R -> nat -> R) k s, smooth F -> continuous (fun s => F (u + s) (tgt x k)) s.
    Proof.
      intros F k s HF. apply (continuous_comp (fun s => u + s) (fun w => F w (tgt x k))); [|apply HF].
      apply (continuous_plus (V := R_NormedModule) (fun _ => u) (fun s => s)); [apply continuous_const|apply continuous_id].
    Qed.
    Lemma rates_nonneg : Forall (fun r => 0 <= r) rates.
    Proof.
      apply Forall_forall. intros r Hr. apply (In_nth _ _ 0) in Hr as (k & Hk & <-). rewrite delete_row_length in Hk by exact Hx.
      rewrite (rate_nth dim gen x k Hx Hk). apply (proj1 Hgen); [exact Hx|apply tgt_lt; exact Hk|]. intros E. symmetry in E. exact (tgt_ne x k E).
    Qed.
    Lemma val_law : forall rem, in_order u rem T -> average (draw_holds rates) (fun hs => val rem (race PosInf 0 0 hs)) (step (V n) (alive n) rem u x).
    Proof.
      intros rem. induction rem as [|[c y] r IH]; intros HO.
      - assert (H1 : forall s, s < T - u -> (fun s => Rltb (u + s) T) s = true) by (intros s Hs; apply Rltb_true; lra).
        assert (H2 : forall s, T - u < s -> (fun s => Rltb (u + s) T) s = false) by (intros s Hs; apply Rltb_false; lra).
        pose proof (race_law (T - u) (alive n) (fun s => Rltb (u + s) T) (fun k s => V n [] (u + s) (tgt x k)) ltac:(lra) H1 H2
          (fun k s => shift_smooth (V n []) k s (V_smooth n [])) rates PosInf 0 0 rates_nonneg ltac:(discriminate) ltac:(discriminate)) as RL.
        refine (average_eq _ _ _ _ _ _ (average_ext _ _ _ _ _ _ RL)).
        + cbn [outcome step]. rewrite (part_leg (V n []) (T - u) (V_smooth n [])). rewrite (total_flow dim gen Hgen x Hx).
          replace (u + (T - u)) with T by ring. replace (- - gen x x * (T - u)) with (- gen x x * (u - T)) by ring. ring.
        + intros hs. unfold gain, val. destruct (fst (race PosInf 0 0 hs)) as [|s|]; cbn [stays ind]; rewrite ?Rmult_1_l; try reflexivity.
      - destruct HO as [O1 O2]. assert (Oc : c <= T) by (destruct (in_order_ge ((c, y) :: r) u T (conj O1 O2) (c, y) (or_introl eq_refl)); assumption).
        set (G := fun w z => V n ((c, y) :: r) w z - ind (Nat.eqb x y) * V n r w z).
        assert (SG : smooth G) by (apply smooth_mix; apply V_smooth).
        set (bl := fun s => Rleb (u + s) c && Rltb (u + s) T).
        assert (H1 : forall s, s < c - u -> bl s = true).
        { intros s Hs. unfold bl. rewrite (proj2 (Rleb_true _ _)) by lra. apply Rltb_true. lra. }
        assert (H2 : forall s, c - u < s -> bl s = false).
        { intros s Hs. unfold bl. rewrite (proj2 (Rleb_false _ _)) by lra. reflexivity. }
        pose proof (race_law (c - u) 0 bl (fun k s => G (u + s) (tgt x k)) ltac:(lra) H1 H2
          (fun k s => shift_smooth G k s SG) rates PosInf 0 0 rates_nonneg ltac:(discriminate) ltac:(discriminate)) as RL.
        pose proof (average_plus _ _ _ _ _ _ RL (average_scal _ _ _ _ (ind (Nat.eqb x y)) (IH (in_order_weak _ _ _ _ O1 O2)))) as AP.
        refine (average_eq _ _ _ _ _ _ (average_ext _ _ _ _ _ _ AP)).
        + cbn [outcome step]. rewrite (part_leg G (c - u) SG). replace (u + (c - u)) with c by ring. fold G. ring.
        + intros hs. unfold gain, val. destruct (fst (race PosInf 0 0 hs)) as [|s|]; cbn [stays].
          * destruct (Nat.eqb x y); cbn [andb ind]; ring.
          * unfold bl. destruct (Rltb_dec (u + s) T) as [[LT ->]|[LT ->]].
            -- cbn [after]. destruct (Rltb_dec c (u + s)) as [[LC ->]|[LC ->]].
               ++ rewrite (proj2 (Rleb_false (u + s) c)) by lra. cbn [andb fst snd]. destruct (Nat.eqb x y); cbn [andb ind]; ring.
               ++ rewrite (proj2 (Rleb_true (u + s) c)) by lra. cbn [andb fst snd ind]. unfold G.
                  assert (EA : after x (u + s) r = (true, r)).
                  { destruct r as [|[d w] r']; [reflexivity|]. cbn [after]. destruct O2 as [O2 _]. rewrite (proj2 (Rltb_false d (u + s))) by lra. reflexivity. }
                  rewrite EA. cbn [fst snd ind]. ring.
            -- rewrite andb_false_r. destruct (Nat.eqb x y); cbn [andb ind]; ring.
          * destruct (Nat.eqb x y); cbn [andb ind]; ring.
    Qed.
  End Val.

  Lemma race_bound : forall l best bi i N, (bi < N)%nat -> (i + length l <= N)%nat -> (snd (race best bi i l) < N)%nat.
  Proof.
    induction l as [|a l IH]; intros best bi i N H1 H2; [exact H1|]. cbn [race]. cbn [length] in H2. destruct (eltb a best); apply IH; lia.
  Qed.
  Lemma average_false : forall A (m : M A) f v, average m f v -> average m (fun _ => 0) 0.
  Proof. intros A m f v H. pose proof (average_scal _ _ _ _ 0 H) as P. rewrite Rmult_0_l in P. refine (average_ext _ _ _ _ _ _ P). intros a. ring. Qed.

  Lemma loop_law : (2 <= dim)%nat -> forall n u x rem, u < T -> (x < dim)%nat -> in_order u rem T ->
    average (forwards_loop n T dim gen [] [] (Fin u) x) (fun s => ind (visits rem s)) (V n rem u x).
  Proof.
    intros Hd. induction n as [|n IH]; intros u x rem Hu Hx HO.
    - cbn [forwards_loop V]. apply (mean_done (value (fun s => ind (visits rem s))) nofuel NoFuel). reflexivity.
    - cbn [forwards_loop V]. rewrite (proj2 (Rltb_true u T) Hu).
      apply (average_bind _ _ (draw_holds (np_delete (row_list dim gen x) x)) _ _ (fun hs => val n u x rem (race PosInf 0 0 hs)) (fun hs => length hs = (dim - 1)%nat)).
      + apply val_law; assumption.
      + apply (returns_weaken' _ _ (fun hs => length hs = length (np_delete (row_list dim gen x) x) /\ Forall (fun h => match h with Fin x => 0 < x | PosInf => True | NegInf => False end) hs)); [intros o k V0; exact (draw_holds_spec (fun _ => True) _ o k V0 Logic.I)|].
        intros hs [E _]. rewrite delete_row_length in E by exact Hx. exact E.
      + intros hs LH. destruct hs as [|h hs]; [simpl in LH; lia|].
        destruct (race_argmin h hs) as [E1 E2]. rewrite E1. set (rc := race PosInf 0 0 (h :: hs)) in *.
        apply (average_comp _ (bind (forwards_loop n T dim gen [] [] (eadd_r u (fst rc)) (tgt x (snd rc))) (fun s => ret (cons_path u x s)))).
        { intros o k _. unfold bind at 1. cbn [lift_opt]. unfold ret at 1. rewrite E2. rewrite <- (loop_prefix n [u] [x] [] []). reflexivity. }
        assert (DEAD : forall m lx, (m : M (skel R)) = forwards_loop n T dim gen [] [] lx (tgt x (snd rc)) -> match lx with Fin w => T <= w | _ => True end ->
          average (bind m (fun s => ret (cons_path u x s))) (fun s => ind (visits rem s)) (ind (stays x rem) * alive n)).
        { intros m lx -> HL. destruct n as [|n'].
          - cbn [forwards_loop alive]. rewrite Rmult_0_r. apply (mean_done (value (fun s => ind (visits rem s))) _ NoFuel). reflexivity.
          - assert (ER : forall o k, forwards_loop (S n') T dim gen [] [] lx (tgt x (snd rc)) o k = ret (mk_skel [] [] T) o k).
            { intros o k. cbn [forwards_loop]. destruct lx as [|w|]; try reflexivity. rewrite (proj2 (Rltb_false w T)) by lra. reflexivity. }
            apply (average_comp _ (ret (cons_path u x (mk_skel [] [] T)))); [intros o k _; unfold bind; rewrite ER; reflexivity|].
            refine (average_eq _ _ _ _ _ _ (average_ret _ _ _)). cbn [alive]. rewrite Rmult_1_r. unfold cons_path. cbn [sk_t sk_x sk_fin]. rewrite visits_alone. reflexivity. }
        unfold val. destruct (fst rc) as [|s|] eqn:EF; cbn [eadd_r].
        * apply (DEAD _ NegInf); [reflexivity|exact Logic.I].
        * destruct (Rltb_dec (u + s) T) as [[LT ->]|[LT ->]].
          -- apply (average_map _ _ (forwards_loop n T dim gen [] [] (Fin (u + s)) (tgt x (snd rc))) (cons_path u x)).
             assert (HB : (snd rc < dim - 1)%nat).
             { rewrite <- LH. apply race_bound; cbn [length]; lia. }
             pose proof (IH (u + s) (tgt x (snd rc)) (snd (after x (u + s) rem)) LT (tgt_lt dim x _ HB) (after_order rem x (u + s) u T HO ltac:(lra))) as A.
             refine (average_swap _ _ _ _ _ _ (average_scal _ _ _ _ (ind (fst (after x (u + s) rem))) A)).
             refine (returns_weaken' _ _ _ _ (loop_first n (u + s) (tgt x (snd rc)) LT) _).
             intros s0 (ts & xs & Ht & Hxs). rewrite (visits_next rem u T u x (u + s) _ s0 ts xs HO Ht Hxs).
             destruct (fst (after x (u + s) rem)); cbn [andb ind]; ring.
          -- apply (DEAD _ (Fin (u + s))); [reflexivity|lra].
        * apply (DEAD _ PosInf); [reflexivity|exact Logic.I].
  Qed.
End Step.
