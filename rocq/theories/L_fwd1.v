(** The race between exponential clocks: law of the first time and of the winner. *)
From Coquelicot Require Import Hierarchy Rbar Lim_seq Continuity Derive RInt RInt_analysis RInt_gen Series AutoDerive.
From Coq Require Import Reals List Bool Arith Lia Lra.
From Verif Require Import Base Np Rng L_rng M_mjp SpecLaw L_law L_law2 L_law4 L_law5 L_fdd1 L_mat Mat.
Import ListNotations.
Local Open Scope R_scope.

Fixpoint race (best : ext) (bi i : nat) (l : list ext) : ext * nat :=
  match l with
  | [] => (best, bi)
  | a :: r => if eltb a best then race a i (S i) r else race best bi (S i) r
  end.
Lemma race_index : forall l best bi i, eargmin_from best bi i l = snd (race best bi i l).
Proof. induction l as [|a l IH]; intros best bi i; [reflexivity|]. cbn [eargmin_from race]. destruct (eltb a best); apply IH. Qed.
Lemma race_value : forall l best bi i H, nth bi H PosInf = best -> (forall k, (k < length l)%nat -> nth (i + k) H PosInf = nth k l PosInf) ->
  nth (snd (race best bi i l)) H PosInf = fst (race best bi i l).
Proof.
  induction l as [|a l IH]; intros best bi i H H1 H2; [exact H1|]. cbn [race].
  assert (H3 : forall k, (k < length l)%nat -> nth (S i + k) H PosInf = nth k l PosInf).
  { intros k Hk. specialize (H2 (S k) ltac:(simpl; lia)). rewrite Nat.add_succ_r in H2. exact H2. }
  destruct (eltb a best); apply IH; auto. specialize (H2 0%nat ltac:(simpl; lia)). rewrite Nat.add_0_r in H2. exact H2.
Qed.
(** np.argmin and the minimum are the outcome of the race *)
Lemma race_argmin : forall a l, eargmin (a :: l) = Some (snd (race PosInf 0 0 (a :: l))) /\
  nth (snd (race PosInf 0 0 (a :: l))) (a :: l) PosInf = fst (race PosInf 0 0 (a :: l)).
Proof.
  intros a l. assert (E : race PosInf 0 0 (a :: l) = race a 0 1 l).
  { cbn [race]. destruct (eltb a PosInf) eqn:Q; [reflexivity|]. destruct a; try discriminate. reflexivity. }
  rewrite E. split; [cbn [eargmin]; rewrite race_index; reflexivity|].
  apply race_value; [reflexivity|]. intros k Hk. reflexivity.
Qed.

Definition total_rate (rs : list R) : R := fold_right Rplus 0 rs.
(** sum of rate times h over the clocks numbered from i *)
Fixpoint pull (h : nat -> R -> R) (i : nat) (rs : list R) (s : R) : R :=
  match rs with
  | [] => 0
  | r :: rs' => r * h i s + pull h (S i) rs' s
  end.

Section Race.
  Variables (tau c : R) (below : R -> bool) (h : nat -> R -> R).
  Hypothesis Htau : 0 <= tau.
  Hypothesis Hlt : forall x, x < tau -> below x = true.
  Hypothesis Hgt : forall x, tau < x -> below x = false.
  Hypothesis Hc : forall k x, continuous (h k) x.

  (** the value of a race: h of the winner if it ends before tau, c otherwise *)
  Definition gain (r : ext * nat) : R :=
    match fst r with Fin x => if below x then h (snd r) x else c | _ => c end.
  Definition part (i : nat) (rs : list R) (m : R) : R := RInt (fun s => exp (- total_rate rs * s) * pull h i rs s) 0 m.
  Definition outcome (best : ext) (bi i : nat) (rs : list R) : R :=
    match best with
    | Fin a => if below a then h bi a * exp (- total_rate rs * a) + part i rs a
               else c * exp (- total_rate rs * tau) + part i rs tau
    | _ => c * exp (- total_rate rs * tau) + part i rs tau
    end.

  Lemma pull_cont : forall rs i x, continuous (pull h i rs) x.
  Proof.
    induction rs as [|r rs IH]; intros i x; cbn [pull].
    - apply continuous_const.
    - apply (continuous_plus (V := R_NormedModule) (fun s => r * h i s) (pull h (S i) rs)); [|apply IH].
      apply (continuous_scal_r (V := R_NormedModule) r (h i)). apply Hc.
  Qed.
  Lemma exp_cont : forall r x, continuous (fun s => exp (r * s)) x.
  Proof. intros r x. apply (ex_derive_continuous (fun s => exp (r * s))). auto_derive. exact Logic.I. Qed.
  Lemma body_cont : forall rs i x, continuous (fun s => exp (- total_rate rs * s) * pull h i rs s) x.
  Proof. intros rs i x. apply (continuous_mult (fun s => exp (- total_rate rs * s)) (pull h i rs)); [apply exp_cont|apply pull_cont]. Qed.
  Lemma part_int : forall rs i m, is_RInt (fun s => exp (- total_rate rs * s) * pull h i rs s) 0 m (part i rs m).
  Proof.
    intros rs i m. unfold part. apply (RInt_correct (V := R_CompleteNormedModule)). apply (ex_RInt_continuous (V := R_CompleteNormedModule)).
    intros z _. apply body_cont.
  Qed.
  Lemma part_derive : forall rs i x, is_derive (part i rs) x (exp (- total_rate rs * x) * pull h i rs x).
  Proof.
    intros rs i x. unfold part. apply (is_derive_RInt (V := R_CompleteNormedModule) (fun s => exp (- total_rate rs * s) * pull h i rs s) (part i rs) 0 x).
    - apply filter_forall. intros y. apply part_int.
    - apply body_cont.
  Qed.
  Lemma part_0 : forall rs i, part i rs 0 = 0.
  Proof. intros rs i. unfold part. apply (RInt_point (V := R_CompleteNormedModule)). Qed.

  (** integration by parts against one more clock *)
  Lemma one_clock : forall rs i r m, 0 < r -> is_RInt (fun x => exp (- x / (1 / r)) / (1 / r) * (h i x * exp (- total_rate rs * x) + part (S i) rs x)) 0 m
    (part i (r :: rs) m - exp (- r * m) * part (S i) rs m).
  Proof.
    intros rs i r m Hr.
    assert (E : part i (r :: rs) m - exp (- r * m) * part (S i) rs m = minus ((fun x => part i (r :: rs) x - exp (- r * x) * part (S i) rs x) m) ((fun x => part i (r :: rs) x - exp (- r * x) * part (S i) rs x) 0)).
    { cbv beta. rewrite !part_0. unfold minus, plus, opp; cbn. ring. }
    rewrite E. apply (is_RInt_derive (V := R_CompleteNormedModule) (fun x => part i (r :: rs) x - exp (- r * x) * part (S i) rs x)).
    - intros x _. pose proof (part_derive (r :: rs) i x) as D1. pose proof (part_derive rs (S i) x) as D2.
      assert (D3 : is_derive (fun x => exp (- r * x)) x (- r * exp (- r * x))) by (auto_derive; [exact Logic.I|ring]).
      pose proof (is_derive_mult (fun x => exp (- r * x)) (part (S i) rs) x _ _ D3 D2) as D4.
      pose proof (is_derive_minus (V := R_NormedModule) _ _ x _ _ D1 D4) as D5.
      match type of D5 with is_derive _ _ ?v => replace (exp (- x / (1 / r)) / (1 / r) * (h i x * exp (- total_rate rs * x) + part (S i) rs x)) with v end; [exact D5|].
      unfold minus, plus, opp, mult; cbn. cbn [pull total_rate fold_right]. fold (total_rate rs).
      replace (- x / (1 / r)) with (- r * x) by (field; lra).
      replace (- (r + total_rate rs) * x) with (- r * x + - total_rate rs * x) by ring. rewrite exp_plus. field. lra.
    - intros x _. apply (continuous_mult (fun x => exp (- x / (1 / r)) / (1 / r)) (fun x => h i x * exp (- total_rate rs * x) + part (S i) rs x)).
      + apply (ex_derive_continuous (fun x => exp (- x / (1 / r)) / (1 / r))). auto_derive. exact Logic.I.
      + apply (continuous_plus (V := R_NormedModule) (fun x => h i x * exp (- total_rate rs * x)) (part (S i) rs)).
        * apply (continuous_mult (h i) (fun x => exp (- total_rate rs * x))); [apply Hc|apply exp_cont].
        * apply (ex_derive_continuous (part (S i) rs)). eexists. apply part_derive.
  Qed.
  Lemma gen_from : forall (f : R -> R) (J : R -> R) (m l : R), 0 <= m ->
    (forall b, m < b -> is_RInt f 0 b (J b)) -> is_lim J p_infty l ->
    is_RInt_gen f (at_point 0) (Rbar_locally p_infty) l.
  Proof.
    intros f J m l Hm HJ HL P HP. unfold filtermapi.
    specialize (HL P HP). unfold filtermap in HL.
    apply (Filter_prod _ _ _ (fun a => a = 0) (fun b => m < b /\ P (J b))).
    - reflexivity.
    - apply filter_and; [|exact HL]. exists m. intros x Hx. exact Hx.
    - intros a b -> [Hb HPb]. exists (J b). split; [apply HJ; exact Hb|exact HPb].
  Qed.
  Lemma clock_split : forall rs i r m Psi K, 0 < r -> 0 <= m ->
    (forall x, 0 < x < m -> Psi x = h i x * exp (- total_rate rs * x) + part (S i) rs x) -> (forall x, m < x -> Psi x = K) ->
    expect_r (DExp (1 / r)) Psi (part i (r :: rs) m - exp (- r * m) * part (S i) rs m + exp (- r * m) * K).
  Proof.
    intros rs i r m Psi K Hr Hm H1 H2. split; [apply Rdiv_lt_0_compat; lra|].
    apply (gen_from _ (fun b => part i (r :: rs) m - exp (- r * m) * part (S i) rs m + K * (exp (- r * m) - exp (- b / (1 / r)))) m); [exact Hm| |].
    - intros b Hb. apply (rint_split _ 0 m b (part i (r :: rs) m - exp (- r * m) * part (S i) rs m) (K * (exp (- r * m) - exp (- b / (1 / r))))); [reflexivity| |].
      + refine (is_RInt_ext _ _ _ _ _ _ (one_clock rs i r m Hr)). intros x Hx. rewrite Rmin_left, Rmax_right in Hx by lra. rewrite H1 by exact Hx. reflexivity.
      + apply (is_RInt_ext (fun x => K * (exp (- x / (1 / r)) / (1 / r)))).
        * intros x Hx. rewrite Rmin_left, Rmax_right in Hx by lra. rewrite H2 by (apply Hx). req. ring.
        * apply (rint_scal K _ m b (exp (- r * m) - exp (- b / (1 / r)))); [reflexivity|].
          assert (E : exp (- r * m) - exp (- b / (1 / r)) = minus ((fun x => - exp (- x / (1 / r))) b) ((fun x => - exp (- x / (1 / r))) m)).
          { unfold minus, plus, opp; cbn. replace (- m / (1 / r)) with (- r * m) by (field; lra). ring. }
          rewrite E. apply (is_RInt_derive (V := R_CompleteNormedModule) (fun x => - exp (- x / (1 / r)))).
          -- intros x _. auto_derive; [exact Logic.I|]. unfold Rdiv. field. lra.
          -- intros x _. apply (ex_derive_continuous (fun x => exp (- x / (1 / r)) / (1 / r))). auto_derive. exact Logic.I.
    - assert (P1 : 0 < 1 / r) by (apply Rdiv_lt_0_compat; lra).
      assert (PL : is_lim (fun b => - K * exp (- b / (1 / r))) p_infty (Finite (- K * 0))) by (exact (is_lim_scal_l _ (- K) p_infty _ (exp_decay_lim (1 / r) P1))).
      pose proof (is_lim_plus' (fun _ => part i (r :: rs) m - exp (- r * m) * part (S i) rs m + exp (- r * m) * K) _ p_infty _ _ (is_lim_const _ p_infty) PL) as PM.
      replace (part i (r :: rs) m - exp (- r * m) * part (S i) rs m + exp (- r * m) * K) with (part i (r :: rs) m - exp (- r * m) * part (S i) rs m + exp (- r * m) * K + - K * 0) by ring.
      refine (is_lim_ext _ _ _ _ _ PM). intros y. cbv beta. req. ring.
  Qed.

  Lemma part_skip : forall rs i m, part i (0 :: rs) m = part (S i) rs m.
  Proof.
    intros rs i m. unfold part. apply RInt_ext. intros x _. cbn [pull total_rate fold_right]. fold (total_rate rs). rewrite Rplus_0_l. req. ring.
  Qed.

  Lemma race_law : forall rs best bi i, Forall (fun r => 0 <= r) rs -> (forall a, best = Fin a -> 0 <= a) -> best <> NegInf ->
    average (draw_holds rs) (fun hs => gain (race best bi i hs)) (outcome best bi i rs).
  Proof.
    induction rs as [|r rs IH]; intros best bi i HR HB HN.
    - cbn [draw_holds]. refine (average_eq _ _ _ _ _ _ (average_ret _ [] _)). cbn [race]. unfold gain, outcome. cbn [fst snd].
      assert (P0 : forall m, part i [] m = 0).
      { intros m. unfold part. rewrite (RInt_ext _ (fun _ => 0)); [rewrite RInt_const; unfold scal; cbn; unfold mult; cbn; ring|]. intros x _. cbn. req. ring. }
      destruct best as [|a|]; [congruence| |]; cbn [total_rate fold_right]; rewrite ?P0, ?Ropp_0, ?Rmult_0_l, ?exp_0; [destruct (below a)|]; ring.
    - inversion HR as [|? ? R1 R2]; subst. cbn [draw_holds].
      destruct (Rltb_dec r 0) as [[? _]|[_ ->]]; [lra|]. destruct (Reqb_dec r 0) as [[-> ->]|[Nr ->]].
      + apply (average_comp _ (bind (draw_holds rs) (fun hs => ret (PosInf :: hs)))); [intros; reflexivity|].
        apply (average_map _ _ (draw_holds rs) (fun hs => PosInf :: hs)). cbn [race].
        assert (E : outcome best bi i (0 :: rs) = outcome best bi (S i) rs).
        { unfold outcome. cbn [total_rate fold_right]. fold (total_rate rs). rewrite Rplus_0_l. destruct best; rewrite ?part_skip; reflexivity. }
        rewrite E. assert (Q : eltb PosInf best = false) by (destruct best; reflexivity). rewrite Q. apply IH; assumption.
      + assert (Hr : 0 < r) by lra.
        apply (average_comp _ (bind (draw_r (DExp (1 / r))) (fun x => bind (draw_holds rs) (fun hs => ret (Fin x :: hs))))).
        { intros o k _. unfold bind, draw_r, ret. reflexivity. }
        apply (average_r _ _ _ _ (fun x => if eltb (Fin x) best then outcome (Fin x) i (S i) rs else outcome best bi (S i) rs)).
        * set (Psi := fun x => if eltb (Fin x) best then outcome (Fin x) i (S i) rs else outcome best bi (S i) rs).
          assert (TR : forall x, exp (- total_rate (r :: rs) * x) = exp (- r * x) * exp (- total_rate rs * x)).
          { intros x. rewrite <- exp_plus. f_equal. cbn [total_rate fold_right]. fold (total_rate rs). ring. }
          assert (HP : forall x, x < tau -> outcome (Fin x) i (S i) rs = h i x * exp (- total_rate rs * x) + part (S i) rs x).
          { intros x Hx. unfold outcome. rewrite Hlt by exact Hx. reflexivity. }
          assert (HQ : forall x, tau < x -> outcome (Fin x) i (S i) rs = c * exp (- total_rate rs * tau) + part (S i) rs tau).
          { intros x Hx. unfold outcome. rewrite Hgt by exact Hx. reflexivity. }
          destruct best as [|a|]; [congruence| |].
          -- pose proof (HB a eq_refl) as Ha. destruct (below a) eqn:Eb.
             ++ assert (Hat : a <= tau) by (destruct (Rle_dec a tau) as [|N]; [assumption|rewrite Hgt in Eb by lra; discriminate]).
                assert (EO : outcome (Fin a) bi i (r :: rs) = part i (r :: rs) a - exp (- r * a) * part (S i) rs a + exp (- r * a) * outcome (Fin a) bi (S i) rs).
                { unfold outcome. rewrite Eb, TR. ring. }
                rewrite EO. apply clock_split; [exact Hr|exact Ha| |].
                ** intros x Hx. unfold Psi. cbn [eltb]. rewrite (proj2 (Rltb_true x a)) by lra. apply HP. lra.
                ** intros x Hx. unfold Psi. cbn [eltb]. rewrite (proj2 (Rltb_false x a)) by lra. reflexivity.
             ++ assert (Hat : tau <= a) by (destruct (Rle_dec tau a) as [|N]; [assumption|rewrite Hlt in Eb by lra; discriminate]).
                assert (EO : outcome (Fin a) bi i (r :: rs) = part i (r :: rs) tau - exp (- r * tau) * part (S i) rs tau + exp (- r * tau) * (c * exp (- total_rate rs * tau) + part (S i) rs tau)).
                { unfold outcome. rewrite Eb, TR. ring. }
                rewrite EO. apply clock_split; [exact Hr|exact Htau| |].
                ** intros x Hx. unfold Psi. cbn [eltb]. rewrite (proj2 (Rltb_true x a)) by lra. apply HP. lra.
                ** intros x Hx. unfold Psi. destruct (eltb (Fin x) (Fin a)); [apply HQ; exact Hx|]. unfold outcome. rewrite Eb. reflexivity.
          -- assert (EO : outcome PosInf bi i (r :: rs) = part i (r :: rs) tau - exp (- r * tau) * part (S i) rs tau + exp (- r * tau) * (c * exp (- total_rate rs * tau) + part (S i) rs tau)).
             { unfold outcome. rewrite TR. ring. }
             rewrite EO. apply clock_split; [exact Hr|exact Htau| |].
             ** intros x Hx. unfold Psi. cbn [eltb]. apply HP. lra.
             ** intros x Hx. unfold Psi. cbn [eltb]. apply HQ. exact Hx.
        * intros x Hx. cbn in Hx. assert (X0 : 0 < x) by (apply Hx; apply Rdiv_lt_0_compat; lra).
          apply (average_map _ _ (draw_holds rs) (fun hs => Fin x :: hs)). cbn [race]. destruct (eltb (Fin x) best).
          -- apply IH; [exact R2|intros a E; injection E as <-; lra|discriminate].
          -- apply IH; assumption.
  Qed.
End Race.
