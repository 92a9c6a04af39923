(** The law of the states of a bridge of the uniformised chain. *)
From Coquelicot Require Import Hierarchy.
From Coq Require Import Reals List Bool Arith Lia Lra.
From Verif Require Import Base Np Rng L_rng M_mjp SpecMjp SpecLin SpecLaw L_law L_law2 L_law4 L_law5 L_bridge L_unif L_fdd1 L_lindemo L_mat Mat.
Import ListNotations.
Local Open Scope R_scope.

Lemma average_choice : forall B p (k : nat -> M B) f g, is_prob_vector p = true ->
  (forall x, (x < length p)%nat -> 0 < nth x p 0 -> average (k x) f (g x)) ->
  average (bind (choice p) k) f (rsum (length p) (fun i => nth i p 0 * g i)).
Proof.
  intros B p k f g HP H. unfold choice. rewrite HP.
  assert (In : forall x, 0 < nth x p 0 -> (x < length p)%nat).
  { intros x Hx. destruct (Nat.lt_ge_cases x (length p)) as [Hl|Hl]; [exact Hl|]. rewrite nth_overflow in Hx by exact Hl. lra. }
  apply (average_n _ _ _ _ g).
  - apply is_prob_vector_spec in HP as [_ E]. apply sum_list_pos. lra.
  - split; [exact HP|]. symmetry. apply rsum_list.
  - intros x Hx. cbn in Hx. apply H; [apply In; exact Hx|exact Hx].
Qed.

Lemma mpow_add : forall dim A b a i j, (i < dim)%nat -> (j < dim)%nat -> mpow dim A (a + b) i j = mmul dim (mpow dim A a) (mpow dim A b) i j.
Proof.
  intros dim A. induction b as [|b IH]; intros a i j Hi Hj.
  - rewrite Nat.add_0_r. cbn [mpow]. symmetry. apply mident_r; assumption.
  - rewrite Nat.add_succ_r. cbn [mpow]. rewrite <- mmul_assoc. apply mmul_ext; [|reflexivity]. intros k Hk. apply IH; assumption.
Qed.
(** the states after the given numbers of steps *)
Fixpoint hits (x : list nat) (obs : list (nat * nat)) : bool :=
  match obs with
  | [] => true
  | (c, y) :: r => match skipn c x with [] => false | a :: _ => Nat.eqb a y && hits (skipn c x) r end
  end.
Lemma hits_zero : forall a p y r, hits (a :: p) ((0%nat, y) :: r) = (Nat.eqb a y && hits (a :: p) r)%bool.
Proof. reflexivity. Qed.
Lemma hits_succ : forall a p c y r, hits (a :: p) ((S c, y) :: r) = hits p ((c, y) :: r).
Proof. reflexivity. Qed.
Lemma hits_const : forall obs x a, Forall (fun z => z = a) x -> (fold_right (fun p n => fst p + n) 0 obs < length x)%nat ->
  hits x obs = forallb (fun p => Nat.eqb a (snd p)) obs.
Proof.
  induction obs as [|[c y] r IH]; intros x a HF HL; cbn [hits forallb]; [reflexivity|]. cbn [fold_right fst] in HL.
  destruct (skipn c x) as [|b l] eqn:E.
  - assert (L : length (skipn c x) = 0%nat) by (rewrite E; reflexivity). rewrite skipn_length in L. lia.
  - assert (Fb : Forall (fun z => z = a) (b :: l)).
    { rewrite <- E. rewrite Forall_forall in *. intros z Hz. apply HF. rewrite <- (firstn_skipn c x). apply in_or_app. right. exact Hz. }
    rewrite (IH (b :: l) a Fb).
    + inversion Fb; subst. reflexivity.
    + rewrite <- E. rewrite skipn_length. lia.
Qed.

Section Chain.
  Variables (dim : nat) (gen : mat) (f : nat).
  Hypothesis Hgen : generator dim gen.
  Hypothesis Hrb : 0 < rate_bound dim gen.
  Hypothesis Hf : (f < dim)%nat.
  Notation P := (dtrans dim gen).
  Notation Q := (mpow dim (dtrans dim gen)).

  (** probability of the states at the given steps and of f after N steps *)
  Fixpoint weight (N cur : nat) (obs : list (nat * nat)) : R :=
    match obs with
    | [] => Q N cur f
    | (c, y) :: r => if Nat.leb c N then Q c cur y * weight (N - c) y r else 0
    end.
  Lemma mident_same : forall i, mident i i = 1.
  Proof. intros i. unfold mident. rewrite Nat.eqb_refl. reflexivity. Qed.
  Lemma mident_diff : forall i j, i <> j -> mident i j = 0.
  Proof. intros i j H. unfold mident. apply Nat.eqb_neq in H. rewrite H. reflexivity. Qed.

  Lemma weight_zero_gap : forall N cur y r, weight N cur ((0%nat, y) :: r) = if Nat.eqb cur y then weight N cur r else 0.
  Proof.
    intros N cur y r. cbn [weight Nat.leb mpow]. rewrite Nat.sub_0_r.
    destruct (Nat.eqb_spec cur y) as [E|E]; [subst; rewrite mident_same; ring|rewrite mident_diff by exact E; ring].
  Qed.
  Lemma weight_end : forall r y, weight 0 y r = if Nat.eqb y f then ind (hits [f] r) else 0.
  Proof.
    induction r as [|[c z] r IH]; intros y.
    - cbn [weight hits ind mpow]. destruct (Nat.eqb_spec y f) as [E|E]; [subst; apply mident_same|apply mident_diff; exact E].
    - destruct c as [|c].
      + rewrite weight_zero_gap. destruct (Nat.eqb_spec y z) as [E|E].
        * subst z. rewrite IH. destruct (Nat.eqb_spec y f) as [E|E]; [subst|reflexivity]. rewrite hits_zero, Nat.eqb_refl. reflexivity.
        * destruct (Nat.eqb_spec y f) as [E'|E']; [subst|reflexivity]. rewrite hits_zero. apply Nat.eqb_neq in E. rewrite E. reflexivity.
      + cbn [weight Nat.leb]. rewrite hits_succ. cbn [hits]. destruct c; cbn; destruct (Nat.eqb y f); reflexivity.
  Qed.
  Lemma weight_step : forall N cur obs, (cur < dim)%nat -> Forall (fun p => (snd p < dim)%nat) obs ->
    (match obs with (0, _) :: _ => False | _ => True end)%nat ->
    weight (S N) cur obs = rsum dim (fun z => P cur z * weight N z (match obs with (S c, y) :: r => (c, y) :: r | _ => obs end)).
  Proof.
    intros N cur [|[[|c] y] r] Hc HF H; [| |].
    - cbn [weight]. rewrite <- mpow_comm by assumption. reflexivity.
    - destruct H.
    - cbn [weight]. change (Nat.leb (S c) (S N)) with (Nat.leb c N). destruct (Nat.leb c N).
      + rewrite <- mpow_comm; [|exact Hc|inversion HF; assumption]. unfold mmul. rewrite <- rsum_scal_r. cbn [Nat.sub]. apply rsum_ext. intros z _. ring.
      + symmetry. apply rsum_0. intros z _. ring.
  Qed.

  Lemma weight_bounds : forall o N z, (z < dim)%nat -> Forall (fun p => (snd p < dim)%nat) o -> 0 <= weight N z o <= Q N z f.
  Proof.
    induction o as [|[c y] r IHo]; intros N z Hz Ho; cbn [weight].
    - split; [apply (mpow_bounds dim P (dtrans_stochastic dim gen Hgen Hrb)); assumption|lra].
    - inversion Ho as [|? ? Hy Hr]; subst. cbn in Hy. destruct (Nat.leb_spec c N) as [Hl|Hl].
      + destruct (IHo (N - c)%nat y Hy Hr) as [I1 I2]. pose proof (mpow_bounds dim P (dtrans_stochastic dim gen Hgen Hrb) c z y Hz Hy) as [B1 B2].
        split; [apply Rmult_le_pos; assumption|].
        apply (Rle_trans _ (Q c z y * Q (N - c)%nat y f)); [apply Rmult_le_compat_l; assumption|].
        replace N with (c + (N - c))%nat at 2 by lia. rewrite mpow_add by assumption. unfold mmul.
        apply (rsum_term dim (fun k => Q c z k * Q (N - c)%nat k f) y); [|exact Hy].
        intros j Hj. apply Rmult_le_pos; apply (mpow_bounds dim P (dtrans_stochastic dim gen Hgen Hrb)); assumption.
      + split; [lra|]. apply (mpow_bounds dim P (dtrans_stochastic dim gen Hgen Hrb)); assumption.
  Qed.

  Lemma states_law : forall steps n cur obs, (S steps <= n)%nat -> (cur < dim)%nat -> 0 < Q (S steps) cur f ->
    Forall (fun p => (snd p < dim)%nat) obs ->
    average (bridge_states dim P (powers dim gen n) f steps cur) (fun mid => ind (hits (cur :: mid ++ [f]) obs))
      (weight (S steps) cur obs / Q (S steps) cur f).
  Proof.
    assert (Zero : forall (m : M (list nat)) steps cur y r v, 0 < Q (S steps) cur f ->
      average m (fun mid => ind (hits (cur :: mid ++ [f]) r)) (weight (S steps) cur r / Q (S steps) cur f) ->
      v = weight (S steps) cur ((0%nat, y) :: r) / Q (S steps) cur f ->
      average m (fun mid => ind (hits (cur :: mid ++ [f]) ((0%nat, y) :: r))) v).
    { intros m steps cur y r v HQ H ->. rewrite weight_zero_gap. destruct (Nat.eqb_spec cur y) as [E|E].
      - refine (average_ext _ _ _ _ _ _ H). intros mid. rewrite hits_zero, <- E, Nat.eqb_refl. reflexivity.
      - refine (average_ext _ _ _ _ _ _ (average_eq _ _ _ _ _ _ (average_scal _ _ _ _ 0 H))).
        + intros mid. rewrite hits_zero. apply Nat.eqb_neq in E. rewrite E. cbn [andb ind]. ring.
        + field. lra. }
    induction steps as [|m IH]; intros n cur obs Hn Hc HQ HF.
    - cbn [bridge_states]. induction obs as [|[[|c] y] r IHr].
      + refine (average_eq _ _ _ _ _ _ (average_ret _ [] _)). cbn [hits ind weight]. field. lra.
      + apply (Zero _ 0%nat cur y r); [exact HQ|apply IHr; inversion HF; assumption|reflexivity].
      + refine (average_eq _ _ _ _ _ _ (average_ret _ [] _)). cbn [app]. rewrite hits_succ.
        rewrite (weight_step 0 cur ((S c, y) :: r) Hc HF Logic.I).
        rewrite (rsum_ext _ _ (fun z => if Nat.eqb z f then P cur z * ind (hits [f] ((c, y) :: r)) else 0)).
        2:{ intros z _. rewrite weight_end. destruct (Nat.eqb z f); ring. }
        rewrite (rsum_delta_r dim (fun z => P cur z * ind (hits [f] ((c, y) :: r))) f Hf).
        assert (E1 : Q 1 cur f = P cur f) by (rewrite <- mpow_comm by assumption; cbn [mpow]; apply mident_r; assumption).
        rewrite E1 in *. field. lra.
    - cbn [bridge_states].
      assert (Step : forall obs', Forall (fun p => (snd p < dim)%nat) obs' ->
        average (do y <- choice (bridge_probs dim P (powers dim gen n) (S m) cur f);
                 do ys <- bridge_states dim P (powers dim gen n) f m y; ret (y :: ys))
          (fun mid => ind (hits (mid ++ [f]) obs'))
          (rsum dim (fun z => P cur z * weight (S m) z obs') / Q (S (S m)) cur f)).
      { intros obs' HF'.
        assert (HB : is_prob_vector (bridge_probs dim P (powers dim gen n) (S m) cur f) = true) by (apply bridge_probs_ok; assumption).
        assert (LB : length (bridge_probs dim P (powers dim gen n) (S m) cur f) = dim) by (unfold bridge_probs; rewrite map_length, seq_length; reflexivity).
        refine (average_eq _ _ _ _ _ _ (average_choice _ _ _ _ (fun z => weight (S m) z obs' / Q (S m) z f) HB _)).
        - rewrite LB, <- rsum_div. apply rsum_ext. intros z Hz. rewrite bridge_probs_nth by (assumption || lia).
          destruct (Req_dec (Q (S m) z f) 0) as [Z|NZ].
          + assert (W0 : weight (S m) z obs' = 0).
            { destruct (weight_bounds obs' (S m) z Hz HF') as [B1 B2]. rewrite Z in B2. lra. }
            rewrite W0, Z. unfold Rdiv. ring.
          + field. split; [lra|exact NZ].
        - intros z Hz Hp. rewrite LB in Hz. rewrite bridge_probs_nth in Hp by (assumption || lia).
          assert (HQz : 0 < Q (S m) z f).
          { pose proof (mpow_bounds dim P (dtrans_stochastic dim gen Hgen Hrb) (S m) z f Hz Hf) as [B1 _].
            destruct B1 as [B1|B1]; [exact B1|]. rewrite <- B1 in Hp. unfold Rdiv in Hp. rewrite Rmult_0_r, Rmult_0_l in Hp. lra. }
          apply (average_bind0 _ _ _ _ _ (fun ys => ind (hits (z :: ys ++ [f]) obs')) _ (IH n z obs' ltac:(lia) Hz HQz HF')).
          intros ys. apply (average_ret _ (z :: ys) (fun mid => ind (hits (mid ++ [f]) obs'))). }
      induction obs as [|[[|c] y] r IHr].
      + rewrite (weight_step (S m) cur [] Hc HF Logic.I). refine (average_ext _ _ _ _ _ _ (Step [] HF)). intros mid. reflexivity.
      + apply (Zero _ (S m) cur y r); [exact HQ|apply IHr; inversion HF; assumption|reflexivity].
      + rewrite (weight_step (S m) cur ((S c, y) :: r) Hc HF Logic.I).
        refine (average_ext _ _ _ _ _ _ (Step ((c, y) :: r) _)); [intros mid; rewrite hits_succ; reflexivity|].
        inversion HF as [|? ? Hy Hr]; subst. apply Forall_cons; assumption.
  Qed.
End Chain.
