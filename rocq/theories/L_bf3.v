(** Return contract of the Bernoulli factories. *)
From Coq Require Import Reals List Bool Arith Lia Lra.
From Verif Require Import Base Rng M_bf SpecBf L_rng L_bf.
Import ListNotations.
Local Open Scope R_scope.

Definition o_twocoin {A} (f : bool -> flips A -> M (bool * A)) (w1 w2 e : R) (prop0 : A) n (log : flips A) :=
  twocoin (m := M) (@ret) (@bind) o_ulog_lt o_u_lt (logged f) w1 w2 e prop0 n log.
Definition o_twocoin_joint {A} (f : bool -> flips A -> M (bool * A)) (w1 w2 e : R) n (log : flips A) :=
  twocoin_joint (m := M) (@ret) (@bind) o_ulog_lt o_u_lt (logged f) (@ret (flips A)) w1 w2 e n log.

Definition outcome {A} (e : R) (n : nat) (esc : A -> A) (r : option (bool * bool * A)) (new : flips A) : Prop :=
  (length new <= n)%nat /\
  match r with
  | Some (first, false, a) => exists fs, new = fs ++ [(first, (true, a))] /\ Forall failed fs
  | Some (first, true, a) => first = false /\ 0 < e /\ Forall failed new /\
      exists fs b x, new = fs ++ [(b, (false, x))] /\ a = esc x
  | None => length new = n /\ Forall failed new
  end.
Definition loop_o {A} (f : bool -> flips A -> M (bool * A)) v e esc n log :=
  twocoin_loop (m := M) (@ret) (@bind) o_ulog_lt o_u_lt (logged f) v e esc n log.

Lemma bind_eq {A B} (m : M A) (f : A -> M B) o k : bind m f o k =
  match m o k with (Ok a, k') => f a o k' | (Raise e, k') => (Raise e, k') | (NoFuel, k') => (NoFuel, k') end.
Proof. reflexivity. Qed.

Lemma loop_contract {A} (f : bool -> flips A -> M (bool * A)) v e esc n log :
  returns (loop_o f v e esc n log) (fun x => exists new, snd x = log ++ new /\ outcome e n esc (fst x) new).
Proof.
  apply returns_any. revert log. unfold loop_o. induction n as [|n IH]; intros log; cbn [twocoin_loop].
  - apply returns_ret. exists []. simpl. rewrite app_nil_r. repeat split; auto.
  - apply (returns_bind _ _ _ (fun _ => True)).
    { apply total_returns. eapply total_weaken; [|intros; exact I]. unfold o_ulog_lt.
      eapply total_bind; [apply total_draw_r|]. intros u _. apply (total_ret _ _ (fun _ => True)). auto. }
    intros first _.
    apply (returns_bind _ _ _ (fun r => snd r = log ++ [(first, fst r)])).
    { unfold logged. apply (returns_bind _ _ _ (fun _ => True)).
      - intros o k _ _. destruct (fst (f first log o k)); auto.
      - intros r _. apply returns_ret. reflexivity. }
    intros [[su a] log'] E. cbn [fst snd] in E. destruct su.
    + apply returns_ret. exists [(first, (true, a))]. split; auto. split; [simpl; lia|]. exists []. auto.
    + apply (returns_bind _ _ _ (fun b => b = true -> 0 < e)).
      { unfold o_u_lt. apply total_returns. eapply total_bind; [apply total_draw_r|]. intros u Hu. cbn beta in Hu.
        apply total_ret. intros L. apply Rltb_true in L. destruct Hu as (u' & Hu & ->). lra. }
      intros [|] HE.
      * apply returns_ret. exists [(first, (false, a))]. split; auto. split; [simpl; lia|].
        cbn [fst]. split; auto. split; auto. split; [repeat constructor|]. exists [], first, a. auto.
      * eapply returns_weaken; [apply IH|]. intros [r l] (new & E' & HL & HO). cbn [fst snd] in *. subst log'.
        exists ((first, (false, a)) :: new). rewrite E', <- app_assoc. split; auto. split; [simpl; lia|].
        assert (FF : failed (first, (false, a))) by reflexivity.
        destruct r as [[[b []] a']|].
        -- destruct HO as (H1 & H2 & H3 & fs & b' & x & -> & ->). repeat split; auto.
           exists ((first, (false, a)) :: fs), b', x. auto.
        -- destruct HO as (fs & -> & H3). exists ((first, (false, a)) :: fs). split; auto.
        -- destruct HO as (H1 & H2). split; [simpl; lia|]. auto.
Qed.

Lemma twocoin_contract {A} (f : bool -> flips A -> M (bool * A)) w1 w2 e prop0 n :
  returns (sample_twocoin (logged f) w1 w2 e prop0 n [])
    (fun x => let '((first, esc, a), log) := x in (length log <= n)%nat /\
      if (esc : bool) then first = false /\ 0 < e /\ a = prop0 /\ log <> [] /\ Forall failed log
      else exists fs, log = fs ++ [(first, (true, a))] /\ Forall failed fs).
Proof.
  apply returns_any. unfold sample_twocoin.
  eapply returns_bind; [apply returns_any, (loop_contract f (w1 - logaddexp w1 w2) e (fun _ => prop0) n [])|].
  intros [[[[first esc] a]|] log] (new & E & HL & HO); cbn [fst snd app] in *; subst log.
  - apply returns_ret. split; auto. destruct esc.
    + destruct HO as (H1 & H2 & H3 & fs & b & x & -> & ->). repeat split; auto. destruct fs; discriminate.
    + exact HO.
  - apply returns_raise.
Qed.
Lemma twocoin_joint_contract {A} (f : bool -> flips A -> M (bool * A)) w1 w2 e n :
  returns (sample_twocoin_joint (logged f) (@ret _) w1 w2 e n [])
    (fun x => let '((first, esc, a), log) := x in (length log <= n)%nat /\
      if (esc : bool) then first = false /\ 0 < e /\ Forall failed log /\ exists fs b, log = fs ++ [(b, (false, a))]
      else exists fs, log = fs ++ [(first, (true, a))] /\ Forall failed fs).
Proof.
  apply returns_any. unfold sample_twocoin_joint.
  eapply returns_bind; [apply returns_any, (loop_contract f (w1 - logaddexp w1 w2) e (fun a => a) n [])|].
  intros [[[[first esc] a]|] log] (new & E & HL & HO); cbn [fst snd app] in *; subst log.
  - apply returns_ret. split; auto. destruct esc.
    + destruct HO as (H1 & H2 & H3 & fs & b & x & -> & ->). split; [auto|]. split; [auto|]. split; [auto|]. exists fs, b. auto.
    + exact HO.
  - apply returns_raise.
Qed.

(** exceptions: with coins that do not raise, only the budget error, exactly when all
    proposals failed *)
Lemma loop_total {A} (f : bool -> flips A -> M (bool * A)) v e esc n log : (forall b s, total (f b s) (fun _ => True)) ->
  total (loop_o f v e esc n log) (fun _ => True).
Proof.
  intros HF. apply total_any. revert log. unfold loop_o. induction n as [|n IH]; intros log; cbn [twocoin_loop].
  - apply total_ret; auto.
  - eapply (total_bind _ _ _ (fun _ => True)).
    { unfold o_ulog_lt. eapply total_bind; [apply total_draw_r|]. intros u _. apply total_ret; auto. }
    intros first _. eapply (total_bind _ _ _ (fun _ => True)).
    { unfold logged. eapply total_bind; [apply total_any, HF|]. intros r _. apply total_ret; auto. }
    intros [[[] a] l] _; [apply total_ret; auto|].
    eapply (total_bind _ _ _ (fun _ => True)).
    { unfold o_u_lt. eapply total_bind; [apply total_draw_r|]. intros u _. apply total_ret; auto. }
    intros [] _; [apply total_ret; auto|apply IH].
Qed.
Lemma twocoin_budget {A} (f : bool -> flips A -> M (bool * A)) w1 w2 e prop0 n o k : (forall b s, total (f b s) (fun _ => True)) -> valid o ->
  exists r log, fst (o_twocoin f w1 w2 e prop0 n [] o k) = Ok (r, log) /\ (length log <= n)%nat /\
    match fst (sample_twocoin (logged f) w1 w2 e prop0 n [] o k) with
    | Ok x => r = Some (fst x) /\ log = snd x
    | Raise ex => ex = BudgetConstraintError /\ r = None /\ length log = n /\ Forall failed log
    | NoFuel => False
    end.
Proof.
  intros HF HV. pose proof (loop_total f (w1 - logaddexp w1 w2) e (fun _ => prop0) n [] HF o k HV) as HT.
  pose proof (loop_contract f (w1 - logaddexp w1 w2) e (fun _ => prop0) n [] o k HV) as HC.
  unfold o_twocoin, sample_twocoin. rewrite bind_eq.
  change (twocoin (m := M) (@ret) (@bind) o_ulog_lt o_u_lt (logged f) w1 w2 e prop0 n [])
    with (loop_o f (w1 - logaddexp w1 w2) e (fun _ => prop0) n []).
  destruct (loop_o f (w1 - logaddexp w1 w2) e (fun _ => prop0) n [] o k) as [[[r log]|ex|] k']; cbn [fst] in *;
    try contradiction.
  destruct HC as (new & E & HL & HO). cbn [fst snd app] in *. subst new. exists r, log. split; auto. split; auto.
  destruct r as [x|]; simpl; auto.
Qed.
Lemma twocoin_no_escape {A} (f : bool -> flips A -> M (bool * A)) w1 w2 e prop0 n : e <= 0 ->
  returns (sample_twocoin (logged f) w1 w2 e prop0 n []) (fun x => snd (fst (fst x)) = false).
Proof.
  intros He o k HV. pose proof (twocoin_contract f w1 w2 e prop0 n o k HV) as HC.
  destruct (fst _) as [[[[first []] a] log]|ex|]; auto. destruct HC as (_ & _ & H & _). lra.
Qed.
(** with pr_portkey = 1 no coin is flipped twice *)
Lemma loop_once {A} (f : bool -> flips A -> M (bool * A)) v e esc n log : 1 <= e ->
  returns (loop_o f v e esc n log) (fun x => (length (snd x) <= length log + 1)%nat).
Proof.
  intros He. apply returns_any. unfold loop_o. destruct n as [|n]; cbn [twocoin_loop].
  - apply returns_ret. simpl. lia.
  - apply (returns_bind _ _ _ (fun _ => True)).
    { apply total_returns. unfold o_ulog_lt.
      eapply total_bind; [apply total_draw_r|]. intros u _. apply (total_ret _ _ (fun _ => True)). auto. }
    intros first _.
    apply (returns_bind _ _ _ (fun r => length (snd r) = (length log + 1)%nat)).
    { unfold logged. apply (returns_bind _ _ _ (fun _ => True)).
      - intros o k _ _. destruct (fst (f first log o k)); auto.
      - intros r _. apply returns_ret. simpl. rewrite app_length. simpl. lia. }
    intros [[[] a] log'] E; cbn [fst snd] in E.
    + apply returns_ret. simpl. lia.
    + apply (returns_bind _ _ _ (fun b => b = true)).
      { unfold o_u_lt. apply total_returns. eapply total_bind; [apply total_draw_r|]. intros u Hu. cbn beta in Hu.
        apply total_ret. apply Rltb_true. destruct Hu as (u' & Hu & ->). lra. }
      intros b ->. apply returns_ret. simpl. lia.
Qed.
Lemma twocoin_portkey_once {A} (f : bool -> flips A -> M (bool * A)) w1 w2 e prop0 n : 1 <= e ->
  returns (sample_twocoin (logged f) w1 w2 e prop0 n []) (fun x => (length (snd x) <= 1)%nat).
Proof.
  intros He. apply returns_any. unfold sample_twocoin.
  eapply returns_bind; [apply returns_any, (loop_once f (w1 - logaddexp w1 w2) e (fun _ => prop0) n [] He)|].
  intros [[x|] log] H; [apply returns_ret; auto|apply returns_raise].
Qed.

(** a fair coin *)
Definition fair {A} (a b : A) : dist (bool * A) := [(1/2, (true, a)); (1/2, (false, b))].
Lemma fair_proper {A} (a b : A) : proper (fair a b).
Proof. split; [repeat constructor; simpl; lra|simpl; lra]. Qed.
Lemma fair_heads {A} (a b : A) : heads (fair a b) = 1/2.
Proof. unfold heads; simpl; lra. Qed.
From Verif Require Import L_bf2.
Lemma ito_refuted : exists (prior lik : bool -> R) lf lb (cp cn : dist (bool * nat)) e n,
  proper cp /\ proper cn /\ (0 < n)%nat /\
  exp (lik false + prior false + lf) * heads cn * pr (ito_param_law prior lik false true lf lb true cp cn e n) accepts
  <> exp (lik true + prior true + lb) * heads cp * pr (ito_param_law prior lik true false lb lf true cn cp e n) accepts.
Proof.
  exists (fun _ => 0), (fun b : bool => if b then 1 else 0), 0, 0, (fair 0%nat 1%nat), (fair 0%nat 1%nat), (1/100), 100%nat.
  split; [apply fair_proper|]. split; [apply fair_proper|]. split; [lia|].
  intros H. apply (ito_balance_iff (fun _ : bool => 0) (fun b : bool => if b then 1 else 0) false true 0 0) in H;
    try apply fair_proper; try (rewrite fair_heads; lra); try lia. lra.
Qed.
