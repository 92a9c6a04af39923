(** Property theorems C20, C21, C22, C65. *)
From Coq Require Import Reals List Bool Arith Lra.
From Verif Require Import Base Rng M_bf SpecBf L_bf L_bf2 L_bf3.
Import ListNotations.
Local Open Scope R_scope.

(** C20: law of both factories, given that the budget is not exhausted; E ranges over events
    about the payload, so this is the joint law of the answer and of the proposal returned. *)
Theorem C20_twocoin_law : forall A (c1 c2 : dist (bool * A)) w1 w2 prop0 n E,
  proper c1 -> proper c2 -> 0 < heads c1 + heads c2 -> (0 < n)%nat ->
  let d := twocoin_law c1 c2 w1 w2 0 prop0 n in
  0 < pr d returned /\
  pr d (wins1 E) / pr d returned = exp w1 * heads_with c1 E / (exp w1 * heads c1 + exp w2 * heads c2) /\
  pr d (wins2 E) / pr d returned = exp w2 * heads_with c2 E / (exp w1 * heads c1 + exp w2 * heads c2) /\
  pr d escaped = 0.
Proof. exact @twocoin_cond. Qed.
Print Assumptions C20_twocoin_law.
Theorem C20_twocoin_joint_law : forall A (c1 c2 : dist (bool * A)) w1 w2 n E,
  proper c1 -> proper c2 -> 0 < heads c1 + heads c2 -> (0 < n)%nat ->
  let d := twocoin_joint_law c1 c2 w1 w2 0 n in
  0 < pr d returned /\
  pr d (wins1 E) / pr d returned = exp w1 * heads_with c1 E / (exp w1 * heads c1 + exp w2 * heads c2) /\
  pr d (wins2 E) / pr d returned = exp w2 * heads_with c2 E / (exp w1 * heads c1 + exp w2 * heads c2) /\
  pr d escaped = 0.
Proof. exact @twocoin_joint_cond. Qed.
Print Assumptions C20_twocoin_joint_law.
Theorem C20_budget_exhaustion : forall A (c1 c2 : dist (bool * A)) w1 w2 prop0,
  proper c1 -> proper c2 -> 0 < heads c1 + heads c2 ->
  (forall n, pr (twocoin_law c1 c2 w1 w2 0 prop0 n) (fun r => negb (returned r))
     = (1 - (exp w1 * heads c1 + exp w2 * heads c2) / (exp w1 + exp w2)) ^ n) /\
  Un_cv (fun n => pr (twocoin_law c1 c2 w1 w2 0 prop0 n) (fun r => negb (returned r))) 0.
Proof. exact @twocoin_exhaust. Qed.
Print Assumptions C20_budget_exhaustion.
(** C20: the thresholds of the law are the lengths of the sets of uniform draws for which the
    code takes the branch. *)
Theorem C20_uniform_log_threshold : forall u v, 0 <= u < 1 -> log_lt u v = true <-> u < clip01 (exp v).
Proof. exact log_lt_interval. Qed.
Print Assumptions C20_uniform_log_threshold.
Theorem C20_uniform_threshold : forall u p, 0 <= u < 1 -> Rltb u p = true <-> u < clip01 p.
Proof. exact u_lt_interval. Qed.
Print Assumptions C20_uniform_threshold.
Example C20_example : proper (fair 1%nat 2%nat) /\ heads (fair 1%nat 2%nat) = 1/2.
Proof. exact (conj (fair_proper 1%nat 2%nat) (fair_heads 1%nat 2%nat)). Qed.

(** C21: detailed balance for every escape probability and every budget, together with equal
    probabilities of returning. *)
Theorem C21_twocoin_balance : forall A (c1 c2 : dist (bool * A)) w1 w2 e a b n, proper c1 -> proper c2 ->
  exp w2 * heads c2 * pr (twocoin_law c1 c2 w1 w2 e a n) says_true = exp w1 * heads c1 * pr (twocoin_law c2 c1 w2 w1 e b n) says_true /\
  pr (twocoin_law c1 c2 w1 w2 e a n) returned = pr (twocoin_law c2 c1 w2 w1 e b n) returned.
Proof. exact @twocoin_balance. Qed.
Print Assumptions C21_twocoin_balance.
Theorem C21_twocoin_joint_balance : forall A (c1 c2 : dist (bool * A)) w1 w2 e n, proper c1 -> proper c2 ->
  exp w2 * heads c2 * pr (twocoin_joint_law c1 c2 w1 w2 e n) says_true = exp w1 * heads c1 * pr (twocoin_joint_law c2 c1 w2 w1 e n) says_true /\
  pr (twocoin_joint_law c1 c2 w1 w2 e n) returned = pr (twocoin_joint_law c2 c1 w2 w1 e n) returned.
Proof. exact @twocoin_joint_balance. Qed.
Print Assumptions C21_twocoin_joint_balance.
Theorem C21_acceptance_value : forall A (c1 c2 : dist (bool * A)) w1 w2 e prop0 n, proper c1 -> proper c2 -> 0 <= e <= 1 -> (0 < n)%nat ->
  0 < e \/ 0 < heads c1 + heads c2 ->
  let d := twocoin_law c1 c2 w1 w2 e prop0 n in
  pr d says_true / pr d returned = exp w1 * heads c1 / (exp w1 * heads c1 + exp w2 * heads c2 + e * (exp w1 * (1 - heads c1) + exp w2 * (1 - heads c2))).
Proof. exact @accept_value. Qed.
Print Assumptions C21_acceptance_value.
(** C21: the hidden-state update, with and without its pre-coin. *)
Theorem C21_hidden_update_balance : forall A precoin (cp cn : dist (bool * A)) wp wn e zp zn n, proper cp -> proper cn ->
  exp wn * heads cn * pr (hidden_law precoin cp cn wp wn e zn n) accepts
  = exp wp * heads cp * pr (hidden_law precoin cn cp wn wp e zp n) accepts.
Proof. exact @hidden_balance. Qed.
Print Assumptions C21_hidden_update_balance.
Example C21_example : proper (fair 1%nat 2%nat) /\ 0 < heads (fair 1%nat 2%nat) + heads (fair 3%nat 4%nat) /\ 0 <= 1/100 <= 1.
Proof. split; [exact (fair_proper 1%nat 2%nat)|rewrite !fair_heads; lra]. Qed.

(** C22: return contract, for coins whose flips may depend on all earlier flips. *)
Theorem C22_twocoin_contract : forall A (f : bool -> flips A -> M (bool * A)) w1 w2 e prop0 n,
  returns (sample_twocoin (logged f) w1 w2 e prop0 n [])
    (fun x => let '((first, esc, a), log) := x in (length log <= n)%nat /\
      if (esc : bool) then first = false /\ 0 < e /\ a = prop0 /\ log <> [] /\ Forall failed log
      else exists fs, log = fs ++ [(first, (true, a))] /\ Forall failed fs).
Proof. exact @twocoin_contract. Qed.
Print Assumptions C22_twocoin_contract.
Theorem C22_twocoin_joint_contract : forall A (f : bool -> flips A -> M (bool * A)) w1 w2 e n,
  returns (sample_twocoin_joint (logged f) (@ret _) w1 w2 e n [])
    (fun x => let '((first, esc, a), log) := x in (length log <= n)%nat /\
      if (esc : bool) then first = false /\ 0 < e /\ Forall failed log /\ exists fs b, log = fs ++ [(b, (false, a))]
      else exists fs, log = fs ++ [(first, (true, a))] /\ Forall failed fs).
Proof. exact @twocoin_joint_contract. Qed.
Print Assumptions C22_twocoin_joint_contract.
(** C22: with coins that do not raise, the only exception is the budget error, and it comes
    exactly with max_props failed flips. *)
Theorem C22_budget_error : forall A (f : bool -> flips A -> M (bool * A)) w1 w2 e prop0 n o k,
  (forall b s, total (f b s) (fun _ => True)) -> valid o ->
  exists r log, fst (twocoin (m := M) (@ret) (@bind) o_ulog_lt o_u_lt (logged f) w1 w2 e prop0 n [] o k) = Ok (r, log) /\ (length log <= n)%nat /\
    match fst (sample_twocoin (logged f) w1 w2 e prop0 n [] o k) with
    | Ok x => r = Some (fst x) /\ log = snd x
    | Raise ex => ex = BudgetConstraintError /\ r = None /\ length log = n /\ Forall failed log
    | NoFuel => False
    end.
Proof. exact @twocoin_budget. Qed.
Print Assumptions C22_budget_error.
Theorem C22_no_portkey_no_escape : forall A (f : bool -> flips A -> M (bool * A)) w1 w2 e prop0 n, e <= 0 ->
  returns (sample_twocoin (logged f) w1 w2 e prop0 n []) (fun x => snd (fst (fst x)) = false).
Proof. exact @twocoin_no_escape. Qed.
Print Assumptions C22_no_portkey_no_escape.
Theorem C22_sure_portkey_one_flip : forall A (f : bool -> flips A -> M (bool * A)) w1 w2 e prop0 n, 1 <= e ->
  returns (sample_twocoin (logged f) w1 w2 e prop0 n []) (fun x => (length (snd x) <= 1)%nat).
Proof. exact @twocoin_portkey_once. Qed.
Print Assumptions C22_sure_portkey_one_flip.
(** a coin that fails until its log has two entries and then succeeds *)
Example C22_example : forall b s, total ((fun (b : bool) (s : flips nat) => ret (Nat.leb 2 (length s), length s)) b s) (fun _ => True).
Proof. intros b s o k _. exact I. Qed.

(** C65: detailed balance of the parameter update of switching, with and without the
    pre-coin, with respect to prior times biased likelihood times coin probability. *)
Theorem C65_switching_balance : forall T A (prior lik : T -> R) (nil prime : T) lf lb precoin (cp cn : dist (bool * A)) e n,
  proper cp -> proper cn ->
  exp (lik nil + prior nil + lf) * heads cn * pr (switching_param_law prior lik nil prime lf lb precoin cp cn e n) accepts
  = exp (lik prime + prior prime + lb) * heads cp * pr (switching_param_law prior lik prime nil lb lf precoin cn cp e n) accepts.
Proof. exact @switching_balance. Qed.
Print Assumptions C65_switching_balance.
Theorem C65_ito_balance_without_precoin : forall T A (prior lik : T -> R) (nil prime : T) lf lb (cp cn : dist (bool * A)) e n,
  proper cp -> proper cn ->
  exp (lik nil + prior nil + lf) * heads cn * pr (ito_param_law prior lik nil prime lf lb false cp cn e n) accepts
  = exp (lik prime + prior prime + lb) * heads cp * pr (ito_param_law prior lik prime nil lb lf false cn cp e n) accepts.
Proof. exact @ito_balance_plain. Qed.
Print Assumptions C65_ito_balance_without_precoin.
(** C65, violated for ito with the pre-coin (the default): balance holds only between
    parameters of equal likelihood. *)
Theorem C65_ito_precoin_balance_iff : forall T A (prior lik : T -> R) (nil prime : T) lf lb (cp cn : dist (bool * A)) e n,
  proper cp -> proper cn -> 0 < heads cp -> 0 < heads cn -> (0 < n)%nat ->
  (exp (lik nil + prior nil + lf) * heads cn * pr (ito_param_law prior lik nil prime lf lb true cp cn e n) accepts
   = exp (lik prime + prior prime + lb) * heads cp * pr (ito_param_law prior lik prime nil lb lf true cn cp e n) accepts)
  <-> lik nil = lik prime.
Proof. exact @ito_balance_iff. Qed.
Print Assumptions C65_ito_precoin_balance_iff.
Theorem C65_ito_precoin_refuted : exists (prior lik : bool -> R) lf lb (cp cn : dist (bool * nat)) e n,
  proper cp /\ proper cn /\ (0 < n)%nat /\
  exp (lik false + prior false + lf) * heads cn * pr (ito_param_law prior lik false true lf lb true cp cn e n) accepts
  <> exp (lik true + prior true + lb) * heads cp * pr (ito_param_law prior lik true false lb lf true cn cp e n) accepts.
Proof. exact ito_refuted. Qed.
Print Assumptions C65_ito_precoin_refuted.
Example C65_example : proper (fair 1%nat 2%nat) /\ 0 < heads (fair 1%nat 2%nat).
Proof. split; [exact (fair_proper 1%nat 2%nat)|rewrite fair_heads; lra]. Qed.
