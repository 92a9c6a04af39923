(** Property theorems C114: how many flips the two-coin factories take and what the portkey costs. *)
From Coq Require Import Reals List Bool Arith Lra.
From Verif Require Import Base Rng M_bf M_mjp SpecBf SpecLaw SpecCost L_bf3 L_law7 L_cost L_cost2.
Import ListNotations.
Local Open Scope R_scope.

(** more than k flips are taken with probability q ^ k, where q is the probability that a flip
    fails and the portkey is not taken; never more than the budget; and the mean *)
Theorem C114_flips : forall A (c1 c2 : dist (bool * A)) w1 w2 e prop0 n, proper c1 -> proper c2 -> 0 <= e <= 1 ->
  let d := twocoin_flips c1 c2 w1 w2 e prop0 n in let q := goes_on w1 w2 e (heads c1) (heads c2) in
  (forall k, (k < n)%nat -> pr d (fun r => (k <? snd r)%nat) = q ^ k) /\ pr d (fun r => (n <? snd r)%nat) = 0 /\
  (1 - q) * expect d (fun r => INR (snd r)) = 1 - q ^ n.
Proof. exact twocoin_count. Qed.
Print Assumptions C114_flips.
Theorem C114_joint_flips : forall A (c1 c2 : dist (bool * A)) w1 w2 e n, proper c1 -> proper c2 -> 0 <= e <= 1 ->
  let d := twocoin_joint_flips c1 c2 w1 w2 e n in let q := goes_on w1 w2 e (heads c1) (heads c2) in
  (forall k, (k < n)%nat -> pr d (fun r => (k <? snd r)%nat) = q ^ k) /\ pr d (fun r => (n <? snd r)%nat) = 0 /\
  (1 - q) * expect d (fun r => INR (snd r)) = 1 - q ^ n.
Proof. exact joint_count. Qed.
Print Assumptions C114_joint_flips.
(** the outcomes of the counted factories have the law of C20 and C21 *)
Theorem C114_same_outcome : forall A (c1 c2 : dist (bool * A)) w1 w2 e prop0 n E,
  pr (twocoin_flips c1 c2 w1 w2 e prop0 n) (fun r => E (fst r, tt)) = pr (twocoin_law c1 c2 w1 w2 e prop0 n) E /\
  pr (twocoin_joint_flips c1 c2 w1 w2 e n) (fun r => E (fst r, tt)) = pr (twocoin_joint_law c1 c2 w1 w2 e n) E.
Proof. exact counted_law. Qed.
Print Assumptions C114_same_outcome.
(** with a portkey the mean number of flips is bounded for all coins, weights and budgets *)
Theorem C114_portkey_bound : forall A (c1 c2 : dist (bool * A)) w1 w2 e prop0 n, proper c1 -> proper c2 -> 0 < e <= 1 ->
  expect (twocoin_flips c1 c2 w1 w2 e prop0 n) (fun r => INR (snd r)) <= 1 / e /\
  expect (twocoin_joint_flips c1 c2 w1 w2 e n) (fun r => INR (snd r)) <= 1 / e.
Proof. exact portkey_bound. Qed.
Print Assumptions C114_portkey_bound.
(** without one it is the inverse of the probability that a flip succeeds *)
Theorem C114_mean : forall A (c1 c2 : dist (bool * A)) w1 w2 prop0, proper c1 -> proper c2 -> 0 < heads c1 + heads c2 ->
  Un_cv (fun n => expect (twocoin_flips c1 c2 w1 w2 0 prop0 n) (fun r => INR (snd r))) ((exp w1 + exp w2) / (exp w1 * heads c1 + exp w2 * heads c2)) /\
  Un_cv (fun n => expect (twocoin_joint_flips c1 c2 w1 w2 0 n) (fun r => INR (snd r))) ((exp w1 + exp w2) / (exp w1 * heads c1 + exp w2 * heads c2)).
Proof. exact flips_limit. Qed.
Print Assumptions C114_mean.
(** the acceptance probability pays for it: it is divided by 1 + e (m - 1), m the mean above *)
Theorem C114_loss : forall A (c1 c2 : dist (bool * A)) w1 w2 e prop0 n, proper c1 -> proper c2 -> 0 <= e <= 1 -> (0 < n)%nat -> 0 < heads c1 + heads c2 ->
  let m := (exp w1 + exp w2) / (exp w1 * heads c1 + exp w2 * heads c2) in
  let acc e := pr (twocoin_law c1 c2 w1 w2 e prop0 n) says_true / pr (twocoin_law c1 c2 w1 w2 e prop0 n) returned in
  1 <= m /\ acc e = acc 0 / (1 + e * (m - 1)).
Proof. exact portkey_loss. Qed.
Print Assumptions C114_loss.
(** the same for the loop on the generator with any two coins, such as the Poisson coins of C88 *)
Theorem C114_sampler : forall A (c1 c2 : M (bool * A)) w1 w2 p1 p2 e prop0 n,
  total c1 (fun _ => True) -> total c2 (fun _ => True) -> chance c1 (fun r => fst r) p1 -> chance c2 (fun r => fst r) p2 -> 0 <= e <= 1 ->
  let q := goes_on w1 w2 e p1 p2 in
  (forall k, (k < n)%nat -> chance (counting_twocoin c1 c2 w1 w2 e prop0 n) (fun r => (k <? snd r)%nat) (q ^ k)) /\
  chance (counting_twocoin c1 c2 w1 w2 e prop0 n) (fun r => (n <? snd r)%nat) 0 /\
  exists m, average (counting_twocoin c1 c2 w1 w2 e prop0 n) (fun r => INR (snd r)) m /\ (1 - q) * m = 1 - q ^ n.
Proof. exact counting_law. Qed.
Print Assumptions C114_sampler.
(** a coin: no point of a Poisson process falls below the diagonal *)
Example C114_sampler_example : let c := do r <- sample_ppp 1 [1; 1]; ret (forallb (fun r => negb (Rltb (nth 1 r 0) (nth 0 r 0))) r, tt) in
  total c (fun _ => True) /\ chance c (fun r => fst r) (exp (- (1/2))).
Proof. exact sampler_example. Qed.
(** two fair coins with equal weights and a portkey of probability one half *)
Example C114_example : proper (fair 1%nat 2%nat) /\ 0 < heads (fair 1%nat 2%nat) + heads (fair 1%nat 2%nat) /\ goes_on 0 0 (1/2) (1/2) (1/2) = 1/4.
Proof. exact cost_example. Qed.
