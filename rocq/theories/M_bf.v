(** Model of ctbayes/misc/bfactories.py and of the pre-coins of ito/mcmc.py and
    switching/mcmc.py.  Definitions only. *)
From Coq Require Import Reals List Bool Arith.
From Verif Require Import Base Rng.
Import ListNotations.
Local Open Scope R_scope.

(** np.logaddexp *)
Definition logaddexp (a b : R) : R := ln (exp a + exp b).
(** np.log(u) < v; np.log(0.0) is -inf *)
Definition log_lt (u v : R) : bool := if Reqb u 0 then true else Rltb (ln u) v.

(** The two functions are written once, over the monad in which the draws are made, and
    instantiated twice below: with the oracle monad (all outcomes) and with finite
    probability distributions (the law). *)
Section Factory.
  Context {m : Type -> Type} (mret : forall A, A -> m A) (mbind : forall A B, m A -> (A -> m B) -> m B).
  (** np.log(ome.uniform()) < v  and  ome.uniform() < p *)
  Context (ulog_lt : R -> m bool) (u_lt : R -> m bool).
  (** The coins: [flip true] is next(c1) (or c.send(True)), [flip false] is next(c2) (or
      c.send(False)); St is the state of the generators. *)
  Context {A St : Type} (flip : bool -> St -> m ((bool * A) * St)).

  (** The for loop: lines 46-62 (and 101-117); [esc s prop] is what the escape returns:
      prop0 (line 62) or the latest proposal (line 117).  None: the budget is used up. *)
  Fixpoint twocoin_loop (v1 pr_portkey : R) (esc : A -> A) (n : nat) (s : St) : m (option (bool * bool * A) * St) :=
    match n with
    | O => mret _ (None, s)
    | S n' =>
        mbind _ _ (ulog_lt v1) (fun first =>
        mbind _ _ (flip first s) (fun r =>
        let '((success, prop), s') := r in
        if success then mret _ (Some (first, false, prop), s')
        else mbind _ _ (u_lt pr_portkey) (fun e =>
          if e then mret _ (Some (false, true, esc prop), s')
          else twocoin_loop v1 pr_portkey esc n' s')))
    end.
  (** sample_twocoin: lines 9-66 *)
  Definition twocoin (w1 w2 pr_portkey : R) (prop0 : A) (max_props : nat) (s : St) :=
    twocoin_loop (w1 - logaddexp w1 w2) pr_portkey (fun _ => prop0) max_props s.
  (** sample_twocoin_joint: lines 69-121; [prime] is next(c) *)
  Definition twocoin_joint (prime : St -> m St) (w1 w2 pr_portkey : R) (max_props : nat) (s : St) :=
    mbind _ _ (prime s) (fun s' =>
      twocoin_loop (w1 - logaddexp w1 w2) pr_portkey (fun prop => prop) max_props s').
  (** flip_param_precoin / flip_hidden_precoin (ito/mcmc.py lines 88-93, switching/mcmc.py
      lines 120-125 and 205-211): a Barker coin on two log weights *)
  Definition barker (w1 w2 : R) : m bool := ulog_lt (w1 - logaddexp w1 w2).
  (** The pattern of ito/mcmc.py lines 68-77 and switching/mcmc.py lines 101-109, 183-192:
      [pw1], [pw2] are the weights of the pre-coin, [w1], [w2] those without it; [run] is
      the two-coin call that follows.  None in the first component: rejected by the
      pre-coin. *)
  Definition barker_step (run : R -> R -> m (option (bool * bool * A) * St)) (precoin : bool) (pw1 pw2 w1 w2 : R) (s : St)
    : m (option (option (bool * bool * A)) * St) :=
    if precoin then
      mbind _ _ (barker pw1 pw2) (fun b =>
        if b then mbind _ _ (run 0 0) (fun r => mret _ (Some (fst r), snd r))
        else mret _ (None, s))
    else mbind _ _ (run w1 w2) (fun r => mret _ (Some (fst r), snd r)).
  (** The parameter update of one regime or sector, up to the bookkeeping: [prior], [lik] are
      mod.eval_log_prior and mod.eval_biased_loglik (for switching: its first component), as
      functions of the parameter.
      switching/mcmc.py lines 101-109 with eval_param_weight (115-117) and flip_param_precoin
      (120-125) *)
  Definition switching_step {T} (prior lik : T -> R) (thi_nil thi_prime : T) (log_p_for log_p_back : R) (precoin : bool)
      (run : R -> R -> m (option (bool * bool * A) * St)) (s : St) :=
    let weight thi := lik thi + prior thi in
    barker_step run precoin
      (weight thi_prime + log_p_back) (weight thi_nil + log_p_for)
      (weight thi_prime + log_p_back) (weight thi_nil + log_p_for) s.
  (** ito/mcmc.py lines 68-77 with eval_param_weight (83-85) and flip_param_precoin (88-93) *)
  Definition ito_step {T} (prior lik : T -> R) (thi_nil thi_prime : T) (log_p_for log_p_back : R) (precoin : bool)
      (run : R -> R -> m (option (bool * bool * A) * St)) (s : St) :=
    let weight thi := lik thi + prior thi in
    barker_step run precoin
      (prior thi_prime + log_p_back) (prior thi_nil + log_p_for)
      (weight thi_prime + log_p_back) (weight thi_nil + log_p_for) s.
  (** The hidden-state update of one section: switching/mcmc.py lines 183-192, with
      w = eval_hidden_weight of the proposed and of the current hidden state *)
  Definition hidden_step (precoin : bool) (w_prime w_nil : R) (run : R -> R -> m (option (bool * bool * A) * St)) (s : St) :=
    barker_step run precoin w_prime w_nil w_prime w_nil s.
End Factory.

(** ** Oracle instance *)
Definition o_ulog_lt (v : R) : M bool := do u <- draw_r (DUniform 0 1); ret (log_lt u v).
Definition o_u_lt (p : R) : M bool := do u <- draw_r (DUniform 0 1); ret (Rltb u p).
(** sample_twocoin with its exception (lines 64-66): the else branch of the for loop *)
Definition sample_twocoin {A St} (flip : bool -> St -> M ((bool * A) * St)) (w1 w2 pr_portkey : R) (prop0 : A)
    (max_props : nat) (s : St) : M ((bool * bool * A) * St) :=
  do r <- twocoin (m := M) (@ret) (@bind) o_ulog_lt o_u_lt flip w1 w2 pr_portkey prop0 max_props s;
  match r with (Some x, s') => ret (x, s') | (None, _) => raise BudgetConstraintError end.
Definition sample_twocoin_joint {A St} (flip : bool -> St -> M ((bool * A) * St)) (prime : St -> M St)
    (w1 w2 pr_portkey : R) (max_props : nat) (s : St) : M ((bool * bool * A) * St) :=
  do r <- twocoin_joint (m := M) (@ret) (@bind) o_ulog_lt o_u_lt flip prime w1 w2 pr_portkey max_props s;
  match r with (Some x, s') => ret (x, s') | (None, _) => raise BudgetConstraintError end.

(** ** Finite distributions *)
Definition dist (A : Type) : Type := list (R * A).
Definition dret {A} (a : A) : dist A := [(1, a)].
Definition dbind {A B} (d : dist A) (f : A -> dist B) : dist B :=
  flat_map (fun p => map (fun q => (fst p * fst q, snd q)) (f (snd p))) d.
(** probability of an event *)
Fixpoint pr {A} (d : dist A) (E : A -> bool) : R :=
  match d with [] => 0 | (p, a) :: r => (if E a then p else 0) + pr r E end.
Definition flipd (p : R) : dist bool := [(p, true); (1 - p, false)].
Definition clip01 (p : R) : R := Rmax 0 (Rmin p 1).
(** P(log U < v) and P(U < p) for U uniform on [0,1) *)
Definition d_ulog_lt (v : R) : dist bool := flipd (clip01 (exp v)).
Definition d_u_lt (p : R) : dist bool := flipd (clip01 p).
(** memoryless coins: each flip is an independent draw from the same distribution *)
Definition iid {A} (c1 c2 : dist (bool * A)) (first : bool) (s : unit) : dist ((bool * A) * unit) :=
  dbind (if first then c1 else c2) (fun r => dret (r, s)).
Definition twocoin_law {A} (c1 c2 : dist (bool * A)) (w1 w2 pr_portkey : R) (prop0 : A) (max_props : nat)
    : dist (option (bool * bool * A) * unit) :=
  twocoin (m := dist) (@dret) (@dbind) d_ulog_lt d_u_lt (iid c1 c2) w1 w2 pr_portkey prop0 max_props tt.
Definition twocoin_joint_law {A} (c1 c2 : dist (bool * A)) (w1 w2 pr_portkey : R) (max_props : nat)
    : dist (option (bool * bool * A) * unit) :=
  twocoin_joint (m := dist) (@dret) (@dbind) d_ulog_lt d_u_lt (iid c1 c2) (@dret unit) w1 w2 pr_portkey max_props tt.

(** The law of the updates when the coins are memoryless: [c1], [c2] are the coins for
    thi_prime and thi_nil. *)
Definition switching_param_law {T A} (prior lik : T -> R) (thi_nil thi_prime : T) (log_p_for log_p_back : R)
    (precoin : bool) (c1 c2 : dist (bool * A)) (pr_portkey : R) (max_props : nat) :=
  switching_step (m := dist) (@dret) (@dbind) d_ulog_lt prior lik thi_nil thi_prime log_p_for log_p_back precoin
    (fun w1 w2 => twocoin_joint_law c1 c2 w1 w2 pr_portkey max_props) tt.
Definition ito_param_law {T A} (prior lik : T -> R) (thi_nil thi_prime : T) (log_p_for log_p_back : R)
    (precoin : bool) (c1 c2 : dist (bool * A)) (pr_portkey : R) (max_props : nat) :=
  ito_step (m := dist) (@dret) (@dbind) d_ulog_lt prior lik thi_nil thi_prime log_p_for log_p_back precoin
    (fun w1 w2 => twocoin_joint_law c1 c2 w1 w2 pr_portkey max_props) tt.
(** switching/mcmc.py lines 183-192, and the bridge update of ito/mcmc.py lines 140-142 (no
    pre-coin) *)
Definition hidden_law {A} (precoin : bool) (c1 c2 : dist (bool * A)) (w_prime w_nil pr_portkey : R) (z_nil : A) (max_props : nat) :=
  hidden_step (m := dist) (@dret) (@dbind) d_ulog_lt precoin w_prime w_nil
    (fun w1 w2 => twocoin_law c1 c2 w1 w2 pr_portkey z_nil max_props) tt.
(** The two-coin calls of the updates on the oracle, in the form expected by the steps; the
    inner option is never [None] *)
Definition run_twocoin {A St} (flip : bool -> St -> M ((bool * A) * St)) (pr_portkey : R) (prop0 : A) (max_props : nat) (s : St) (w1 w2 : R)
    : M (option (bool * bool * A) * St) :=
  do r <- sample_twocoin flip w1 w2 pr_portkey prop0 max_props s; ret (Some (fst r), snd r).
Definition run_twocoin_joint {A St} (flip : bool -> St -> M ((bool * A) * St)) (prime : St -> M St) (pr_portkey : R) (max_props : nat) (s : St) (w1 w2 : R)
    : M (option (bool * bool * A) * St) :=
  do r <- sample_twocoin_joint flip prime w1 w2 pr_portkey max_props s; ret (Some (fst r), snd r).
(** what follows a step: [rejected] after a failed pre-coin, [kept accept payload] otherwise *)
Definition after_step {A St B} (rejected : B) (kept : bool -> A -> B) (r : option (option (bool * bool * A)) * St) : M B :=
  match fst r with
  | None => ret rejected
  | Some (Some (accept, _, a)) => ret (kept accept a)
  | Some None => raise BudgetConstraintError
  end.
