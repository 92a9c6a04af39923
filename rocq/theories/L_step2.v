(** The sections of the switching sampler as nested draws. *)
From Coq Require Import Reals List Bool Arith.
From Verif Require Import Base Np Rng M_bf M_path M_skel M_seed M_models M_sw L_step.
Import ListNotations.
Local Open Scope R_scope.

Lemma hidden_section_old fuel mp max_props vol disc bounds loglik batch precoin pr_portkey max_flips z_nil h_nil z_prime h_prime :
  update_hidden_section fuel mp max_props vol disc bounds loglik batch precoin pr_portkey max_flips z_nil h_nil z_prime h_prime =
  (let flip (first : bool) (s : partition * partition) : M ((bool * partition) * (partition * partition)) :=
    if first then do r <- flip_hidden_coins fuel mp max_props vol disc bounds batch (fst s) h_prime; ret (r, (snd r, snd s))
    else do r <- flip_hidden_coins fuel mp max_props vol disc bounds batch (snd s) h_nil; ret (r, (fst s, snd r)) in
  let run w1 w2 :=
    do r <- sample_twocoin flip w1 w2 pr_portkey z_nil max_flips (z_prime, z_nil);
    let '((accept, _, z_acc), _) := r in
    ret (accept, z_acc, if (accept : bool) then h_prime else h_nil) in
  do w_nil <- eval_hidden_weight vol bounds loglik z_nil h_nil;
  do w_prime <- eval_hidden_weight vol bounds loglik z_prime h_prime;
  if precoin then
    do b <- o_ulog_lt (w_prime - logaddexp w_prime w_nil);
    if b then run 0 0 else ret (false, z_nil, h_nil)
  else run w_prime w_nil).
Proof. cbv zeta. unfold update_hidden_section, hidden_step. apply bind_ext. intros wn. apply bind_ext. intros wp. rewrite plain_old. reflexivity. Qed.
Lemma param_section_old fuel mp max_props vol disc grad log_prior loglik batch precoin pr_portkey max_flips propose thi_nil z h state :
  update_params_section fuel mp max_props vol disc grad log_prior loglik batch precoin pr_portkey max_flips propose thi_nil z h state =
  (do p <- propose;
  let '(prop, log_p_for, log_p_back) := p in
  let thi_prime := list_set thi_nil state prop in
  let weight thi := fst (loglik thi h (Some state)) + log_prior thi in
  let w_nil := weight thi_nil + log_p_for in
  let w_prime := weight thi_prime + log_p_back in
  let flip (first : bool) (s : partition) := do r <- flip_param_coins fuel mp max_props vol disc grad batch thi_nil thi_prime s h first state; ret (r, snd r) in
  let run w1 w2 :=
    do r <- sample_twocoin_joint flip (fun s => ret s) w1 w2 pr_portkey max_flips z;
    let '((accept, _, z_acc), _) := r in
    ret (accept, if (accept : bool) then thi_prime else thi_nil, z_acc) in
  if precoin then
    do b <- o_ulog_lt (w_prime - logaddexp w_prime w_nil);
    if b then run 0 0 else ret (false, thi_nil, z)
  else run w_prime w_nil).
Proof. unfold update_params_section, switching_step. apply bind_ext. intros [[q lf] lb]. cbv zeta. rewrite joint_old. reflexivity. Qed.
