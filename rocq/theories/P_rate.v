(** What the sampler of the regime path learns from an update of the hidden state (C25). *)
From Coq Require Import Reals List Bool Arith.
From Verif Require Import Base Np Rng Mat L_rng M_mjp M_adapt M_skel M_seed M_models M_sw SpecSw SpecCan SpecModels L_lindemo L_itodemo L_swdemo L_rate L_rate2.
Import ListNotations.
Local Open Scope R_scope.

(** C25: an update of the hidden state that returns has run one section update for every stretch between
    two conditioning times, each with its own generator and with the current and the proposed half of
    the same stretch.  The new hidden state is pasted from their results.  The sampler of the regime
    path learns the share of accepted sections, and its state is the new path. *)
Theorem C25_hidden_learns : forall L fuel mp maxp lb ub vol disc bounds loglik batch precoin pr maxf t vt opt decay air dim lam omes sp z h o k y' cond z' h' sp' k',
  update_hidden L fuel mp maxp lb ub vol disc bounds loglik batch precoin pr maxf t vt opt decay air dim lam omes sp z h o k = (Ok ((y', cond), (z', h', sp')), k') ->
  exists zp hp secs, (exists k0 k1, sample_aug fuel mp maxp lb ub vol y' t vt o k0 = (Ok (zp, hp), k1)) /\
    length secs = length (zip4 (fst (split_hidden z h cond)) (fst (split_hidden zp hp cond)) (snd (split_hidden z h cond)) (snd (split_hidden zp hp cond))) /\
    (forall i sec, nth_error secs i = Some sec -> exists zn hn zq hq,
      nth_error (fst (split_hidden z h cond)) i = Some zn /\ nth_error (snd (split_hidden z h cond)) i = Some hn /\
      nth_error (fst (split_hidden zp hp cond)) i = Some zq /\ nth_error (snd (split_hidden zp hp cond)) i = Some hq /\
      fst (update_hidden_section fuel mp maxp vol disc bounds loglik batch precoin pr maxf zn hn zq hq (omes i) 0%nat) = Ok sec) /\
    paste_hidden (map (fun q => snd (fst q)) secs) (map snd secs) = Ok (z', h') /\
    prune_anchorage h' = Ok (rw_state sp') /\
    rw_emp sp' = rw_emp sp ++ [INR (length (filter (fun q => fst (fst q)) secs)) / INR (length secs)].
Proof. exact hidden_learns. Qed.
Print Assumptions C25_hidden_learns.
Example C25_learns_example : exists fuel omes o y' cond z' h' sp' k',
  (forall i, valid (omes i)) /\ valid o /\
  update_hidden la0 fuel 1 1 NegInf PosInf (ou1_vol rate_thi) (ou1_disc rate_thi) (fun y => as_bounds (ou1_bounds_disc rate_thi y)) (fun _ _ => (0, 0)) 1 false (1/2) 1
    sw_t sw_v (1/4) (1/2) 1 2 gen2 omes (rw_init sw_y 0 0) (repeat raw_demo 4) sw_h o 0%nat = (Ok ((y', cond), (z', h', sp')), k').
Proof. exact hidden_run. Qed.
