(** What the regime sampler learns from an update of the hidden state. *)
From Coq Require Import Reals List Bool Arith ZArith Lia Lra.
From Verif Require Import Base Np Rng L_rng M_mjp M_adapt M_hit M_path M_skel M_seed M_models M_sw L_full L_sw6 L_sw7.
Import ListNotations.
Local Open Scope R_scope.

Lemma share_mean : forall A (f : A -> bool) l, np_mean (map (fun q => if f q then 1 else 0) l) = INR (length (filter f l)) / INR (length l).
Proof.
  intros A f l. unfold np_mean. rewrite map_length. f_equal. induction l as [|a l IH]; [reflexivity|]. cbn [map fold_right filter]. rewrite IH. destruct (f a); [|lra]. cbn [length]. rewrite S_INR. lra.
Qed.
Lemma jobs_each : forall A omes (jobs : list (M A)) i l, run_jobs i omes jobs = Ok l -> length l = length jobs /\
  forall k j a, nth_error jobs k = Some j -> nth_error l k = Some a -> fst (j (omes (i + k)%nat) 0%nat) = Ok a.
Proof.
  intros A omes jobs; induction jobs as [|j r IH]; intros i l E; cbn [run_jobs] in E.
  - injection E as <-. split; [reflexivity|]. intros [|k]; discriminate.
  - destruct (fst (j (omes i) 0%nat)) as [a|e|] eqn:Ej; cbn [rbind] in E; try discriminate. destruct (run_jobs (S i) omes r) as [l'|e|] eqn:Er; cbn [rbind] in E; try discriminate. injection E as <-.
    destruct (IH _ _ Er) as [EL H]. split; [cbn; congruence|]. intros [|k] j' a' Hj Ha; cbn in Hj, Ha.
    + injection Hj as <-. injection Ha as <-. rewrite Nat.add_0_r. exact Ej.
    + rewrite <- Nat.add_succ_comm. eapply H; eauto.
Qed.
Definition accepted (q : bool * partition * anchorage) : bool := fst (fst q).
Lemma hidden_learns : forall L fuel mp maxp lb ub vol disc bounds loglik batch precoin pr maxf t vt opt decay air dim lam omes sp z h o k y' cond z' h' sp' k',
  update_hidden L fuel mp maxp lb ub vol disc bounds loglik batch precoin pr maxf t vt opt decay air dim lam omes sp z h o k = (Ok ((y', cond), (z', h', sp')), k') ->
  exists zp hp secs, (exists k0 k1, sample_aug fuel mp maxp lb ub vol y' t vt o k0 = (Ok (zp, hp), k1)) /\
    length secs = length (zip4 (fst (split_hidden z h cond)) (fst (split_hidden zp hp cond)) (snd (split_hidden z h cond)) (snd (split_hidden zp hp cond))) /\
    (forall i sec, nth_error secs i = Some sec -> exists zn hn zq hq,
      nth_error (fst (split_hidden z h cond)) i = Some zn /\ nth_error (snd (split_hidden z h cond)) i = Some hn /\
      nth_error (fst (split_hidden zp hp cond)) i = Some zq /\ nth_error (snd (split_hidden zp hp cond)) i = Some hq /\
      fst (update_hidden_section fuel mp maxp vol disc bounds loglik batch precoin pr maxf zn hn zq hq (omes i) 0%nat) = Ok sec) /\
    paste_hidden (map (fun q => snd (fst q)) secs) (map snd secs) = Ok (z', h') /\
    prune_anchorage h' = Ok (rw_state sp') /\
    rw_emp sp' = rw_emp sp ++ [INR (length (filter accepted secs)) / INR (length secs)].
Proof.
  intros L fuel mp maxp lb ub vol disc bounds loglik batch precoin pr maxf t vt opt decay air dim lam omes sp z h o k y' cond z' h' sp' k' E. unfold update_hidden in E.
  apply bind_ok in E as (p & k1 & _ & E). apply bind_ok in E as (r & k2 & E & E'). assert (Ep : p = (y', cond) /\ r = (z', h', sp')) by (unfold ret in E'; injection E'; auto). destruct Ep as [-> ->]. cbn [fst snd] in E.
  unfold update_hidden_with in E. apply bind_ok in E as ([zp hp] & k3 & E1 & E). exists zp, hp. destruct (split_hidden z h cond) as [zn hn] eqn:S1. destruct (split_hidden zp hp cond) as [zq hq] eqn:S2. cbn [fst snd].
  apply bind_ok in E as (acc & k4 & E2 & E). injection E2 as E2 <-. exists acc. split; [exists k1, k3; exact E1|].
  apply bind_ok in E as (rr & k5 & E3 & E). injection E3 as E3 <-. apply bind_ok in E as (yy & k6 & E4 & E). destruct rr as [z2 h2]. cbn [fst snd] in *. unfold ret in E. injection E as -> -> E6 _.
  destruct (jobs_each _ _ _ _ _ E2) as [EL EJ]. rewrite map_length in EL. split; [exact EL|]. split; [|split; [|split]].
  - intros i sec Hs. destruct (nth_error (zip4 zn zq hn hq) i) as [[[[a b] c] d]|] eqn:Q.
    2:{ apply nth_error_None in Q. assert (i < length acc)%nat by (apply nth_error_Some; congruence). lia. }
    pose proof Q as Q'. unfold zip4 in Q'. apply nth_combine_some in Q' as [Q1 Q2]. apply nth_combine_some in Q1 as [Q1 Q3]. apply nth_combine_some in Q1 as [Q1 Q4]. cbn [fst snd] in *.
    exists a, c, b, d. split; [exact Q1|]. split; [exact Q3|]. split; [exact Q4|]. split; [exact Q2|].
    refine (EJ i _ sec _ Hs). rewrite nth_error_map, Q. reflexivity.
  - subst. exact E3.
  - subst. injection E4 as E4 _. rewrite E4. f_equal. unfold mjp_adapt. destruct (Nat.eqb _ _); reflexivity.
  - subst sp'. rewrite <- (share_mean _ accepted acc). unfold mjp_adapt. destruct (Nat.eqb _ _); reflexivity.
Qed.
