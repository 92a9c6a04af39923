(** Particles and regime sampler over the iterations of the switching MCEM. *)
From Coq Require Import Reals List Bool Arith ZArith Lia Lra Sorted.
From Verif Require Import Base Np Rng Mat M_mjp M_inf M_bf M_adapt M_path M_skel M_seed M_models M_sw M_chain M_mcem SpecMjp SpecLin SpecInf SpecSkel SpecSeed SpecSw SpecChain SpecEm
  L_list L_rng L_mat L_sim L_path2 L_sw L_sw2 L_sw3 L_sw4 L_sw6 L_sw7 L_sw9 L_sw10 L_sw13 L_em L_em2 L_lindemo.
Import ListNotations.
Local Open Scope R_scope.

Lemma returns_gen {A} G (m : M A) (P : A -> Prop) : returns m P -> returns_if G m P.
Proof. intros H o k V _. exact (H o k V). Qed.
Section Step.
Context {Th P S' : Type} (G : oracle -> Prop) (rate ftol : R) (upd : Th -> mat -> P * S' -> M (P * S')) (par : Th -> list P -> M (Th * R)) (gen : list P -> res (mat * R)) (I : P * S' -> Prop) (J : mat -> Prop).
Hypothesis HU : forall thi lam x, J lam -> I x -> returns_if G (upd thi lam x) I.
Hypothesis HGn : forall pp lam v, pp <> [] -> Forall (fun p => exists s, I (p, s)) pp -> gen pp = Ok (lam, v) -> J lam.
Lemma particles_inv k thi lam : J lam -> forall i x, I x -> returns_if G (particles 1 (upd thi lam) k i x) (fun r => Forall (fun p => exists s, I (p, s)) (fst r) /\ length (fst r) = k /\ (k = 0%nat /\ snd r = snd x \/ exists p, last_opt (fst r) = Some p /\ I (p, snd r))).
Proof.
  intros HJ. induction k as [|k IH]; intros i x HI; cbn [particles].
  - apply returns_ret. cbn [fst snd]. repeat split; auto.
  - eapply returns_bind; [apply HU; auto|]. intros x' HI'. eapply returns_bind; [apply IH; exact HI'|]. intros [l s] (F & L & E). apply returns_ret. rewrite Nat.mod_1_r. cbn [Nat.eqb fst snd] in *. split; [|split].
    + constructor; auto. exists (snd x'). now destruct x'.
    + cbn [length]. now rewrite L.
    + right. destruct E as [[-> ->]|(p & E1 & E2)].
      * destruct l; [|discriminate]. exists (fst x'). split; [reflexivity|]. now destruct x'.
      * exists p. split; auto. destruct l; [discriminate|]. now rewrite last_opt_cons.
Qed.
Notation good_yield := (fun y => J (y_lam y) /\ Forall (fun p => exists s, I (p, s)) (y_pp y) /\ exists p, last_opt (y_pp y) = Some p /\ I (p, y_sp y)).
Lemma iterate_inv thi lam x n : (1 <= n)%nat -> J lam -> I x -> returns_if G (sw_iterate_em 1 upd par gen thi lam x n) good_yield.
Proof.
  intros Hn HJ HI. unfold sw_iterate_em, update_particles. rewrite Nat.mul_1_r. eapply returns_bind; [apply particles_inv; auto|]. intros [l s] (F & L & E). cbn [fst snd] in *.
  eapply returns_bind; [apply returns_triv|]. intros p _. eapply returns_bind; [apply returns_lift; intros g Hg; exact Hg|]. intros [lam' v] Hg. apply returns_ret. cbn [fst snd y_lam y_pp y_sp].
  unfold y_lam, y_pp, y_sp. cbn [fst snd]. destruct E as [[-> _]|E]; [lia|]. split; [|split; auto]. eapply HGn; [|exact F|exact Hg]. destruct l; [cbn in L; lia|discriminate].
Qed.
Lemma loop_inv k : forall prev n thi lam pp sp, 1 <= rate -> (1 <= n)%nat -> J lam -> (exists p, last_opt pp = Some p /\ I (p, sp)) ->
  returns_if G (sw_em_loop rate ftol 1 upd par gen k prev n thi lam pp sp) (fun r => Forall good_yield (fst r)).
Proof.
  induction k as [|k IH]; intros prev n thi lam pp sp HR Hn HJ (p & Ep & HI); cbn [sw_em_loop]; [apply returns_ret; constructor|].
  rewrite Ep. eapply returns_bind with (Q := fun q => I (q, sp)); [apply returns_lift_opt; intros q Hq; injection Hq as <-; exact HI|]. intros q HIq.
  eapply returns_bind; [apply iterate_inv; [exact Hn|exact HJ|exact HIq]|]. intros [[[[obj thi'] lam'] pp'] sp'] HY. destruct (converged ftol prev obj).
  - apply returns_ret. constructor; [exact HY|constructor].
  - destruct HY as (Y1 & Y2 & Y3). unfold y_lam, y_pp, y_sp in *. cbn [fst snd] in *. eapply returns_bind; [apply IH; auto; pose proof (next_strict rate n HR Hn); lia|].
    intros [l fin] HL. apply returns_ret. cbn [fst]. constructor; [|exact HL]. unfold y_lam, y_pp, y_sp. cbn [fst snd]. auto.
Qed.
End Step.

(** ** the hidden states *)
Section Maximize.
Context (L : linalg) (dim fuel mp maxp : nat) (vol : list (list R) -> nat -> R) (disc : list (list R) -> nat -> R -> R) (bounds : list (list R) -> nat -> bounds_fun)
  (loglik : list (list R) -> anchorage -> option nat -> R * R) (batch : nat) (precoin : bool) (pr : R) (maxf : nat) (t vt : list R) (opt decay : R) (air : nat) (a b : R)
  (rate ftol : R) (omes : nat -> nat -> oracle) (par : list (list R) -> list (partition * anchorage) -> M (list (list R) * R)).
Notation alp := (fst (construct_gen_hyperprior a b)).
Notation bet := (snd (construct_gen_hyperprior a b)).
Lemma const_hyper (P : R -> Prop) : (P a -> hyper dim P alp) /\ (P b -> hyper dim P bet).
Proof.
  split; intros H; (split; [intros i _; cbn; now rewrite Nat.eqb_refl|]); intros i j _ _ N; cbn; (destruct (Nat.eqb_spec i j); [congruence|]); eexists; (split; [reflexivity|]); now rewrite Rmult_1_r.
Qed.
Lemma hidden_particle y h n : hidden_ok dim t vt y h n -> particle dim h y.
Proof. intros [? ? ? ? ? ? ? ? ? W F D S Pr]. repeat split; auto; apply W. Qed.
Lemma generator_step pp lam v : 1 < a -> 0 < b -> pp <> [] -> Forall (fun p : partition * anchorage => exists s : rw jump_path * nat, hidden_ok dim t vt (rw_state (fst s)) (snd p) (length (fst p))) pp ->
  em_generator dim alp bet pp = Ok (lam, v) -> generator dim lam /\ pos_off dim lam.
Proof.
  intros Ha Hb NE F E. assert (EX : exists yy, Forall2 (particle dim) (map snd pp) yy).
  { clear - F. induction F as [|p pp (s & H) _ (yy & IH)]; [exists []; constructor|]. exists (rw_state (fst s) :: yy). cbn [map]. constructor; auto. eapply hidden_particle; eauto. }
  destruct EX as (yy & FY). destruct (em_optimal dim (map snd pp) yy alp bet) as (lam' & v' & E' & _ & G1 & G2 & _); auto.
  - intros ->. inversion FY. destruct pp; [congruence|discriminate].
  - apply const_hyper; auto.
  - apply const_hyper; auto.
  - unfold em_generator in E. rewrite E' in E. cbn [rbind snd fst] in E. injection E as <- _. auto.
Qed.
Lemma em_states init k : obs_grid t vt (last t 0) -> (4 <= length t)%nat -> (2 <= dim)%nat -> 1 < a -> 0 < b -> 1 <= rate -> expm_exact L ->
  (forall Q, generator dim Q -> pos_off dim Q -> solve_ok L dim (stat_matrix Q) stat_rhs) -> (forall c i, valid (omes c i)) ->
  returns_if generic (sw_maximize L dim fuel mp maxp NegInf PosInf vol disc bounds loglik batch precoin pr maxf t vt opt decay air alp bet rate ftol 1 omes par init k)
    (fun r => Forall (fun y => generator dim (y_lam y) /\ pos_off dim (y_lam y) /\
       Forall (fun p => exists s, hidden_ok dim t vt s (snd p) (length (fst p))) (y_pp y) /\
       exists p, last_opt (y_pp y) = Some p /\ hidden_ok dim t vt (rw_state (fst (y_sp y))) (snd p) (length (fst p))) (fst r)).
Proof.
  intros HG H4 HD Ha Hb HR HE HS HO. unfold sw_maximize.
  destruct (const_init dim a b) as (B & EB & B1 & B2 & B3); [lra|]. rewrite EB. eapply returns_bind; [apply returns_lift; intros g Hg; exact Hg|]. intros lam0 E. injection E as <-.
  assert (G2 : pos_off dim (mat_of B)). { intros i j Hi Hj N. unfold mat_of. rewrite B3 by auto. apply Rdiv_lt_0_compat; lra. }
  assert (G1 : generator dim (mat_of B)) by (split; [intros i j Hi Hj N; left; now apply G2|exact B2]).
  assert (EL : last_opt t = Some (last t 0)). { destruct (grid_shape _ _ _ HG) as (m & -> & _). change (0 :: m ++ [last t 0]) with ((0 :: m) ++ [last t 0]). rewrite last_opt_app. now rewrite last_last. }
  rewrite EL. eapply returns_bind; [apply returns_lift_opt; intros x Hx; exact Hx|]. intros fin EF. injection EF as <-.
  pose proof (sorted_last_pos _ _ _ HG) as HT.
  eapply returns_bind; [apply sample_forwards_spec; [auto|discriminate]|]. intros y (W & FY & DY & _).
  eapply returns_bind; [apply returns_gen with (P := fun r => hidden_ok dim t vt y (snd r) (length (fst r))); apply (aug_hidden dim); auto; rewrite FY; exact HG|]. intros az HA.
  eapply returns_weaken; [apply (loop_inv generic) with (I := fun x => hidden_ok dim t vt (rw_state (fst (snd x))) (snd (fst x)) (length (fst (fst x)))) (J := fun lam => generator dim lam /\ pos_off dim lam)|].
  - intros thi lam [[z h] [sp c]] [J1 J2] HI. cbn [fst snd] in HI. unfold em_update_hidden. eapply returns_bind; [apply update_hidden_ok; auto|]. intros [[y' tc] [[z' h'] sp']] [HH _]. apply returns_ret. cbn [fst snd]. exact HH.
  - intros pp lam v NE F Eg. eapply generator_step; eauto.
  - exact HR.
  - apply le_n.
  - auto.
  - exists az. split; [reflexivity|]. cbn [fst snd]. unfold rw_init. cbn [rw_state]. exact HA.
  - intros r F. eapply Forall_impl; [|exact F]. intros y0 ([J1 J2] & F1 & p & E1 & E2). cbn [fst snd] in *. split; [exact J1|]. split; [exact J2|]. split.
    + eapply Forall_impl; [|exact F1]. intros q (s & Hs). exists (rw_state (fst s)). exact Hs.
    + eauto.
Qed.
End Maximize.
(** ** with thinning *)
Lemma out_of_step : exists (upd : R -> mat -> nat * nat -> M (nat * nat)) par gen o l fin y,
  (forall thi lam x, fst x = snd x -> returns (upd thi lam x) (fun x' => fst x' = snd x')) /\
  fst (sw_em_loop 1 0 2 upd par gen 1 None 1 0 (fun _ _ => 0) [0%nat] 0%nat o 0%nat) = Ok (l, fin) /\ nth_error l 0 = Some y /\ last_opt (y_pp y) = Some 1%nat /\ y_sp y = 2%nat.
Proof.
  exists (fun _ _ x => ret (S (fst x), S (snd x))), (fun thi _ => ret (thi, 0)), (fun _ => Ok (fun _ _ => 0, 0)), {| ora_r := fun _ _ => 0; ora_n := fun _ _ => 0%nat |}. do 3 eexists.
  split; [|split; [reflexivity|]].
  - intros thi lam x H. enough (returns_if (fun _ => True) (ret (S (fst x), S (snd x))) (fun x' => fst x' = snd x')) as X by (intros o k V; apply (X o k V Logic.I)). apply returns_ret. cbn. now rewrite H.
  - split; [reflexivity|]. split; reflexivity.
Qed.
