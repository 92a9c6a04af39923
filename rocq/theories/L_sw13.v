(** Every augmentation is the list form of an anchorage; updates from any augmentation. *)
From Coq Require Import Reals List Bool Arith ZArith Lia Lra Sorted.
From Verif Require Import Base Np Rng Mat M_mjp M_inf M_bf M_adapt M_path M_skel M_seed M_models M_sw M_chain SpecMjp SpecLin SpecInf SpecSkel SpecSeed SpecSw SpecChain
  L_list L_rng L_path2 L_sw L_sw2 L_sw3 L_sw4 L_sw6 L_sw7 L_sw9 L_sw10 L_lindemo.
Import ListNotations.
Local Open Scope R_scope.

Lemma adj_nth_inv {A} (a b : A) l : adj a b l -> exists j, nth_error l j = Some a /\ nth_error l (S j) = Some b.
Proof. intros (p & r & ->). exists (length p). split; [rewrite nth_error_app2, Nat.sub_diag by lia; auto|]. rewrite nth_error_app2 by lia. now replace (S (length p) - length p)%nat with 1%nat by lia. Qed.
Lemma sorted_nth2 (l : list R) i j a b : StronglySorted Rlt l -> (i < j)%nat -> nth_error l i = Some a -> nth_error l j = Some b -> a < b.
Proof.
  intros HS; revert i j; induction HS as [|x l HS IH HF]; intros i j Hij Hi Hj; [destruct i; discriminate|].
  destruct j; [lia|]. destruct i; [|simpl in *; eapply (IH i j); eauto; lia]. simpl in Hi, Hj. injection Hi as <-. rewrite Forall_forall in HF. apply HF. eapply nth_error_In; eauto.
Qed.
Lemma state_between s u w i j : timed s -> state_at s u i -> state_at s w j -> u <= w -> (forall x, In x (M_mjp.sk_t s) -> ~ u < x <= w) -> i = j.
Proof.
  intros HT Hi (k & tk & K1 & K2 & K3 & K4) Huw HN. apply (state_at_unique s u i j Hi). exists k, tk. repeat split; auto.
  - destruct (Rle_dec tk u); auto. exfalso. apply (HN tk); [eapply nth_error_In; eauto|lra].
  - intros j' tj Hj' E. pose proof (K4 _ _ Hj' E). lra.
Qed.
Lemma hidden_good dim t vt y h n : obs_grid t vt (last t 0) -> hidden_ok dim t vt y h n -> exists K, h = anch_of K /\ good dim t vt K /\ path_of K = y /\ length K = S n.
Proof.
  intros HG [L1 L2 L3 SS HF HLt HD HTm HS HW HFi HDi HSt HP].
  pose proof (sorted_last_pos _ _ _ HG) as HT0.
  exists (ents h). pose proof (anch_of_ents h ltac:(congruence) ltac:(congruence)) as EH.
  assert (LK : length (ents h) = S n). { rewrite <- EH in L3. cbn [anch_of a_t] in L3. now rewrite map_length in L3. }
  assert (NK : ents h <> []) by (intros E; rewrite E in LK; discriminate).
  assert (NT : forall j e, nth_error (ents h) j = Some e -> nth_error (a_t h) j = Some (tm e) /\ nth_error (a_y h) j = Some (st e) /\ nth_error (a_v h) j = Some (vl e)).
  { intros j e He. rewrite <- EH at 1 2 3. cbn [anch_of a_t a_y a_v]. rewrite !nth_error_map, He. auto. }
  assert (TN : forall j u, nth_error (a_t h) j = Some u -> exists e, nth_error (ents h) j = Some e /\ tm e = u).
  { intros j u Hu. rewrite <- EH in Hu. cbn [anch_of a_t] in Hu. rewrite nth_error_map in Hu. destruct (nth_error (ents h) j) as [e|]; [|discriminate]. exists e. inversion Hu; auto. }
  split; [auto|]. split; [|split; auto].
  2:{ rewrite <- EH in HP. rewrite prune_of in HP by auto. now inversion HP. }
  assert (ET : map tm (ents h) = a_t h) by (rewrite <- EH at 2; reflexivity).
  assert (LL : tm (last (ents h) (0, 0%nat, 0)) = last t 0). { rewrite <- HLt, <- ET. symmetry. exact (last_map tm (ents h) (0, 0%nat, 0)). }
  assert (AS : forall e e', adj e e' (ents h) -> exists j, nth_error (ents h) j = Some e /\ nth_error (ents h) (S j) = Some e') by (intros; apply adj_nth_inv; auto).
  split; auto.
  - intros e e' HA. destruct (AS _ _ HA) as (j & J1 & J2). destruct (NT _ _ J1) as (A1 & A2 & A3). destruct (NT _ _ J2) as (B1 & B2 & B3).
    assert (LT : tm e < tm e'). { apply (adj_sorted tm (ents h)); auto. rewrite ET; auto. }
    split; [exact LT|]. split.
    + intros E. apply (HS j (tm e') (st e)); auto. now rewrite E.
    + intros E. apply (state_between y (tm e) (tm e')); [exact (proj1 HW)|eauto|eauto|lra|]. intros x Hx [Hx1 Hx2].
      assert (IX : In x (a_t h)) by (apply HTm; auto). apply In_nth_error in IX as (m & Hm). destruct (TN _ _ Hm) as (em & Em & Et).
      assert (x <> tm e'). { intros ->. pose proof (td_below _ (proj1 HW) _ Hx). lra. }
      assert (x < tm e') by lra.
      destruct (Nat.lt_trichotomy m (S j)) as [Q|[Q|Q]].
      * assert (m <= j)%nat by lia. assert (x <= tm e); [|lra]. destruct (Nat.eq_dec m j) as [->|NE]; [congruence || (assert (em = e) by congruence; subst; lra)|].
        left. eapply (sorted_nth2 (a_t h)); [exact SS| |exact Hm|exact A1]. lia.
      * subst m. assert (em = e') by congruence. subst. lra.
      * assert (tm e' < x); [|lra]. eapply (sorted_nth2 (a_t h)); [exact SS|exact Q|exact B1|exact Hm].
  - destruct (ents h) as [|e K] eqn:EK; [congruence|]. exists e, K. split; auto. split.
    + intros ->. rewrite <- ET in HF. cbn in HF, LL. inversion HF. lra.
    + rewrite <- ET in HF. cbn in HF. now inversion HF.
  - intros u v Huv. apply in_combine_iff in Huv as (k & Hk1 & Hk2). destruct (HD _ _ _ Hk1 Hk2) as (j & J1 & J2). destruct (TN _ _ J1) as (e & He & Et). exists e. split; [eapply nth_error_In; eauto|]. split; auto.
    destruct (NT _ _ He) as (_ & _ & Ev). congruence.
  - apply Forall_forall. intros e He. apply In_nth_error in He as (j & Hj). destruct (NT _ _ Hj) as (A1 & A2 & A3). destruct (HSt _ _ _ A1 A2) as (k & tk & K1 & K2 & _). rewrite Forall_forall in HDi. apply HDi. eapply nth_error_In; eauto.
Qed.

(** one augmentation *)
Lemma aug_hidden dim fuel mp maxp lb ub vol y t vt : obs_grid t vt (M_mjp.sk_fin y) -> wf_skel y -> Forall (fun s => (s < dim)%nat) (M_mjp.sk_x y) ->
  returns (sample_aug fuel mp maxp lb ub vol y t vt) (fun r => hidden_ok dim t vt y (snd r) (length (fst r))).
Proof.
  intros HG HW HD. enough (returns_if (fun _ => True) (sample_aug fuel mp maxp lb ub vol y t vt) (fun r => hidden_ok dim t vt y (snd r) (length (fst r)))) as X by (intros o k V; apply (X o k V I)).
  eapply returns_weaken; [apply (sample_aug_ok (fun _ => True) dim (fun _ => True)); auto; intros ? ? ? ? _ _; apply returns_triv|].
  intros [z h] (K & F1 & F2 & F3 & F4 & F5). cbn [fst snd] in *. subst h y. replace (length z) with (length K - 1)%nat by lia.
  assert (HG' : obs_grid t vt (last t 0)) by (destruct HG; split; auto). apply good_ok; auto.
  - apply (sorted_last_pos _ _ _ HG').
  - destruct (grid_shape _ _ _ HG') as (m & -> & _). now left.
  - apply HG.
Qed.
Lemma aug_seeds dim fuel mp maxp vol y t vt : obs_grid t vt (M_mjp.sk_fin y) -> wf_skel y -> Forall (fun s => (s < dim)%nat) (M_mjp.sk_x y) -> (0 < maxp)%nat -> (forall y, (y < dim)%nat -> 0 < vol y) ->
  returns_if generic (sample_aug fuel mp maxp NegInf PosInf vol y t vt) (fun r => Forall (fun s => standard s /\ ends 1 0 0 s) (fst r)).
Proof.
  intros HG HW HD Hm HV. eapply returns_weaken; [apply (sample_aug_ok generic dim okseed); auto; apply raw_okseed; auto|]. intros r (K & _ & _ & _ & _ & F). exact F.
Qed.
(** one update of the hidden state *)
Lemma update_hidden_ok L dim fuel mp maxp lb ub vol disc bounds loglik batch precoin pr maxf t vt opt decay air lam omes sp z h :
  obs_grid t vt (last t 0) -> (4 <= length t)%nat -> (2 <= dim)%nat -> generator dim lam -> pos_off dim lam -> expm_exact L -> solve_ok L dim (stat_matrix lam) stat_rhs ->
  (forall i, valid (omes i)) -> hidden_ok dim t vt (rw_state sp) h (length z) ->
  returns_if generic (update_hidden L fuel mp maxp lb ub vol disc bounds loglik batch precoin pr maxf t vt opt decay air dim lam omes sp z h)
    (fun r => let '((y', _), (z', h', sp')) := r in hidden_ok dim t vt (rw_state sp') h' (length z') /\ (off_grid t (rw_state sp) -> off_grid t y' -> off_grid t (rw_state sp'))).
Proof.
  intros HG H4 HD HL HP HE HSo HO HH. destruct (hidden_good _ _ _ _ _ _ HG HH) as (K1 & -> & G1 & P1 & L1).
  eapply (returns_mono (fun o => generic o /\ True)); [|eapply returns_weaken; [apply (update_ok (fun _ => True) (fun _ => True) dim) with (K1 := K1); auto|]].
  - intros o Ho. exact (conj Ho I).
  - intros ? ? ? ? _ _; apply returns_triv.
  - intros ?; intros. apply returns_triv.
  - apply Forall_forall; auto.
  - intros [[y' ev] [[z' h'] sp']] (K & -> & GK & LK & _ & EP & HOff). rewrite EP. split; [|rewrite <- P1; auto].
    replace (length z') with (length K - 1)%nat by lia. apply good_ok; auto.
    + apply (sorted_last_pos _ _ _ HG).
    + destruct (grid_shape _ _ _ HG) as (m & -> & _). now left.
    + apply HG.
Qed.
