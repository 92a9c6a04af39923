(** update_hidden: sections, jobs, and the update of the augmented state. *)
From Coq Require Import Reals List Bool Arith ZArith Lia Lra Sorted.
From Verif Require Import Base Np Rng M_mjp M_bf M_adapt M_path M_skel M_seed M_sw SpecMjp SpecSw.
From Verif Require Import L_rng L_list L_path L_path2 L_part L_prop L_occ L_adapt2 L_sde2 L_sw L_sw2 L_sw3 L_sw4 L_sw5 L_step2.
Import ListNotations.
Local Open Scope R_scope.

Lemma returns_triv {A} G (m : M A) : returns_if G m (fun _ => True).
Proof. intros o k V g. cbv beta. destruct (fst _); auto. Qed.
Lemma twocoin_loop_inv {A St} G (flip : bool -> St -> M ((bool * A) * St)) (I : St -> Prop) (QT QF : A -> Prop) v pr esc :
  (forall b s, I s -> returns_if G (flip b s) (fun r => I (snd r) /\ if b then QT (snd (fst r)) else QF (snd (fst r)))) ->
  (forall a, (QT a \/ QF a) -> QF (esc a)) ->
  forall n s, I s -> returns_if G (twocoin_loop (m := M) (@ret) (@bind) o_ulog_lt o_u_lt flip v pr esc n s)
    (fun r => match fst r with Some (acc, _, a) => if (acc : bool) then QT a else QF a | None => True end).
Proof.
  intros HF HE. induction n as [|n IH]; intros s Hs; cbn [twocoin_loop]; [apply returns_ret; exact Logic.I|].
  eapply returns_bind; [apply returns_triv|]. intros first _. eapply returns_bind; [apply (HF first s Hs)|]. intros [[success prop] s'] [H1 H2]. cbn [fst snd] in *.
  destruct success; [apply returns_ret; exact H2|]. eapply returns_bind; [apply returns_triv|]. intros e _. destruct e; [|apply IH; auto].
  apply returns_ret. cbn [fst snd]. apply HE. destruct first; auto.
Qed.
Lemma twocoin_inv {A St} G (flip : bool -> St -> M ((bool * A) * St)) (I : St -> Prop) (QT QF : A -> Prop) w1 w2 pr prop0 n s :
  (forall b s, I s -> returns_if G (flip b s) (fun r => I (snd r) /\ if b then QT (snd (fst r)) else QF (snd (fst r)))) -> QF prop0 -> I s ->
  returns_if G (sample_twocoin flip w1 w2 pr prop0 n s) (fun r => let '((acc, _, a), _) := r in if (acc : bool) then QT a else QF a).
Proof.
  intros HF H0 Hs. unfold sample_twocoin, twocoin. eapply returns_bind; [apply twocoin_loop_inv with (I := I); eauto|].
  intros [[[[acc e] a]|] s'] H; cbn [fst] in H; [apply returns_ret; exact H|apply returns_raise].
Qed.
Lemma twocoin_joint_inv {A St} G (flip : bool -> St -> M ((bool * A) * St)) (I : St -> Prop) (Q : A -> Prop) prime w1 w2 pr n s :
  (forall b s, I s -> returns_if G (flip b s) (fun r => I (snd r) /\ Q (snd (fst r)))) -> returns_if G (prime s) I ->
  returns_if G (sample_twocoin_joint flip prime w1 w2 pr n s) (fun r => Q (snd (fst r))).
Proof.
  intros HF Hs. unfold sample_twocoin_joint, twocoin_joint. eapply returns_bind with (Q := fun r => match fst r with Some (_, _, a) => Q a | None => True end).
  - eapply returns_bind; [exact Hs|]. intros s' Hs'. eapply returns_weaken; [apply twocoin_loop_inv with (I := I) (QT := Q) (QF := Q); auto|].
    + intros b q Hq. eapply returns_weaken; [apply (HF b q Hq)|]. intros r [H1 H2]. split; auto. destruct b; auto.
    + intros a [H|H]; auto.
    + intros [[[[acc e] a]|] q] H; cbn [fst] in *; auto. destruct acc; auto.
  - intros [[[[acc e] a]|] s'] H; cbn [fst] in H; [apply returns_ret; exact H|apply returns_raise].
Qed.

Definition fits {Z} (dim : nat) (z : list Z) (h : anch R) : Prop :=
  Forall (fun s => (s < dim)%nat) (a_y h) /\ StronglySorted Rlt (a_t h) /\ length (a_t h) = S (length z) /\ length (a_y h) = S (length z) /\ length (a_v h) = S (length z).
Section Sections.
Context (G : oracle -> Prop) (P : M_skel.skel -> Prop) (dim fuel mp maxp : nat) (vol : nat -> R) (disc : nat -> R -> R) (bounds : nat -> bounds_fun)
  (loglik : anch R -> option nat -> R * R) (batch : nat).
Definition coin_keeps : Prop := forall dt y y' x0 x1 s, 0 < dt -> (y < dim)%nat -> P s ->
  returns_if G (seed_poisson_coin fuel mp maxp (sw_norm (vol y) dt x0 x1) (sw_denorm (vol y) dt x0 x1) s (disc y') (bounds y') batch) (fun r => P (snd r)).
Hypothesis HC : coin_keeps.
Lemma flip_hidden_ok z h : fits dim z h -> Forall P z ->
  returns_if G (flip_hidden_coins fuel mp maxp vol disc bounds batch z h) (fun r => length (snd r) = length z /\ Forall P (snd r)).
Proof.
  intros (HD & HS & H1 & H2 & H3) HP. rewrite Forall_forall in HD. unfold flip_hidden_coins. eapply returns_bind.
  - apply returns_map_m with (P := fun _ r => P (snd r)). intros [[s y0] n] Hin. unfold zip3 in Hin. pose proof (in_combine_r _ _ _ _ Hin) as HN. apply in_combine_l in Hin. apply in_combine_l in Hin.
    apply (normops_in vol h) in HN as (dt & yy & x0 & x1 & Hd & Hyy & ->); auto. rewrite Forall_forall in HP.
    eapply returns_bind; [apply HC; auto|]. intros r Hr. apply returns_ret. exact Hr.
  - intros rs Hrs. unfold collect_coins. assert (L : length rs = length z).
    { apply Forall2_length in Hrs. rewrite <- Hrs. unfold zip3. rewrite !combine_length, (normops_len vol h (length z)) by auto. lia. }
    destruct rs as [|r rs]; [apply returns_raise|]. apply returns_ret. cbn [snd]. rewrite map_length. split; [exact L|].
    revert Hrs. clear. generalize (r :: rs), (zip3 z (a_y h) (sw_normops vol h)). intros l m H. induction H; simpl; constructor; auto.
Qed.
Lemma section_ok precoin pr maxf zn hn zp hp : fits dim zn hn -> fits dim zp hp -> Forall P zn -> Forall P zp ->
  returns_if G (update_hidden_section fuel mp maxp vol disc bounds loglik batch precoin pr maxf zn hn zp hp)
    (fun r => let '(acc, z, h) := r in h = (if (acc : bool) then hp else hn) /\ length z = length (if acc then zp else zn) /\ Forall P z).
Proof.
  intros F1 F2 P1 P2. rewrite hidden_section_old.
  set (flip := fun (first : bool) (s : partition * partition) => _). cbv zeta.
  assert (HR : forall w1 w2 : R, returns_if G (do r <- sample_twocoin flip w1 w2 pr zn maxf (zp, zn); let '((accept, _, z_acc), _) := r in ret (accept, z_acc, if (accept : bool) then hp else hn)) (fun r => let '(acc, z, h) := r in h = (if (acc : bool) then hp else hn) /\ length z = length (if acc then zp else zn) /\ Forall P z)).
  { intros w1 w2. eapply returns_bind.
    - apply twocoin_inv with (I := fun s => length (fst s) = length zp /\ Forall P (fst s) /\ length (snd s) = length zn /\ Forall P (snd s))
        (QT := fun z => length z = length zp /\ Forall P z) (QF := fun z => length z = length zn /\ Forall P z); [|auto|simpl; auto].
      intros [|] [sp sn] (I1 & I2 & I3 & I4); cbn [fst snd] in *; unfold flip; cbn [fst snd].
      + eapply returns_bind; [apply flip_hidden_ok; [|exact I2]; unfold fits in *; rewrite I1; exact F2|]. intros r [L HPr]. apply returns_ret. cbn [fst snd]. rewrite I1 in L. auto.
      + eapply returns_bind; [apply flip_hidden_ok; [|exact I4]; unfold fits in *; rewrite I3; exact F1|]. intros r [L HPr]. apply returns_ret. cbn [fst snd]. rewrite I3 in L. auto.
    - intros [[[acc e] a] s] H. apply returns_ret. destruct acc; tauto. }
  eapply returns_bind; [apply returns_triv|]. intros wn _. eapply returns_bind; [apply returns_triv|]. intros wp _.
  destruct precoin; [|apply HR]. eapply returns_bind; [apply returns_triv|]. intros b _. destruct b; [apply HR|]. apply returns_ret. auto.
Qed.
End Sections.

Lemma run_jobs_ok {A Q} (G : oracle -> Prop) (omes : nat -> oracle) (f : Q -> M A) (R : Q -> A -> Prop) : (forall i, valid (omes i) /\ G (omes i)) -> forall l i acc, run_jobs i omes (map f l) = Ok acc ->
  (forall q, In q l -> returns_if G (f q) (R q)) -> Forall2 R l acc.
Proof.
  intros HO. induction l as [|j jobs IH]; intros i l H HQ; simpl in H; [inversion H; constructor|].
  pose proof (HQ j (or_introl eq_refl) (omes i) 0%nat (proj1 (HO i)) (proj2 (HO i))) as Hj. cbv beta in Hj.
  destruct (fst (f j (omes i) 0%nat)) as [a| |] eqn:E; simpl in H; try discriminate. destruct (run_jobs (S i) omes (map f jobs)) as [l'| |] eqn:E2; simpl in H; try discriminate.
  inversion H; subst. constructor; [exact Hj|]. eapply IH; eauto. intros; apply HQ; right; auto.
Qed.

Inductive samecuts : list seg -> list seg -> Prop :=
| sc_last s1 s2 : samecuts [s1] [s2]
| sc_cons s1 s2 r1 r2 : snd s1 = snd s2 -> samecuts r1 r2 -> samecuts (s1 :: r1) (s2 :: r2).
Definition chosen {Z} (q : list Z * list Z * anch R * anch R) (a : bool * list Z * anch R) : Prop :=
  let '(zn, zp, hn, hp) := q in let '(b, z, h) := a in h = (if b : bool then hp else hn) /\ length z = length (if b then zp else zn).
Notation shifted := (fun q : ent * seg => shift_by (tm (fst q)) (fst q :: fst (snd q) ++ [snd (snd q)])).
Lemma mix_sections {Z} r1 r2 : samecuts r1 r2 -> forall e1 e2 (z1 z2 : list (list Z)) acc, tm e1 = tm e2 ->
  Forall2 (fun zz s => length zz = (length (fst s) + 1)%nat) z1 r1 -> Forall2 (fun zz s => length zz = (length (fst s) + 1)%nat) z2 r2 ->
  Forall2 chosen (zip4 z1 z2 (hparts e1 r1) (hparts e2 r2)) acc ->
  exists p ps, map snd acc = map shifted (p :: ps) /\ chain_segs e1 (p :: ps) /\ mix r1 r2 (map snd (p :: ps)) /\
    ((fst p = e1 /\ snd p = hd ([], e1) r1) \/ (fst p = e2 /\ snd p = hd ([], e2) r2)) /\
    length (concat (map (fun q => snd (fst q)) acc)) = length (flat (map snd (p :: ps))).
Proof.
  induction 1 as [s1 s2|s1 s2 r1 r2 Hm H IH]; intros e1 e2 z1 z2 acc He F1 F2 HA.
  - inversion F1 as [|zz1 ? t1 ? L1 T1]; subst. inversion T1; subst. inversion F2 as [|zz2 ? t2 ? L2 T2]; subst. inversion T2; subst.
    unfold zip4 in HA. cbn [hparts combine] in HA. inversion HA as [|? [[b z] h] ? t3 C1 T3]; subst. inversion T3; subst. destruct C1 as [Eh El].
    exists (if b then (e2, s2) else (e1, s1)), []. repeat split.
    + simpl. rewrite Eh. destruct b; reflexivity.
    + destruct b; simpl; auto.
    + simpl. apply mix_last. destruct b; simpl; auto.
    + destruct b; simpl; auto.
    + cbn [map concat fst snd]. rewrite app_nil_r, El. unfold flat. cbn [map concat]. rewrite app_nil_r. destruct b; cbn [snd]; rewrite app_length; simpl; lia.
  - inversion F1 as [|zz1 ? t1 ? L1 T1]; subst. inversion F2 as [|zz2 ? t2 ? L2 T2]; subst.
    unfold zip4 in HA. cbn [hparts combine] in HA. inversion HA as [|? [[b z] h] ? acc' C1 T3]; subst. destruct C1 as [Eh El].
    destruct (IH (snd s1) (snd s2) t1 t2 acc' ltac:(congruence) T1 T2 T3) as (p & ps & I1 & I2 & I3 & I4 & I5).
    exists (if b then (e2, s2) else (e1, s1)), (p :: ps). repeat split.
    + cbn [map]. cbn [map] in I1. rewrite I1. f_equal. simpl. rewrite Eh. destruct b; reflexivity.
    + destruct b; simpl; auto.
    + simpl in I2. destruct b; simpl; [rewrite <- Hm|]; tauto.
    + simpl in I2. tauto.
    + change (map snd ((if b then (e2, s2) else (e1, s1)) :: p :: ps)) with (snd (if b then (e2, s2) else (e1, s1)) :: map snd (p :: ps)). apply mix_cons; auto. destruct b; simpl; auto.
    + destruct b; simpl; auto.
    + change (map (fun q : bool * list Z * anch R => snd (fst q)) ((b, z, h) :: acc')) with (z :: map (fun q : bool * list Z * anch R => snd (fst q)) acc').
      change (map snd ((if b then (e2, s2) else (e1, s1)) :: p :: ps)) with (snd (if b then (e2, s2) else (e1, s1)) :: map snd (p :: ps)).
      cbn [concat]. rewrite app_length, I5, El. destruct b; cbn [snd]; [destruct s2 as [B m]|destruct s1 as [B m]]; rewrite flat_cons, app_length; cbn [length fst] in *; lia.
Qed.
Lemma hparts_fits dim r : forall e (z : list (list M_skel.skel)) k zz hh, Forall (fun x => (st x < dim)%nat) (e :: flat r) -> StronglySorted Rlt (map tm (e :: flat r)) ->
  Forall2 (fun zz (s : seg) => length zz = (length (fst s) + 1)%nat) z r -> nth_error z k = Some zz -> nth_error (hparts e r) k = Some hh -> fits dim zz hh.
Proof.
  induction r as [|[B m] r IH]; intros e z k zz hh HD HS HF Hz Hh; [destruct k; discriminate|]. inversion HF as [|z0 ? z' ? L T]; subst. destruct k as [|k].
  - simpl in Hz, Hh. inversion Hz; inversion Hh; subst. unfold fits, shift_by. cbn [a_t a_y a_v fst snd]. rewrite !map_length. cbn [length fst] in *. rewrite app_length. cbn [length].
    split; [rewrite flat_cons in HD; apply Forall_forall; intros x Hx; apply in_map_iff in Hx as (y & <- & Hy); rewrite Forall_forall in HD; apply HD;
            destruct Hy as [->|Hy]; [left; auto|right]; apply in_app_or in Hy as [Hy|[->|[]]]; apply in_or_app; simpl; auto|].
    split; [|lia]. rewrite flat_cons in HS. replace (e :: B ++ m :: flat r) with ((e :: B ++ [m]) ++ flat r) in HS by (simpl; rewrite <- app_assoc; reflexivity).
    revert HS. generalize (e :: B ++ [m]). generalize (tm e). clear. intros c l. induction l as [|a l IH]; intros HS; [constructor|]. simpl in *. inversion HS as [|? ? H1 H2]; subst. constructor; auto.
    apply Forall_forall. intros x Hx. apply in_map_iff in Hx as (y & <- & Hy). rewrite Forall_forall in H2. assert (tm a < tm y) by (apply H2; apply in_map; apply in_or_app; auto). lra.
  - simpl in Hz, Hh. eapply (IH m z' k); eauto; [|apply (sorted_tail e B m r HS)]. rewrite flat_cons in HD. inversion HD as [|? ? _ HD']; subst. apply Forall_app in HD' as [_ HD']. exact HD'.
Qed.
Lemma hparts_length e r : length (hparts e r) = length r.
Proof. revert e; induction r as [|s r IH]; intros e; simpl; auto. Qed.
Lemma zparts_Forall {A Z} (Q : Z -> Prop) (segs : list (list A * A)) : forall z, Forall Q z -> Forall (Forall Q) (zparts z segs).
Proof.
  induction segs as [|s r IH]; intros z HZ; simpl; constructor.
  - rewrite Forall_forall in *. intros x Hx. apply HZ. rewrite <- (firstn_skipn (length (fst s) + 1) z). apply in_or_app; auto.
  - apply IH. rewrite Forall_forall in *. intros x Hx. apply HZ. rewrite <- (firstn_skipn (length (fst s) + 1) z). apply in_or_app; auto.
Qed.
Lemma combine_nth_in {A B} (l : list A) (m : list B) a b : In (a, b) (combine l m) -> exists k, nth_error l k = Some a /\ nth_error m k = Some b.
Proof. apply in_combine_iff. Qed.
Lemma nth_combine_some {A B} (l : list A) (m : list B) k x : nth_error (combine l m) k = Some x -> nth_error l k = Some (fst x) /\ nth_error m k = Some (snd x).
Proof.
  revert l m; induction k as [|k IH]; intros [|a l] [|b m] H; simpl in H; try discriminate.
  - inversion H; auto.
  - apply IH; auto.
Qed.
Lemma zip4_nth {A B C D} (l : list A) (m : list B) (n : list C) (q : list D) x : In x (zip4 l m n q) -> exists k, nth_error l k = Some (fst (fst (fst x))) /\ nth_error m k = Some (snd (fst (fst x))) /\ nth_error n k = Some (snd (fst x)) /\ nth_error q k = Some (snd x).
Proof.
  intros H. destruct (In_nth_error _ _ H) as [k Hk]. exists k. unfold zip4 in Hk. apply nth_combine_some in Hk as [H1 H2]. apply nth_combine_some in H1 as [H1 H3]. apply nth_combine_some in H1 as [H1 H4]. auto.
Qed.
Lemma samecuts_intro r1 : forall r2, r1 <> [] -> r2 <> [] -> map (fun s : seg => snd s) (removelast r1) = map (fun s : seg => snd s) (removelast r2) -> samecuts r1 r2.
Proof.
  induction r1 as [|s1 r1 IH]; intros [|s2 r2] N1 N2 E; try congruence. destruct r1 as [|s1' r1], r2 as [|s2' r2].
  - constructor.
  - simpl in E. destruct r2; discriminate.
  - simpl in E. destruct r1; discriminate.
  - rewrite !removelast_cons in E. cbn [map] in E. inversion E. constructor; auto. apply IH; auto; discriminate.
Qed.
