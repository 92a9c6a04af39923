(** Accepting and rejecting sections: mixing two augmentations that agree at the cut times. *)
From Coq Require Import Reals List Bool Arith ZArith Lia Lra Sorted.
From Verif Require Import Base Np M_mjp M_sw SpecMjp SpecSw L_list L_path L_path2 L_prop L_adapt2 L_sw L_sw2 L_sw3.
Import ListNotations.
Local Open Scope R_scope.
Notation seg := (list ent * ent)%type.

Inductive mix : list seg -> list seg -> list seg -> Prop :=
| mix_last s1 s2 s : s = s1 \/ s = s2 -> mix [s1] [s2] [s]
| mix_cons s1 s2 s r1 r2 r : s = s1 \/ s = s2 -> snd s1 = snd s2 -> mix r1 r2 r -> mix (s1 :: r1) (s2 :: r2) (s :: r).

Lemma mix_in r1 r2 r : mix r1 r2 r -> forall x, In x (flat r) -> In x (flat r1) \/ In x (flat r2).
Proof.
  induction 1 as [s1 s2 s Hs|s1 s2 s r1 r2 r Hs Hm H IH]; intros x Hx.
  - destruct Hs as [->| ->]; auto.
  - destruct s as [B m], s1 as [B1 m1], s2 as [B2 m2]. cbn [snd] in Hm. rewrite flat_cons in Hx. rewrite !flat_cons. rewrite !in_app_iff. simpl.
    apply in_app_or in Hx as [Hx|[Hx|Hx]].
    + destruct Hs as [Hs|Hs]; inversion Hs; subst; auto.
    + destruct Hs as [Hs|Hs]; inversion Hs; subst; auto.
    + destruct (IH x Hx); auto.
Qed.
Lemma adj_seg (e : ent) B m r a b : adj a b (e :: B ++ [m]) -> adj a b (e :: flat ((B, m) :: r)).
Proof.
  intros H. rewrite flat_cons. replace (e :: B ++ m :: flat r) with ((e :: B ++ [m]) ++ flat r) by (simpl; rewrite <- app_assoc; reflexivity). apply adj_app_l; auto.
Qed.
Lemma adj_rest (e : ent) B m r a b : adj a b (m :: flat r) -> adj a b (e :: flat ((B, m) :: r)).
Proof. intros H. rewrite flat_cons. change (e :: B ++ m :: flat r) with ((e :: B) ++ m :: flat r). apply adj_app_r; auto. Qed.
Lemma adj_inv (e : ent) B m r a b : adj a b (e :: flat ((B, m) :: r)) -> adj a b (e :: B ++ [m]) \/ adj a b (m :: flat r).
Proof. rewrite flat_cons. change (e :: B ++ m :: flat r) with ((e :: B) ++ m :: flat r). intros H. apply adj_app_inv in H. exact H. Qed.
Lemma mix_adj_same r1 r2 r : mix r1 r2 r -> forall e a b, adj a b (e :: flat r) -> adj a b (e :: flat r1) \/ adj a b (e :: flat r2).
Proof.
  induction 1 as [s1 s2 s Hs|s1 s2 s r1 r2 r Hs Hm H IH]; intros e a b Hx.
  - destruct Hs as [->| ->]; auto.
  - destruct s as [B m], s1 as [B1 m1], s2 as [B2 m2]. cbn [snd] in Hm. subst m2.
    apply adj_inv in Hx as [Hx|Hx].
    + destruct Hs as [Hs|Hs]; inversion Hs; subst; [left|right]; apply adj_seg; auto.
    + assert (m = m1) by (destruct Hs as [Hs|Hs]; inversion Hs; auto). subst m1.
      destruct (IH m a b Hx); [left|right]; apply adj_rest; auto.
Qed.
(** the first entry comes with the first section *)
Definition mix0 (e1 : ent) r1 (e2 : ent) r2 (e : ent) (r : list seg) : Prop :=
  mix r1 r2 r /\ ((e = e1 /\ hd ([], e) r = hd ([], e) r1) \/ (e = e2 /\ hd ([], e) r = hd ([], e) r2)).
Lemma mix0_adj e1 r1 e2 r2 e r : mix0 e1 r1 e2 r2 e r -> forall a b, adj a b (e :: flat r) -> adj a b (e1 :: flat r1) \/ adj a b (e2 :: flat r2).
Proof.
  intros [H Hd] a b Hx. destruct H as [s1 s2 s Hs|s1 s2 s r1 r2 r Hs Hm H]; cbn [hd] in Hd.
  - destruct Hd as [[-> ->]|[-> ->]]; auto.
  - destruct s as [B m], s1 as [B1 m1], s2 as [B2 m2]. cbn [snd] in Hm. subst m2. apply adj_inv in Hx as [Hx|Hx].
    + destruct Hd as [[-> Hd]|[-> Hd]]; inversion Hd; subst; [left|right]; apply adj_seg; auto.
    + assert (m = m1) by (destruct Hs as [Hs|Hs]; inversion Hs; auto). subst m1.
      destruct (mix_adj_same _ _ _ H m a b Hx); [left|right]; apply adj_rest; auto.
Qed.
Lemma mix0_in e1 r1 e2 r2 e r : mix0 e1 r1 e2 r2 e r -> forall x, In x (e :: flat r) -> In x (e1 :: flat r1) \/ In x (e2 :: flat r2).
Proof.
  intros [H Hd] x [<-|Hx].
  - destruct Hd as [[-> _]|[-> _]]; [left|right]; left; auto.
  - destruct (mix_in _ _ _ H x Hx); [left|right]; right; auto.
Qed.
(** an observation in both is in the mixture *)
Lemma seg_le (e : ent) B m r x : StronglySorted Rlt (map tm (e :: flat ((B, m) :: r))) -> In x (e :: flat ((B, m) :: r)) ->
  (tm x <= tm m /\ In x (e :: B ++ [m])) \/ (tm m < tm x /\ In x (flat r)).
Proof.
  rewrite flat_cons. replace (e :: B ++ m :: flat r) with ((e :: B ++ [m]) ++ flat r) by (simpl; rewrite <- app_assoc; reflexivity).
  intros HS Hx. apply in_app_or in Hx as [Hx|Hx]; [left|right]; (split; [|auto]).
  - assert (HS' : StronglySorted Rlt (map tm (e :: B ++ [m]))).
    { rewrite map_app in HS. revert HS. generalize (map tm (e :: B ++ [m])). intros l. induction l as [|c l IH]; intros HS; [constructor|]. simpl in HS. inversion HS as [|? ? H1 H2]; subst.
      constructor; auto. rewrite Forall_forall in *. intros; apply H2. apply in_or_app; auto. }
    replace (tm m) with (last (map tm (e :: B ++ [m])) 0); [apply sorted_last_max; auto; apply in_map; auto|]. change (e :: B ++ [m]) with ((e :: B) ++ [m]). rewrite map_app. simpl map at 2. apply last_last.
  - change (e :: B ++ [m]) with ((e :: B) ++ [m]) in HS. rewrite <- app_assoc, map_app in HS. simpl in HS. clear -HS Hx.
    revert HS. generalize (map tm B). generalize (tm e). intros c l. change (StronglySorted Rlt ((c :: l) ++ tm m :: map tm (flat r)) -> tm m < tm x). generalize (c :: l). clear c l. intros l.
    induction l as [|c l IH]; intros HS; simpl in HS; inversion HS as [|? ? H1 H2]; subst; auto. rewrite Forall_forall in H2. apply H2. apply in_map; auto.
Qed.
Definition has (u v : R) (l : list ent) : Prop := exists x, In x l /\ tm x = u /\ vl x = v.
Lemma sorted_tail (e : ent) B m r : StronglySorted Rlt (map tm (e :: flat ((B, m) :: r))) -> StronglySorted Rlt (map tm (m :: flat r)).
Proof.
  rewrite flat_cons. change (e :: B ++ m :: flat r) with ((e :: B) ++ m :: flat r). rewrite map_app. generalize (map tm (e :: B)). intros l. induction l as [|c l IH]; intros HS; auto.
  simpl in HS. inversion HS; subst; auto.
Qed.
Lemma mix_has r1 r2 r : mix r1 r2 r -> forall e1 e2 u v, StronglySorted Rlt (map tm (e1 :: flat r1)) -> StronglySorted Rlt (map tm (e2 :: flat r2)) ->
  has u v (e1 :: flat r1) -> has u v (e2 :: flat r2) -> (has u v (flat r) \/ (u = tm e1 /\ u = tm e2)) \/ u = tm e1 \/ u = tm e2.
Proof.
  induction 1 as [s1 s2 s Hs|s1 s2 s r1 r2 r Hs Hm H IH]; intros e1 e2 u v S1 S2 (x1 & I1 & T1 & V1) (x2 & I2 & T2 & V2).
  - destruct I1 as [<-|I1]; [right; left; auto|]. destruct I2 as [<-|I2]; [right; right; auto|]. left; left.
    destruct Hs as [->| ->]; [exists x1|exists x2]; auto.
  - destruct s as [B m], s1 as [B1 m1], s2 as [B2 m2]. cbn [snd] in Hm. subst m2.
    destruct (seg_le _ _ _ _ _ S1 I1) as [[L1 J1]|[L1 J1]]; destruct (seg_le _ _ _ _ _ S2 I2) as [[L2 J2]|[L2 J2]]; try lra.
    + destruct J1 as [<-|J1]; [right; left; auto|]. destruct J2 as [<-|J2]; [right; right; auto|]. left; left.
      destruct Hs as [Hs|Hs]; inversion Hs; subst B m; [exists x1|exists x2]; (split; [|auto]); rewrite flat_cons; rewrite in_app_iff in *; simpl in *; tauto.
    + assert (m = m1) by (destruct Hs as [Hs|Hs]; inversion Hs; auto). subst m1.
      destruct (IH m m u v (sorted_tail _ _ _ _ S1) (sorted_tail _ _ _ _ S2)) as [[(x & Hx & E1 & E2)|[Q _]]|[Q|Q]]; try lra.
      * exists x1. split; [right; auto|auto].
      * exists x2. split; [right; auto|auto].
      * left; left. exists x. split; auto. rewrite flat_cons, in_app_iff. right; right; auto.
Qed.

(** ** both augmentations have the same blocks *)
Lemma sorted_ext (l m : list R) : StronglySorted Rlt l -> StronglySorted Rlt m -> (forall x, In x l <-> In x m) -> l = m.
Proof.
  revert m; induction l as [|a l IH]; intros m Hl Hm H.
  - destruct m as [|b m]; [reflexivity|]. destruct (proj2 (H b) (or_introl eq_refl)).
  - destruct m as [|b m]; [destruct (proj1 (H a) (or_introl eq_refl))|]. inversion Hl as [|? ? L1 L2]; subst. inversion Hm as [|? ? M1 M2]; subst. rewrite Forall_forall in L2, M2.
    assert (E : a = b). { destruct (proj1 (H a) (or_introl eq_refl)) as [|Ha]; [congruence|]. destruct (proj2 (H b) (or_introl eq_refl)) as [|Hb]; [congruence|]. specialize (L2 b Hb). specialize (M2 a Ha). lra. }
    subst b. f_equal. apply IH; auto. intros x. split; intros Hx.
    + destruct (proj1 (H x) (or_intror Hx)) as [<-|]; auto. specialize (L2 _ Hx). lra.
    + destruct (proj2 (H x) (or_intror Hx)) as [<-|]; auto. specialize (M2 _ Hx). lra.
Qed.
Lemma removelast_cons {A} (a b : A) l : removelast (a :: b :: l) = a :: removelast (b :: l).
Proof. reflexivity. Qed.
Lemma in_flat_mark (segs : list seg) s : In s segs -> In (snd s) (flat segs).
Proof. intros H. unfold flat. apply in_concat. exists (fst s ++ [snd s]). split; [apply in_map_iff; eauto|]. apply in_or_app; right; left; auto. Qed.
Lemma in_removelast {A} (x : A) l : In x (removelast l) -> In x l.
Proof. induction l as [|a l IH]; simpl; auto. destruct l; [tauto|]. intros [<-|H]; auto. Qed.
Lemma marks_sorted (e : ent) segs : StronglySorted Rlt (map tm (e :: flat segs)) -> StronglySorted Rlt (map (fun s => tm (snd s)) segs).
Proof.
  revert e; induction segs as [|[B m] r IH]; intros e HS; [constructor|]. pose proof (sorted_tail _ _ _ _ HS) as HT. simpl. constructor; [apply (IH m HT)|].
  apply Forall_forall. intros u Hu. apply in_map_iff in Hu as (s & <- & Hs). simpl in HT. inversion HT as [|? ? H1 H2]; subst. rewrite Forall_forall in H2. apply H2. apply in_map. apply in_flat_mark; auto.
Qed.
Lemma removelast_sorted l : StronglySorted Rlt l -> StronglySorted Rlt (removelast l).
Proof.
  induction 1 as [|a l H IH F]; [constructor|]. simpl. destruct l as [|b l]; [constructor|]. constructor; auto. rewrite Forall_forall in *. intros x Hx. apply F. apply in_removelast; auto.
Qed.
Lemma isin_true u (l : list R) : np_isin u l = true <-> In u l.
Proof. unfold np_isin. rewrite existsb_exists. split; [intros (x & H & E); apply Reqb_true in E; subst; auto|intros H; exists u; split; auto; apply Reqb_true; auto]. Qed.
(** cut times: inside, and present in the entries *)
Lemma marks_are (e : ent) segs cond : segs <> [] -> marked (in_cond cond) segs -> StronglySorted Rlt (map tm (e :: flat segs)) -> StronglySorted Rlt cond ->
  (forall c, In c cond -> In c (map tm (e :: flat segs)) /\ tm e < c < tm (last (e :: flat segs) (0, 0%nat, 0))) ->
  map (fun s => tm (snd s)) (removelast segs) = cond.
Proof.
  intros Hn [M1 M2] HS HC HI. apply sorted_ext; auto.
  - rewrite <- removelast_map. apply removelast_sorted. eapply marks_sorted; eauto.
  - intros c. split.
    + intros Hc. apply in_map_iff in Hc as (s & <- & Hs). apply M2 in Hs. apply isin_true. exact Hs.
    + intros Hc. destruct (HI c Hc) as [Hin [B1 B2]]. apply in_map_iff in Hin as (x & <- & [<-|Hx]); [lra|].
      unfold flat in Hx. apply in_concat in Hx as (l & Hl & Hx). apply in_map_iff in Hl as (s & <- & Hs). apply in_app_or in Hx as [Hx|[<-|[]]].
      * specialize (M1 s x Hs Hx). unfold in_cond in M1. apply isin_true in Hc. congruence.
      * apply in_map_iff. exists s. split; auto. destruct segs as [|s0 r]; [congruence|].
        replace (last (e :: flat (s0 :: r)) (0, 0%nat, 0)) with (snd (last (s0 :: r) s0)) in B2.
        -- destruct (exists_last (l := s0 :: r) ltac:(discriminate)) as (q & z & Eq). rewrite Eq in *. rewrite removelast_last. rewrite last_last in B2. apply in_app_or in Hs as [Hs|[<-|[]]]; auto. lra.
        -- rewrite <- (last_flat s0 r (0, 0%nat, 0)). pose proof (flat_nonempty (s0 :: r) ltac:(discriminate)) as N. destruct (flat (s0 :: r)); [congruence|reflexivity].
Qed.
Lemma good_fun dim t vt K : good dim t vt K -> forall e e', In e K -> In e' K -> tm e = tm e' -> e = e'.
Proof.
  intros HG e e' H1 H2 E. pose proof (good_sorted dim t vt K HG) as HS. clear HG. induction K as [|k K IH]; [destruct H1|]. simpl in HS. inversion HS as [|? ? Q1 Q2]; subst. rewrite Forall_forall in Q2.
  destruct H1 as [<-|H1], H2 as [<-|H2]; auto.
  - specialize (Q2 _ (in_map tm _ _ H2)). lra.
  - specialize (Q2 _ (in_map tm _ _ H1)). lra.
Qed.
(** the mixture is again an augmentation *)
Section Mix.
Context (dim : nat) (t vt : list R) (e1 e2 e : ent) (r1 r2 r : list seg).
Hypothesis HG1 : good dim t vt (e1 :: flat r1).
Hypothesis HG2 : good dim t vt (e2 :: flat r2).
Hypothesis HM : mix0 e1 r1 e2 r2 e r.
Hypothesis HV : forall v, In (0, v) (combine t vt) -> vl e1 = v /\ vl e2 = v.
Lemma first_zero (k : ent) K : good dim t vt (k :: K) -> tm k = 0.
Proof. intros H. destruct (g_first _ _ _ _ H) as (x & K' & E & _ & Z). inversion E; subst; auto. Qed.
Lemma mix_last_in : mix r1 r2 r -> last (flat r) (0, 0%nat, 0) = last (flat r1) (0, 0%nat, 0) \/ last (flat r) (0, 0%nat, 0) = last (flat r2) (0, 0%nat, 0).
Proof.
  clear. induction 1 as [s1 s2 s Hs|s1 s2 s r1 r2 r Hs Hm H IH].
  - destruct Hs as [->| ->]; auto.
  - assert (G : forall (s : seg) q, q <> [] -> last (flat (s :: q)) (0, 0%nat, 0) = last (flat q) (0, 0%nat, 0)).
    { intros [B m] q Hq. rewrite flat_cons. pose proof (flat_nonempty q Hq) as N. destruct (flat q) as [|a l]; [congruence|].
      clear. induction B as [|b B IHB]; [reflexivity|]. change (last (b :: (B ++ m :: a :: l)) (0, 0%nat, 0) = last (a :: l) (0, 0%nat, 0)). rewrite <- IHB. destruct B; reflexivity. }
    assert (N1 : r1 <> []) by (inversion H; discriminate). assert (N2 : r2 <> []) by (inversion H; discriminate). assert (N : r <> []) by (inversion H; discriminate).
    rewrite !G by auto. exact IH.
Qed.
Lemma last_cons_ne {A} (a : A) l d : l <> [] -> last (a :: l) d = last l d.
Proof. destruct l; [congruence|reflexivity]. Qed.
Lemma mix_nonempty : mix r1 r2 r -> r1 <> [] /\ r2 <> [] /\ r <> [].
Proof. clear. intros H; inversion H; repeat split; discriminate. Qed.
Lemma mix_good : good dim t vt (e :: flat r).
Proof.
  destruct (mix_nonempty (proj1 HM)) as (N1 & N2 & N). pose proof (flat_nonempty _ N1) as F1. pose proof (flat_nonempty _ N2) as F2. pose proof (flat_nonempty _ N) as F.
  pose proof (first_zero _ _ HG1) as Z1. pose proof (first_zero _ _ HG2) as Z2. constructor.
  - intros a b H. destruct (mix0_adj _ _ _ _ _ _ HM a b H) as [H'|H']; [apply (g_adj _ _ _ _ HG1 a b H')|apply (g_adj _ _ _ _ HG2 a b H')].
  - exists e, (flat r). split; [reflexivity|]. split; auto. destruct HM as [_ [[-> _]|[-> _]]]; auto.
  - rewrite last_cons_ne by auto. destruct (mix_last_in (proj1 HM)) as [->| ->].
    + rewrite <- (last_cons_ne e1) by auto. apply (g_last _ _ _ _ HG1).
    + rewrite <- (last_cons_ne e2) by auto. apply (g_last _ _ _ _ HG2).
  - intros u v H. destruct (mix_has _ _ _ (proj1 HM) e1 e2 u v (good_sorted _ _ _ _ HG1) (good_sorted _ _ _ _ HG2) (g_data _ _ _ _ HG1 u v H) (g_data _ _ _ _ HG2 u v H)) as [[(x & Hx & E1 & E2)|Q]|Q].
    + exists x. split; [right; auto|auto].
    + assert (u = 0) by lra. subst u. exists e. destruct (HV v H) as [V1 V2]. split; [left; auto|]. destruct HM as [_ [[-> _]|[-> _]]]; auto.
    + assert (u = 0) by lra. subst u. exists e. destruct (HV v H) as [V1 V2]. split; [left; auto|]. destruct HM as [_ [[-> _]|[-> _]]]; auto.
  - apply Forall_forall. intros x Hx. destruct (mix0_in _ _ _ _ _ _ HM x Hx) as [H'|H'].
    + pose proof (g_dim _ _ _ _ HG1) as D. rewrite Forall_forall in D. auto.
    + pose proof (g_dim _ _ _ _ HG2) as D. rewrite Forall_forall in D. auto.
Qed.
Lemma mix_exact : exact_virt t (e1 :: flat r1) -> exact_virt t (e2 :: flat r2) -> exact_virt t (e :: flat r).
Proof. intros X1 X2 a b H Ht. destruct (mix0_adj _ _ _ _ _ _ HM a b H) as [H'|H']; [apply (X1 a b)|apply (X2 a b)]; auto. Qed.
End Mix.
