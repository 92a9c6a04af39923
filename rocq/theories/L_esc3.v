(** The law of one attempt of propose_layerbr_edge, given the values it has drawn. *)
From Coquelicot Require Import Hierarchy RInt.
From Coq Require Import Reals List Bool Arith Lia Lra.
From Verif Require Import Base Np Rng L_rng M_mjp M_hit M_path SpecHit SpecLaw SpecEsc L_heat3 L_heat4 L_heat5 L_heat6 L_law L_law2 L_law3 L_law4 L_law5 L_law6 L_law7 L_esc L_esc2.
Import ListNotations.
Local Open Scope R_scope.

Lemma answer_any : forall (m : M bool) c d h, chance m (fun r => r) c -> chance m negb d -> average m h (c * h true + d * h false).
Proof.
  intros m c d h C D. apply (average_ext _ m (fun r => h true * ind r + h false * ind (negb r))).
  - intros [|]; unfold ind; cbn; ring.
  - apply (average_eq _ _ _ (h true * c + h false * d)); [ring|]. apply average_plus; apply average_scal; assumption.
Qed.
Fixpoint prod2 (h : list bool) (r : list R) : R := match h, r with b :: h', x :: r' => (if b then x else 1 - x) * prod2 h' r' | _, _ => 1 end.
Lemma flags_law : forall A (f : nat -> A -> M bool) segs rs, Forall2 (fun s r => settled (fun fuel => f fuel s) r) segs rs -> forall h, length h = length segs ->
  exists c, (forall fuel, chance (map_m (f fuel) segs) (fun e => bools_eqb e h) (c fuel)) /\ Un_cv c (prod2 h rs).
Proof.
  intros A f segs rs HF. induction HF as [|s r segs rs (c0 & d0 & H0 & C0 & D0) HF IH]; intros [|b h] HL; try discriminate.
  - exists (fun _ => 1). split; [|apply cv_const']. intros fuel. exact (average_ret _ [] (fun e => ind (bools_eqb e []))).
  - destruct (IH h ltac:(cbn in HL; lia)) as (c & H & C). exists (fun fuel => (if b then c0 fuel else d0 fuel) * c fuel). split.
    + intros fuel. cbn [map_m]. destruct (H0 fuel) as [Y N].
      apply (average_bind0 _ _ _ _ _ (fun x => ind (Bool.eqb x b) * c fuel)).
      * apply (average_eq _ _ _ (c0 fuel * (ind (Bool.eqb true b) * c fuel) + d0 fuel * (ind (Bool.eqb false b) * c fuel))); [destruct b; unfold ind; cbn; ring|].
        apply (answer_any _ (c0 fuel) (d0 fuel) (fun x => ind (Bool.eqb x b) * c fuel)); assumption.
      * intros x. apply (average_map _ _ (map_m (f fuel) segs) (fun bs => x :: bs)).
        apply (average_ext _ _ (fun bs => ind (Bool.eqb x b) * ind (bools_eqb bs h))); [intros bs; cbn [bools_eqb]; destruct (Bool.eqb x b); unfold ind; cbn; ring|].
        apply average_scal. apply H.
    + cbn [prod2]. apply (CV_mult (fun fuel => if b then c0 fuel else d0 fuel) c); [destruct b; assumption|exact C].
Qed.
Lemma quiet_law : forall A (f : nat -> A -> M bool) segs qs, Forall2 (fun s q => settled (fun fuel => f fuel s) q) segs qs ->
  exists c, (forall fuel, chance (map_m (f fuel) segs) (fun e => negb (existsb (fun b => b) e)) (c fuel)) /\ Un_cv c (prod2 (map (fun _ => false) qs) qs).
Proof.
  intros A f segs qs HF. induction HF as [|s q segs qs (c0 & d0 & H0 & C0 & D0) HF IH].
  - exists (fun _ => 1). split; [|apply cv_const']. intros fuel. exact (average_ret _ [] (fun e => ind (negb (existsb (fun b => b) e)))).
  - destruct IH as (c & H & C). exists (fun fuel => d0 fuel * c fuel). split.
    + intros fuel. cbn [map_m]. destruct (H0 fuel) as [Y N].
      apply (average_bind0 _ _ _ _ _ (fun x => ind (negb x) * c fuel)).
      * apply (average_eq _ _ _ (c0 fuel * (ind (negb true) * c fuel) + d0 fuel * (ind (negb false) * c fuel))); [unfold ind; cbn; ring|].
        apply (answer_any _ (c0 fuel) (d0 fuel) (fun x => ind (negb x) * c fuel)); assumption.
      * intros x. apply (average_map _ _ (map_m (f fuel) segs) (fun bs => x :: bs)).
        apply (average_ext _ _ (fun bs => ind (negb x) * ind (negb (existsb (fun b => b) bs)))); [intros bs; cbn [existsb]; destruct x; unfold ind; cbn; ring|].
        apply average_scal. apply H.
    + cbn [map prod2]. apply (CV_mult d0 c); assumption.
Qed.

Definition esc_at (lb : R) (ub : option R) (fuel : nat) (s : R * R * R) : M bool := let '(dt, x0, x1) := s in sample_bessel3br_esc fuel dt x0 x1 lb ub None.
Lemma reaches_settled : forall s K p, segment_ok s -> reaches s K p -> settled (fun fuel => esc_at K None fuel s) p.
Proof.
  intros [[dt x0] x1] K p (H1 & H2 & H3) [[L ->]|[L E]]; cbn [fst snd] in *; unfold esc_at.
  - apply bessel_outside_settled; assumption.
  - apply bessel_settled; auto; [eapply Rle_lt_trans; [apply Rmax_l|exact L]|eapply Rle_lt_trans; [apply Rmax_r|exact L]].
Qed.
Lemma flag_settled : forall s lb ub p q, segment_ok s -> reaches s lb p -> reaches_opt s ub q -> series_ok lb ub s -> match ub with Some u => lb <= u | None => True end ->
  exists r, settled (fun fuel => esc_at lb ub fuel s) r /\ (1 - q) * r = p - q.
Proof.
  intros [[dt x0] x1] lb ub p q HS HP HQ HO HU. destruct ub as [u|].
  - destruct HS as (H1 & H2 & H3). cbn [fst snd] in *. destruct HP as [[L ->]|[L E]]; cbn [fst snd] in *.
    + exists 1. split; [unfold esc_at; apply bessel_outside_settled; assumption|ring].
    + destruct (HO L) as [O1 O2]. cbn [fst snd] in *. assert (A : x0 < lb) by (eapply Rle_lt_trans; [apply Rmax_l|exact L]). assert (B : x1 < lb) by (eapply Rle_lt_trans; [apply Rmax_r|exact L]).
      destruct HQ as [[LQ _]|[_ EQ]]; cbn [fst snd] in *; [lra|].
      exists (1 - (1 - p) / (1 - q)). split; [unfold esc_at; apply bessel_outer_settled; assumption|]. pose proof (bessel_lt1 dt x0 x1 u q H1 H2 H3 ltac:(lra) ltac:(lra) EQ). field. lra.
  - cbn in HQ. subst q. exists p. split; [exact (reaches_settled _ lb p HS HP)|ring].
Qed.
Lemma flags_settled : forall lb ub segs ps qs, Forall segment_ok segs -> Forall (series_ok lb ub) segs -> match ub with Some u => lb <= u | None => True end ->
  Forall2 (fun s p => reaches s lb p) segs ps -> Forall2 (fun s q => reaches_opt s ub q) segs qs ->
  exists rs, Forall2 (fun s r => settled (fun fuel => esc_at lb ub fuel s) r) segs rs /\
    forall h, length h = length segs -> prod2 (map (fun _ => false) qs) qs * prod2 h rs = prod3 (fun (b : bool) p q => if b then p - q else 1 - p) h ps qs.
Proof.
  intros lb ub segs ps qs HS HO HU HP. revert qs. induction HP as [|s p segs ps Hp HP IH]; intros qs HQ; inversion HQ as [|? q ? qs' Hq HQ']; subst; clear HQ.
  - exists []. split; [constructor|]. intros [|b h] HL; [cbn; ring|discriminate].
  - inversion HS as [|? ? HS0 HS']; subst. inversion HO as [|? ? HO0 HO']; subst. destruct (IH HS' HO' qs' HQ') as (rs & H & E).
    destruct (flag_settled s lb ub p q HS0 Hp Hq HO0 HU) as (r & Hr & Er). exists (r :: rs). split; [constructor; assumption|].
    intros [|b h] HL; [discriminate|]. cbn [map prod2 prod3]. rewrite <- (E h) by (cbn in HL; lia). destruct b.
    + rewrite <- Er. ring.
    + replace (1 - p) with ((1 - q) * (1 - r)) by lra. ring.
Qed.
Lemma quiet_opt : forall ub segs qs, Forall segment_ok segs -> Forall2 (fun s q => reaches_opt s ub q) segs qs ->
  exists c, (forall fuel, chance (match ub with None => ret true | Some u => do e <- map_m (esc_at u None fuel) segs; ret (negb (existsb (fun b => b) e)) end) (fun b => b) (c fuel)) /\
    Un_cv c (prod2 (map (fun _ => false) qs) qs).
Proof.
  intros [u|] segs qs HS HQ.
  - destruct (quiet_law _ (fun fuel s => esc_at u None fuel s) segs qs) as (c & H & C).
    + clear - HS HQ. revert HS. induction HQ as [|s q segs qs Hq HQ IH]; intros HS; constructor; inversion HS; subst; [apply reaches_settled; assumption|apply IH; assumption].
    + exists c. split; [|exact C]. intros fuel. apply (average_map _ _ (map_m (esc_at u None fuel) segs) (fun e => negb (existsb (fun b => b) e))). exact (H fuel).
  - exists (fun _ => 1). split; [intros fuel; exact (average_ret _ true (fun b => ind b))|].
    replace (prod2 (map (fun _ => false) qs) qs) with 1; [apply cv_const'|]. clear HS. induction HQ as [|s q segs qs Hq HQ IH]; [reflexivity|]. cbn in Hq. subst q. cbn [map prod2]. rewrite <- IH. ring.
Qed.
Lemma edge_law : forall lb ub segs ps qs h, Forall segment_ok segs -> Forall (series_ok lb ub) segs -> match ub with Some u => lb <= u | None => True end ->
  Forall2 (fun s p => reaches s lb p) segs ps -> Forall2 (fun s q => reaches_opt s ub q) segs qs -> length h = length segs ->
  exists c, (forall fuel, chance (edge_attempt fuel segs ub (Some lb)) (accepted h) (c fuel)) /\ Un_cv c (prod3 (fun (b : bool) p q => if b then p - q else 1 - p) h ps qs).
Proof.
  intros lb ub segs ps qs h HS HO HU HP HQ HL. destruct (flags_settled lb ub segs ps qs HS HO HU HP HQ) as (rs & HR & E). rewrite <- (E h HL).
  destruct (flags_law _ (fun fuel s => esc_at lb ub fuel s) segs rs HR h HL) as (c & H & C). destruct (quiet_opt ub segs qs HS HQ) as (c0 & H0 & C0).
  exists (fun fuel => c0 fuel * c fuel). split; [|apply CV_mult; assumption]. intros fuel. unfold edge_attempt, chance.
  apply (average_bind0 _ _ _ _ _ (fun ok : bool => c fuel * ind ok)).
  - apply (average_eq _ _ _ (c fuel * c0 fuel)); [ring|]. apply average_scal. exact (H0 fuel).
  - intros [|].
    + apply (average_eq _ _ _ (c fuel)); [unfold ind; ring|]. apply (average_map _ _ (map_m (esc_at lb ub fuel) segs) (fun e => Some e)). exact (H fuel).
    + apply (average_eq _ _ _ 0); [unfold ind; ring|]. exact (average_ret _ None (fun r => ind (accepted h r))).
Qed.
Lemma edge_pass_law : forall ub segs qs, Forall segment_ok segs -> Forall2 (fun s q => reaches s ub q) segs qs ->
  exists c, (forall fuel, chance (edge_attempt fuel segs (Some ub) None) is_accepted (c fuel)) /\ Un_cv c (prod3 (fun (_ : bool) q _ => 1 - q) (map (fun _ => false) qs) qs qs).
Proof.
  intros ub segs qs HS HQ. destruct (quiet_opt (Some ub) segs qs HS HQ) as (c & H & C). exists c. split.
  - intros fuel. unfold edge_attempt, chance. apply (average_bind0 _ _ _ _ _ (fun ok : bool => ind ok)); [exact (H fuel)|].
    intros [|]; [exact (average_ret _ (Some []) (fun r => ind (is_accepted r)))|exact (average_ret _ None (fun r => ind (is_accepted r)))].
  - replace (prod3 (fun (_ : bool) q _ => 1 - q) (map (fun _ => false) qs) qs qs) with (prod2 (map (fun _ => false) qs) qs); [exact C|].
    clear. induction qs as [|q qs IH]; [reflexivity|]. cbn [map prod2 prod3]. rewrite IH. reflexivity.
Qed.
(** the loop runs such attempts *)
Lemma edge_loop_attempt : forall fuel n t fin_t fin_x ub lb o k,
  layerbr_edge_loop fuel (S n) t fin_t fin_x ub lb o k =
  (do xt <- (match t with [] => ret [] | _ => sample_besselbr t fin_t fin_x 3 end);
   do r <- edge_attempt fuel (segments (0 :: t ++ [fin_t]) (0 :: xt ++ [fin_x])) ub lb;
   match r with Some h => ret (xt, h) | None => layerbr_edge_loop fuel n t fin_t fin_x ub lb end) o k.
Proof.
  intros fuel n t fin_t fin_x ub lb o k. cbn [layerbr_edge_loop]. apply bind_ext. intros xt o1 k1. unfold edge_attempt.
  generalize (segments (0 :: t ++ [fin_t]) (0 :: xt ++ [fin_x])). intros segs.
  match goal with |- bind ?m _ _ _ = _ => generalize m end. intros m. unfold bind.
  destruct (m o1 k1) as [[ok|e|] k2]; try reflexivity. destruct ok; [|reflexivity].
  destruct lb as [lb|]; [|reflexivity]. match goal with |- match ?z with _ => _ end = _ => destruct z as [[h|e|] k3]; reflexivity end.
Qed.
