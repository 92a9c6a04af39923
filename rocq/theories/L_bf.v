(** Lemmas about the Bernoulli factories. *)
From Coq Require Import Reals List Bool Arith Lia Lra.
From Verif Require Import Base Rng M_bf SpecBf L_rng.
Import ListNotations.
Local Open Scope R_scope.

Definition ev {A} (d : dist A) (g : A -> R) : R := fold_right Rplus 0 (map (fun p => fst p * g (snd p)) d).
Definition ind (b : bool) : R := if b then 1 else 0.
Lemma pr_ev {A} (d : dist A) E : pr d E = ev d (fun a => ind (E a)).
Proof. induction d as [|[p a] d IH]; [reflexivity|]. unfold ev in *. simpl. rewrite IH. unfold ind at 2. destruct (E a); ring. Qed.
Lemma pr_app {A} (d d' : dist A) E : pr (d ++ d') E = pr d E + pr d' E.
Proof. induction d as [|[p a] d IH]; simpl; [ring|]. rewrite IH. ring. Qed.
Lemma pr_scale {A} c (d : dist A) E : pr (map (fun q => (c * fst q, snd q)) d) E = c * pr d E.
Proof. induction d as [|[p a] d IH]; simpl; [ring|]. rewrite IH. destruct (E a); ring. Qed.
Lemma pr_dbind {A B} (d : dist A) (f : A -> dist B) E : pr (dbind d f) E = ev d (fun a => pr (f a) E).
Proof.
  induction d as [|[p a] d IH]; [reflexivity|].
  change (dbind ((p, a) :: d) f) with (map (fun q => (p * fst q, snd q)) (f a) ++ dbind d f).
  rewrite pr_app, pr_scale, IH. unfold ev. simpl. reflexivity.
Qed.
Lemma pr_dret {A} (a : A) E : pr (dret a) E = ind (E a).
Proof. simpl. unfold ind. destruct (E a); ring. Qed.
Lemma ev_flipd p g : ev (flipd p) g = p * g true + (1 - p) * g false.
Proof. unfold ev; simpl. ring. Qed.
Lemma ev_ext {A} (d : dist A) g h : (forall a, g a = h a) -> ev d g = ev d h.
Proof. intros H. unfold ev. f_equal. apply map_ext. intros a. rewrite H. auto. Qed.
Lemma ev_plus {A} (d : dist A) g h : ev d (fun a => g a + h a) = ev d g + ev d h.
Proof. unfold ev. induction d as [|[p a] d IH]; simpl; [ring|]. rewrite IH. ring. Qed.
Lemma ev_scal {A} (d : dist A) c g : ev d (fun a => g a * c) = ev d g * c.
Proof. unfold ev. induction d as [|[p a] d IH]; simpl; [ring|]. rewrite IH. ring. Qed.
Lemma ev_dbind {A B} (d : dist A) (f : A -> dist B) g : ev (dbind d f) g = ev d (fun a => ev (f a) g).
Proof.
  induction d as [|[p a] d IH]; [reflexivity|].
  change (dbind ((p, a) :: d) f) with (map (fun q => (p * fst q, snd q)) (f a) ++ dbind d f).
  unfold ev in *. rewrite map_app, fold_right_app. simpl in *. rewrite IH.
  generalize (fold_right Rplus 0 (map (fun p0 => fst p0 * fold_right Rplus 0 (map (fun p1 => fst p1 * g (snd p1)) (f (snd p0)))) d)) as z.
  intros z. induction (f a) as [|[q b] l IHl]; simpl; [ring|]. rewrite IHl. ring.
Qed.
Lemma ev_dret {A} (a : A) g : ev (dret a) g = g a.
Proof. unfold ev; simpl. ring. Qed.
Lemma pr_nonneg {A} (d : dist A) E : Forall (fun p => 0 <= fst p) d -> 0 <= pr d E.
Proof. induction 1 as [|[p a] d H1 H IH]; simpl in *; [lra|]. destruct (E a); lra. Qed.
Lemma pr_compl {A} (d : dist A) E : pr d (fun a => negb (E a)) = pr d (fun _ => true) - pr d E.
Proof. induction d as [|[p a] d IH]; simpl; [ring|]. rewrite IH. destruct (E a); simpl; ring. Qed.
Lemma pr_ext {A} (d : dist A) E F : (forall a, E a = F a) -> pr d E = pr d F.
Proof. intros H. induction d as [|[p a] d IH]; simpl; [auto|]. rewrite IH, H. auto. Qed.
Lemma pr_false {A} (d : dist A) E : (forall a, E a = false) -> pr d E = 0.
Proof. intros H. induction d as [|[p a] d IH]; simpl; [auto|]. rewrite IH, H. ring. Qed.
Lemma pr_le {A} (d : dist A) E F : Forall (fun p => 0 <= fst p) d -> (forall a, E a = true -> F a = true) -> pr d E <= pr d F.
Proof.
  intros H I. induction H as [|[p a] d H1 H IH]; simpl in *; [lra|]. specialize (I a).
  destruct (E a); [rewrite I by auto; lra|]. destruct (F a); lra.
Qed.
Lemma heads_range {A} (c : dist (bool * A)) : proper c -> 0 <= heads c <= 1.
Proof.
  intros [H1 H2]. split; [apply pr_nonneg; auto|]. unfold heads. rewrite <- H2. apply pr_le; auto.
Qed.

Lemma share w1 w2 : exp (w1 - logaddexp w1 w2) = exp w1 / (exp w1 + exp w2).
Proof.
  unfold logaddexp, Rminus. pose proof (exp_pos w1). pose proof (exp_pos w2).
  rewrite exp_plus, exp_Ropp, exp_ln by lra. reflexivity.
Qed.
Lemma share_range w1 w2 : 0 < exp w1 / (exp w1 + exp w2) < 1.
Proof.
  pose proof (exp_pos w1). pose proof (exp_pos w2). split; [apply Rdiv_lt_0_compat; lra|].
  apply (Rmult_lt_reg_r (exp w1 + exp w2)); [lra|]. unfold Rdiv. rewrite Rmult_assoc, Rinv_l by lra. lra.
Qed.
Lemma share_compl w1 w2 : 1 - exp w1 / (exp w1 + exp w2) = exp w2 / (exp w2 + exp w1).
Proof. pose proof (exp_pos w1). pose proof (exp_pos w2). field. lra. Qed.
Lemma clip_id p : 0 <= p <= 1 -> clip01 p = p.
Proof. intros H. unfold clip01. rewrite Rmin_left, Rmax_right by lra. auto. Qed.
Lemma clip_range p : 0 <= clip01 p <= 1.
Proof. unfold clip01. split; [apply Rmax_l|]. apply Rmax_lub; [lra|apply Rmin_r]. Qed.

(** the uniform draws below the two thresholds form the intervals [0, clip01 _) *)
Lemma log_lt_interval u v : 0 <= u < 1 -> log_lt u v = true <-> u < clip01 (exp v).
Proof.
  intros Hu. unfold log_lt. pose proof (exp_pos v). unfold clip01.
  rewrite Rmax_right by (apply Rmin_glb; lra).
  destruct (Reqb_dec u 0) as [[-> ->]|[N ->]].
  - split; auto. intros _. apply Rmin_glb_lt; lra.
  - rewrite Rltb_true. split; intros L.
    + apply Rmin_glb_lt; [|lra]. rewrite <- (exp_ln u) by lra. apply exp_increasing; auto.
    + assert (L' : u < exp v) by (eapply Rlt_le_trans; [apply L|apply Rmin_l]).
      rewrite <- (ln_exp v). apply ln_increasing; lra.
Qed.
Lemma u_lt_interval u p : 0 <= u < 1 -> Rltb u p = true <-> u < clip01 p.
Proof.
  intros Hu. rewrite Rltb_true. unfold clip01, Rmax, Rmin.
  destruct (Rle_dec p 1); destruct (Rle_dec 0 _); lra.
Qed.

Section Law.
Context {A : Type} (c1 c2 : dist (bool * A)) (v e : R) (esc : A -> A).
Hypotheses (P1 : proper c1) (P2 : proper c2) (Hv : 0 <= exp v <= 1).

Definition miss : R := exp v * (1 - heads c1) + (1 - exp v) * (1 - heads c2).
Definition hit (E : option (bool * bool * A) * unit -> bool) : R :=
  exp v * pr c1 (fun r => fst r && E (Some (true, false, snd r), tt))
  + (1 - exp v) * pr c2 (fun r => fst r && E (Some (false, false, snd r), tt))
  + clip01 e * (exp v * pr c1 (fun r => negb (fst r) && E (Some (false, true, esc (snd r)), tt))
                + (1 - exp v) * pr c2 (fun r => negb (fst r) && E (Some (false, true, esc (snd r)), tt))).
Fixpoint geo (q : R) (n : nat) : R := match n with O => 0 | S n' => 1 + q * geo q n' end.

Lemma loop_law E n :
  pr (twocoin_loop (m := dist) (@dret) (@dbind) d_ulog_lt d_u_lt (iid c1 c2) v e esc n tt) E
  = hit E * geo (miss * (1 - clip01 e)) n + ind (E (None, tt)) * (miss * (1 - clip01 e)) ^ n.
Proof.
  induction n as [|n IH].
  - cbn [twocoin_loop]. rewrite pr_dret. simpl. ring.
  - cbn [twocoin_loop]. rewrite pr_dbind. rewrite (ev_flipd (clip01 (exp v)) : forall g, ev (d_ulog_lt v) g = _). rewrite clip_id by auto.
    set (L := pr (twocoin_loop (@dret) (@dbind) d_ulog_lt d_u_lt (iid c1 c2) v e esc n tt) E) in *.
    assert (STEP : forall c (P : proper c) b, 
      pr (dbind (dbind c (fun r : bool * A => dret (r, tt))) (fun r => let '(success, prop, s') := r in
          if success then dret (Some (b, false, prop), s')
          else dbind (d_u_lt e) (fun e0 : bool => if e0 then dret (Some (false, true, esc prop), s')
             else twocoin_loop (@dret) (@dbind) d_ulog_lt d_u_lt (iid c1 c2) v e esc n s'))) E
      = pr c (fun r => fst r && E (Some (b, false, snd r), tt))
        + clip01 e * pr c (fun r => negb (fst r) && E (Some (false, true, esc (snd r)), tt))
        + (1 - clip01 e) * (1 - heads c) * L).
    { intros c P b. rewrite pr_dbind, ev_dbind.
      transitivity (ev c (fun r => ind (fst r && E (Some (b, false, snd r), tt))
         + ind (negb (fst r) && E (Some (false, true, esc (snd r)), tt)) * clip01 e + ind (negb (fst r)) * ((1 - clip01 e) * L))).
      - apply ev_ext. intros [su a]. rewrite ev_dret. destruct su; cbn [fst snd negb andb].
        + rewrite pr_dret. unfold ind. destruct (E _); ring.
        + rewrite pr_dbind. rewrite (ev_flipd (clip01 e) : forall g, ev (d_u_lt e) g = _). rewrite pr_dret. fold L. unfold ind. destruct (E _); ring.
      - rewrite !ev_plus, !ev_scal, <- !pr_ev, pr_compl. rewrite (proj2 P). unfold heads. ring. }
    assert (S1 := STEP c1 P1 true). assert (S2 := STEP c2 P2 false). 
    unfold iid at 1 3. cbv iota. rewrite S1, S2. clear STEP S1 S2. rewrite IH. cbn [geo pow]. unfold hit, miss. ring.
Qed.
End Law.

Lemma geo_pos q n : 0 <= q -> (0 < n)%nat -> 0 < geo q n.
Proof.
  intros Hq. induction n as [|n IH]; intros H; [lia|]. cbn [geo]. destruct n; [simpl; lra|].
  specialize (IH ltac:(lia)). assert (0 <= q * geo q (S n)) by (apply Rmult_le_pos; lra). lra.
Qed.
Lemma geo_pow q n : (1 - q) * geo q n = 1 - q ^ n.
Proof. induction n as [|n IH]; simpl; [ring|]. replace (_ * _) with (1 - q + q * ((1 - q) * geo q n)) by ring. rewrite IH. ring. Qed.

Lemma pr_split {A} (d : dist A) E F G : (forall a, E a = true -> F a = true -> False) -> (forall a, G a = E a || F a) ->
  pr d G = pr d E + pr d F.
Proof.
  intros H1 H2. induction d as [|[p a] d IH]; simpl; [ring|]. rewrite IH, H2. specialize (H1 a).
  destruct (E a), (F a); simpl; try ring. exfalso; auto.
Qed.

Section Twocoin.
Context {A : Type} (c1 c2 : dist (bool * A)) (w1 w2 e : R) (esc : A -> A).
Hypotheses (P1 : proper c1) (P2 : proper c2).
Let v := w1 - logaddexp w1 w2.
Definition D n := twocoin_loop (m := dist) (@dret) (@dbind) d_ulog_lt d_u_lt (iid c1 c2) v e esc n tt.
Let W := exp w1 + exp w2.
Definition fl : R := (exp w1 * (1 - heads c1) + exp w2 * (1 - heads c2)) / W.
Definition qq : R := fl * (1 - clip01 e).
Lemma Wpos : 0 < W.
Proof. unfold W. pose proof (exp_pos w1). pose proof (exp_pos w2). lra. Qed.
Lemma v_range : 0 <= exp v <= 1.
Proof. unfold v. rewrite share. pose proof (share_range w1 w2). lra. Qed.
Lemma miss_fl : miss c1 c2 v = fl.
Proof.
  unfold miss, fl. unfold v. rewrite share. pose proof Wpos as WP. unfold W in *. field. lra.
Qed.
Lemma D_law E n : pr (D n) E = hit c1 c2 v e esc E * geo qq n + ind (E (None, tt)) * qq ^ n.
Proof. unfold D, qq. rewrite <- miss_fl. apply loop_law; auto. apply v_range. Qed.
Lemma D_wins1 E n : pr (D n) (wins1 E) = exp w1 * heads_with c1 E / W * geo qq n.
Proof.
  rewrite D_law. unfold hit, wins1; cbn [fst]. unfold v. rewrite share. fold W. unfold heads_with, ind.
  rewrite !(pr_false c2), !(pr_false c1 (fun r => negb (fst r) && false)) by (intros; rewrite andb_false_r; auto).
  pose proof Wpos. field. lra.
Qed.
Lemma D_wins2 E n : pr (D n) (wins2 E) = exp w2 * heads_with c2 E / W * geo qq n.
Proof.
  rewrite D_law. unfold hit, wins2; cbn [fst]. unfold v. rewrite share. unfold heads_with, ind.
  rewrite !(pr_false c1), !(pr_false c2 (fun r => negb (fst r) && false)) by (intros; rewrite andb_false_r; auto).
  pose proof Wpos. unfold W in *. field. lra.
Qed.
Lemma D_escaped n : pr (D n) escaped = fl * clip01 e * geo qq n.
Proof.
  rewrite D_law, <- miss_fl. unfold hit, escaped, miss; cbn [fst]. unfold ind.
  rewrite (pr_false c1 (fun r => fst r && false)), (pr_false c2 (fun r => fst r && false)) by (intros; rewrite andb_false_r; auto).
  rewrite (pr_ext c1 _ (fun r => negb (fst r))), (pr_ext c2 _ (fun r => negb (fst r))) by (intros; rewrite andb_true_r; auto).
  rewrite !pr_compl, (proj2 P1), (proj2 P2). unfold heads. ring.
Qed.
Lemma D_exhausted n : pr (D n) (fun r => negb (returned r)) = qq ^ n.
Proof.
  rewrite D_law. unfold hit, returned; cbn [fst negb]. unfold ind.
  rewrite !(pr_false c1), !(pr_false c2) by (intros; rewrite andb_false_r; auto). ring.
Qed.
Lemma D_says n : pr (D n) says_true = exp w1 * heads c1 / W * geo qq n.
Proof.
  transitivity (pr (D n) (wins1 (fun _ => true))).
  - rewrite !D_law. unfold hit, says_true, wins1; cbn [fst]. reflexivity.
  - rewrite D_wins1. unfold heads_with, heads. rewrite (pr_ext c1 _ fst); [reflexivity|]. intros; rewrite andb_true_r; auto.
Qed.
Lemma fl_range : 0 <= fl <= 1.
Proof.
  pose proof (heads_range c1 P1). pose proof (heads_range c2 P2). pose proof (exp_pos w1). pose proof (exp_pos w2). pose proof Wpos.
  assert (0 <= exp w1 * (1 - heads c1) <= exp w1) by (split; [apply Rmult_le_pos; lra|rewrite <- (Rmult_1_r (exp w1)) at 2; apply Rmult_le_compat_l; lra]).
  assert (0 <= exp w2 * (1 - heads c2) <= exp w2) by (split; [apply Rmult_le_pos; lra|rewrite <- (Rmult_1_r (exp w2)) at 2; apply Rmult_le_compat_l; lra]).
  unfold fl. split.
  - apply Rmult_le_pos; [lra|]. apply Rlt_le, Rinv_0_lt_compat; auto.
  - apply (Rmult_le_reg_r W); auto. unfold Rdiv. rewrite Rmult_assoc, Rinv_l by lra. unfold W in *. lra.
Qed.
Lemma qq_range : 0 <= qq <= 1.
Proof.
  pose proof fl_range. pose proof (clip_range e). unfold qq. split; [apply Rmult_le_pos; lra|].
  rewrite <- (Rmult_1_l 1). apply Rmult_le_compat; lra.
Qed.
Lemma D_total n : pr (D n) (fun _ => true) = 1.
Proof.
  rewrite D_law. unfold hit, ind. cbv beta iota.
  assert (T : forall c : dist (bool * A), pr c (fun r => fst r && true) = heads c) by (intros c; apply pr_ext; intros; apply andb_true_r).
  assert (F : forall c : dist (bool * A), proper c -> pr c (fun r => negb (fst r) && true) = 1 - heads c).
  { intros c P. rewrite (pr_ext c _ (fun r => negb (fst r))) by (intros; apply andb_true_r). rewrite pr_compl, (proj2 P). reflexivity. }
  rewrite !T, !F by auto.
  transitivity ((1 - qq) * geo qq n + qq ^ n); [|rewrite geo_pow; ring].
  unfold qq. rewrite <- miss_fl. unfold miss. ring.
Qed.
Lemma D_returned n : pr (D n) returned = (1 - qq) * geo qq n.
Proof.
  rewrite geo_pow, <- D_exhausted. rewrite (pr_compl (D n) returned), D_total. ring.
Qed.
End Twocoin.
