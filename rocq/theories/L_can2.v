(** Feasibility of the samplers of hitting.py, layers.py and of raw skeletons. *)
From Coq Require Import Reals List Bool Arith Lia Lra Sorted.
From Verif Require Import Base Np Rng M_hit M_path M_skel SpecHit SpecSkel SpecCan L_rng L_hit L_hit5 L_hit8 L_heat5 L_skel4 L_can.
Import ListNotations.
Local Open Scope R_scope.

(** computations without draws *)
Definition nodraw {A} (m : M A) : Prop := exists r, forall o k, m o k = (r, k).
Lemma nodraw_ret {A} (a : A) : nodraw (ret a). Proof. exists (Ok a). reflexivity. Qed.
Lemma nodraw_lift {A} (r : res A) : nodraw (lift r). Proof. exists r. reflexivity. Qed.
Lemma nodraw_assert b : nodraw (assert_ b). Proof. destruct b; [exists (Ok tt)|exists (Raise AssertionError)]; reflexivity. Qed.
Lemma nodraw_bind {A B} (m : M A) (f : A -> M B) : nodraw m -> (forall a, nodraw (f a)) -> nodraw (bind m f).
Proof.
  intros (r & H) Hf. destruct r as [a|e|].
  - destruct (Hf a) as (q & Hq). exists q. intros o k. unfold bind. rewrite H. apply Hq.
  - exists (Raise e). intros o k. unfold bind. rewrite H. reflexivity.
  - exists NoFuel. intros o k. unfold bind. rewrite H. reflexivity.
Qed.
Lemma nodraw_brown fuel t a b K ub s : nodraw (sample_brownbr_esc fuel t a b K ub (Some s)).
Proof.
  unfold sample_brownbr_esc. repeat (apply nodraw_bind; [first [apply nodraw_ret|apply nodraw_assert]|intros ?]).
  destruct (Rleb _ _); [apply nodraw_ret|]. destruct (match ub with Some _ => _ | None => _ end); [apply nodraw_ret|].
  repeat (apply nodraw_bind; [apply nodraw_assert|intros ?]). apply nodraw_lift.
Qed.
Lemma nodraw_bessel fuel t a b K ub s : nodraw (sample_bessel3br_esc fuel t a b K ub (Some s)).
Proof.
  unfold sample_bessel3br_esc. repeat (apply nodraw_bind; [first [apply nodraw_ret|apply nodraw_assert]|intros ?]).
  destruct (Rleb _ _); [apply nodraw_ret|]. destruct (match ub with Some _ => _ | None => _ end); [apply nodraw_ret|].
  repeat (apply nodraw_bind; [apply nodraw_assert|intros ?]). apply nodraw_bind; [destruct (Rltb _ _); [apply nodraw_ret|apply nodraw_lift]|]. intros i. apply nodraw_lift.
Qed.
Lemma nodraw_total {A} (m : M A) (P : A -> Prop) : nodraw m -> total m P -> exists a, P a /\ forall o k, m o k = (Ok a, k).
Proof.
  intros (r & H) T. destruct valid_exists as (o & V). specialize (T o 0%nat V). rewrite H in T. cbn in T. destruct r as [a|e|]; try contradiction. exists a. auto.
Qed.
Lemma can_bool_false (m : nat -> M bool) p s n0 : p <= s -> (forall fuel, nodraw (m fuel)) ->
  (forall fuel, (n0 <= fuel)%nat -> total (m fuel) (fun r => r = true <-> s < p)) -> can m (eq false).
Proof.
  intros L N T. apply (can_det _ _ false eq_refl). exists n0. intros fuel Hf o k.
  destruct (nodraw_total (m fuel) _ (N fuel) (T fuel Hf)) as ([|] & H1 & H2); [|apply H2]. exfalso. destruct H1 as [H1 _]. specialize (H1 eq_refl). lra.
Qed.
Lemma can_bessel_no t a b K : 0 < t -> 0 <= a -> 0 < b -> a < K -> b < K -> can (fun fuel => sample_bessel3br_esc fuel t a b K None None) (eq false).
Proof.
  intros Ht Ha Hb HaK HbK. destruct (bessel_full_range t a b K Ht Ha Hb HaK HbK) as (p & E & Hp).
  apply (can_bind0 (draw_r (DUniform 0 1)) (fun fuel s => sample_bessel3br_esc fuel t a b K None (Some s)) (fun s => p < s < 1)).
  - apply (can_unif01 p 1); try lra. intros u Hu. lra.
  - intros s Hs. destruct (bessel_terminates' t a b K Ht Ha Hb HaK HbK s p) as (n0 & H); auto; try lra.
    apply (can_bool_false _ p s n0); auto; [lra|]. intros; apply nodraw_bessel.
Qed.
Lemma can_brown_no t a b K p s : 0 < t -> Rabs a < K -> Rabs b < K -> brown_escape t a b K p -> 0 <= p < s -> s <= 1 ->
  can (fun fuel => sample_brownbr_esc fuel t a b K None (Some s)) (eq false).
Proof.
  intros Ht Ha Hb E Hp Hs. destruct (brown_terminates t a b K s p Ht Ha Hb ltac:(lra) E ltac:(lra)) as (n0 & H).
  apply (can_bool_false _ p s n0); auto; [lra|]. intros; apply nodraw_brown.
Qed.
Lemma can_brownbr_min t a b lbo ubo x y : 0 < t -> elt (lb_default lbo) (Fin (ub_default ubo a b)) -> ub_default ubo a b <= Rmin a b -> 0 <= x -> x < y -> y <= 1 ->
  can (fun _ => sample_brownbr_min t a b lbo ubo) (fun r => exists mt mx p, r = Some (mt, mx) /\ elt (lb_default lbo) (Fin mx) /\ mx < ub_default ubo a b /\ 0 < mt < t /\
    x < p < y /\ ppf_brownbr_min p t a b (Some (lb_default lbo)) (Some (ub_default ubo a b)) = Ok (Fin mx)).
Proof.
  intros Ht Hlu Hu X0 XY Y1. unfold sample_brownbr_min. set (l := lb_default lbo) in *. set (u := ub_default ubo a b) in *.
  eapply can_bind0; [apply (can_assert _ (fun _ => True)); [now apply Rltb_true|exact I]|]. intros _ _.
  eapply can_bind0; [apply (can_assert _ (fun _ => True)); [apply (bounds_ok_true a b lbo ubo); auto|exact I]|]. intros _ _.
  eapply can_bind0; [apply (can_unif01 x y (fun p => x < p < y)); auto|]. intros p P.
  destruct (ppf_statement t a b (Some l) (Some u) Ht Hlu Hu p ltac:(lra)) as (m & E & L & U & C & I0 & I1).
  specialize (I0 ltac:(lra)). specialize (I1 ltac:(lra)).
  eapply can_bind0; [apply (can_lift _ m (eq m)); auto|]. intros e <-. destruct m as [|mx|]; try contradiction; [destruct l; contradiction|].
  change (mx < u) in I1. destruct (wald_pars t a b ubo Ht Hu mx I1) as (P1 & P2 & P3).
  set (par1 := (b - mx) ^ 2 / (2 * t)) in *. set (par2 := (mx - a) ^ 2 / (2 * t)) in *. set (par3 := sqrt (par1 / par2)) in *.
  eapply can_bind0; [apply (can_unif01 0 1 (fun _ => True)); auto; lra|]. intros v _. cbv beta.
  assert (G : forall w, 0 < w -> can (fun _ => ret (Some (t / (1 + w), mx))) (fun r => exists mt mx0 p0, r = Some (mt, mx0) /\ elt l (Fin mx0) /\ mx0 < u /\ 0 < mt < t /\
      x < p0 < y /\ ppf_brownbr_min p0 t a b (Some l) (Some u) = Ok (Fin mx0))).
  { intros w Hw. apply can_ret. exists (t / (1 + w)), mx, p. split; auto. split; [exact I0|]. split; auto. split; [apply div_in; auto|]. auto. }
  destruct (Rltb v (1 / (1 + par3))).
  - eapply can_bind0; [apply (can_wald _ _ 1 (eq 1)); [lra|auto]|]. intros w <-. apply G. lra.
  - eapply can_bind0; [apply (can_wald _ _ 1 (eq 1)); [lra|auto]|]. intros w <-. apply (G (1 / 1)). lra.
Qed.
(** one proposal is accepted *)
Lemma can_layerbr_min mp t a b u li ui x y : (0 < mp)%nat -> 0 < t -> Rmax a b < u -> li < ui -> ui <= Rmin a b -> 0 <= x -> x < y -> y <= 1 ->
  can (fun fuel => sample_layerbr_min fuel mp t a b (Some u) (Some (Fin li)) (Some ui)) (fun r => exists mt mx p, r = Some (mt, mx) /\ li < mx < ui /\ 0 < mt < t /\
    x < p < y /\ ppf_brownbr_min p t a b (Some (Fin li)) (Some ui) = Ok (Fin mx)).
Proof.
  intros Hm Ht HU Hlu Hu X0 XY Y1. unfold sample_layerbr_min.
  eapply can_bind0; [apply (can_assert _ (fun _ => True)); [now apply Rltb_true|exact I]|]. intros _ _.
  eapply can_bind0; [apply (can_assert _ (fun _ => True)); [apply Rleb_true; lra|exact I]|]. intros _ _.
  destruct mp as [|mp]; [lia|]. cbn [layerbr_min_loop].
  eapply (can_bind0 _ _ _); [apply (can_brownbr_min t a b (Some (Fin li)) (Some ui) x y); auto|]. intros r (mt & mx & p & -> & L & U & T & P & E). cbn in L, U.
  pose proof (Rmin_l a b). pose proof (Rmin_r a b). pose proof (Rmax_l a b). pose proof (Rmax_r a b).
  eapply (can_bind (fun fuel => sample_bessel3br_esc fuel mt 0 (a - mx) (u - mx) None None)); [apply can_bessel_no; lra|]. intros e1 <-.
  eapply (can_bind (fun fuel => sample_bessel3br_esc fuel (t - mt) 0 (b - mx) (u - mx) None None)); [apply can_bessel_no; lra|]. intros e2 <-.
  apply can_ret. exists mt, mx, p. auto 10.
Qed.
Lemma centred le ue a b : le < Rmin a b -> Rmax a b < ue -> Rabs (a - (le + ue) / 2) < (ue - le) / 2 /\ Rabs (b - (le + ue) / 2) < (ue - le) / 2.
Proof.
  intros L U. pose proof (Rmin_l a b). pose proof (Rmin_r a b). pose proof (Rmax_l a b). pose proof (Rmax_r a b).
  split; unfold Rabs; destruct (Rcase_abs _); lra.
Qed.
Lemma can_layer_seed n t a b lb ub v : (0 < n)%nat -> 0 < t -> elt lb (Fin (Rmin a b)) -> elt (Fin (Rmax a b)) ub -> 0 <= v < 1 ->
  can (fun fuel => layer_seed fuel n t a b lb ub) (fun u => v < u < 1).
Proof.
  intros Hn Ht L U Hv. unfold layer_seed.
  assert (D : forall c, 0 <= c < 1 -> can (fun _ => draw_r (DUniform c 1)) (fun u => v < u < 1)).
  { intros c Hc. apply (can_unif _ _ v 1); try lra. intros u Hu. nra. }
  destruct lb as [|l|], ub as [|w|]; cbn in L, U; try contradiction.
  - assert (RM : Rmin (- b) (- a) = - Rmax a b). { unfold Rmin, Rmax. destruct (Rle_dec _ _), (Rle_dec _ _); lra. }
    destruct (one_sided t (- b) (- a) (- w) Ht ltac:(lra)) as (c & E & C & _).
    eapply can_bind0; [apply (can_lift _ c (eq c)); auto|]. intros x <-. apply D. lra.
  - apply D. lra.
  - destruct n as [|n]; [lia|]. cbn [layer_reject]. destruct (centred l w a b L U) as (C1 & C2).
    destruct (brown_full_range t _ _ _ Ht C1 C2) as (p & E & Hp & _).
    eapply (can_bind0 (draw_r (DUniform 0 1)) _ (fun u => Rmax v p < u < 1)).
    { apply (can_unif01 (Rmax v p) 1); auto; try lra; unfold Rmax; destruct (Rle_dec v p); lra. }
    intros u Hu. pose proof (Rmax_l v p). pose proof (Rmax_r v p).
    eapply (can_bind (fun fuel => sample_brownbr_esc fuel t (a - (l + w) / 2) (b - (l + w) / 2) ((w - l) / 2) None (Some u))); [apply (can_brown_no _ _ _ _ p); auto; lra|].
    intros e <-. apply can_ret. lra.
  - destruct (one_sided t a b l Ht L) as (c & E & C & _).
    eapply can_bind0; [apply (can_lift _ c (eq c)); auto|]. intros x <-. apply D. lra.
Qed.
Lemma can_layer n t a b lb ub : (0 < n)%nat -> 0 < t -> elt lb (Fin (Rmin a b)) -> elt (Fin (Rmax a b)) ub ->
  can (fun fuel => sample_layer fuel n t a b lb ub) (eq 1%nat).
Proof.
  intros Hn Ht L U. unfold sample_layer.
  destruct (edges_inside t a b lb ub Ht L U 1) as (le & ue & E & _ & _ & _ & _ & S1). destruct (S1 ltac:(lia)) as (S2 & S3).
  destruct (centred le ue a b S2 S3) as (C1 & C2). destruct (brown_full_range t _ _ _ Ht C1 C2) as (p & HE & Hp & _).
  eapply can_bind0; [apply (can_assert _ (fun _ => True)); [now apply Rltb_true|exact I]|]. intros _ _.
  eapply can_bind; [apply (can_layer_seed n t a b lb ub p); auto|]. intros u Hu.
  assert (Q : can (fun fuel => match fuel with O => nofuel | S n' =>
      do e <- lift (compute_edges 1 t a b lb ub);
      match e with
      | (Fin le, Fin ue) =>
          let offset := (le + ue) / 2 in
          let width := ue - le in
          do esc <- sample_brownbr_esc fuel t (a - offset) (b - offset) (width / 2) None (Some u);
          if esc then layer_loop fuel n' 2 t a b lb ub u else ret 1%nat
      | _ => raise ValueError
      end end) (eq 1%nat)).
  { apply (can_det _ _ 1%nat eq_refl). destruct (brown_terminates t _ _ _ u p Ht C1 C2 ltac:(lra) HE ltac:(lra)) as (n0 & H).
    exists (S n0). intros fuel Hf o k. destruct fuel as [|f]; [lia|]. rewrite E. unfold bind at 1, lift. cbv zeta.
    destruct (nodraw_total _ _ (nodraw_brown (S f) t (a - (le + ue) / 2) (b - (le + ue) / 2) ((ue - le) / 2) None u) (H (S f) ltac:(lia))) as (e & He & Hr).
    unfold bind. rewrite Hr. destruct e; [|reflexivity]. exfalso. destruct He as [He _]. specialize (He eq_refl). lra. }
  refine (can_weaken _ _ _ _ (fun x H => H)). intros F. destruct (Q F) as (l & n0 & x & Q1 & Q2 & Q3 & Q4 & Q5).
  exists l, n0, x. repeat (split; [assumption|]). intros s k fuel H1 H2. rewrite <- (Q5 s k fuel H1 H2). destruct fuel; reflexivity.
Qed.
Lemma can_anchor n t a b lb ub : (0 < n)%nat -> 0 < t -> elt lb (Fin (Rmin a b)) -> elt (Fin (Rmax a b)) ub -> forall low : bool,
  can (fun fuel => sample_anchor fuel n t a b lb ub) (fun r => exists le ue, r = (low, (Fin le, Fin (Rmin a b)), (Fin (Rmax a b), Fin ue)) /\
    compute_edges 1 t a b lb ub = Ok (Fin le, Fin ue) /\ elt lb (Fin le) /\ elt (Fin ue) ub /\ le < Rmin a b /\ Rmax a b < ue).
Proof.
  intros Hn Ht L U low. unfold sample_anchor.
  eapply can_bind0; [apply (can_assert _ (fun _ => True)); [now apply Rltb_true|exact I]|]. intros _ _.
  eapply can_bind; [apply can_layer; auto|]. intros l <-. cbn [Nat.sub].
  destruct (edges_inside t a b lb ub Ht L U 1) as (le & ue & E & B1 & B2 & _ & _ & S1). destruct (S1 ltac:(lia)) as (S2 & S3).
  eapply can_bind0; [exact (can_lift _ _ (eq (Fin le, Fin ue)) E eq_refl)|]. intros x <-.
  eapply can_bind0; [exact (can_lift _ _ (eq (Fin (Rmin a b), Fin (Rmax a b))) (edge_zero t a b lb ub Ht L U) eq_refl)|]. intros x <-.
  cbv zeta. cbn [fst snd eopp].
  assert (RM : Rmin (- b) (- a) = - Rmax a b). { unfold Rmin, Rmax. destruct (Rle_dec _ _), (Rle_dec _ _); lra. }
  destruct (cdf_inner t a b le (Rmin a b) Ht S2 ltac:(lra)) as (p1 & E1 & P1 & _).
  destruct (cdf_inner t (- b) (- a) (- ue) (- Rmax a b) Ht ltac:(lra) ltac:(lra)) as (p2 & E2 & P2 & _).
  eapply can_bind0; [apply (can_lift _ p1 (eq p1)); auto|]. intros x <-.
  eapply can_bind0; [apply (can_lift _ p2 (eq p2)); auto|]. intros x <-.
  assert (Q : 0 < p1 / (p1 + p2) < 1).
  { split; [apply Rdiv_lt_0_compat; lra|]. apply (Rmult_lt_reg_r (p1 + p2)); [lra|]. unfold Rdiv. rewrite Rmult_assoc, Rinv_l; lra. }
  eapply (can_bind0 _ _ (fun u => Rltb u (p1 / (p1 + p2)) = low)).
  - destruct low; [apply (can_unif01 0 (p1 / (p1 + p2))); try lra; intros u Hu; apply Rltb_true; lra|].
    apply (can_unif01 (p1 / (p1 + p2)) 1); try lra. intros u Hu. apply Rltb_false. lra.
  - intros u Hu. apply can_ret. exists le, ue. rewrite Hu. auto 10.
Qed.
Lemma can_edges mp n t a b li ls us x y : (0 < mp)%nat -> (0 < n)%nat -> 0 < t -> li < Rmin a b -> Rmax a b < us -> 0 <= x -> x < y -> y <= 1 ->
  can (fun fuel => sample_edges fuel mp n t a b (li, Rmin a b) (ls, us)) (fun r => exists mt mx p, r = Some (mt, mx, ls, us, None) /\ li < mx < Rmin a b /\ 0 < mt < t /\
    x < p < y /\ ppf_brownbr_min p t a b (Some (Fin li)) (Some (Rmin a b)) = Ok (Fin mx)).
Proof.
  intros Hm Hn Ht L U X0 XY Y1. unfold sample_edges. cbn [fst snd].
  eapply can_bind0; [apply (can_assert _ (fun _ => True)); [now apply Rltb_true|exact I]|]. intros _ _.
  eapply can_bind0; [apply (can_assert _ (fun _ => True)); [apply Nat.ltb_lt; auto|exact I]|]. intros _ _.
  destruct n as [|n]; [lia|]. cbn [edges_loop].
  eapply can_bind; [apply (can_layerbr_min mp t a b us li (Rmin a b) x y); auto; lra|]. intros r (mt & mx & p & -> & H).
  rewrite (proj2 (Reqb_true _ _) eq_refl). cbn [orb]. apply can_ret. exists mt, mx, p. split; [reflexivity|]. tauto.
Qed.
(** raw skeletons: with any lower quantile of the minimum, flipped or not *)
Lemma can_raw mp n t a b lb ub : (0 < mp)%nat -> (0 < n)%nat -> 0 < t -> elt lb (Fin (Rmin a b)) -> elt (Fin (Rmax a b)) ub -> forall (flipped : bool) x y, 0 <= x -> x < y -> y <= 1 ->
  can (fun fuel => sample_raw_skeleton fuel mp n t a b lb ub) (fun s => exists le ue mt mx p, compute_edges 1 t a b lb ub = Ok (Fin le, Fin ue) /\
    le < mx < Rmin a b /\ 0 < mt < t /\ x < p < y /\ ppf_brownbr_min p t a b (Some (Fin le)) (Some (Rmin a b)) = Ok (Fin mx) /\
    s = if flipped then mk_skel [0; t - mt; t] [a; a + b - mx; b] (a + b - mx) (a + b - ue) (a + b - Rmax a b) None
        else mk_skel [0; mt; t] [a; mx; b] mx ue (Rmax a b) None).
Proof.
  intros Hm Hn Ht L U fl x y X0 XY Y1. unfold sample_raw_skeleton.
  eapply can_bind; [apply (can_anchor mp t a b lb ub Hm Ht L U true)|]. intros r (le & ue & -> & E & B1 & B2 & S1 & S2). cbn [fst snd fin_of].
  do 4 (eapply can_bind0; [apply can_ret; exact (eq_refl _)|]; intros ? <-).
  eapply can_bind; [apply (can_edges mp n t a b le (Rmax a b) ue x y); auto|]. intros r (mt & mx & p & -> & M1 & M2 & P & EP).
  cbv beta iota. eapply (can_bind0 _ _ (fun u => Rltb u (1 / 2) = negb fl)).
  - destruct fl; [apply (can_unif01 (1/2) 1)|apply (can_unif01 0 (1/2))]; try lra; intros u Hu; [apply Rltb_false|apply Rltb_true]; lra.
  - intros u ->. destruct fl; cbn [negb].
    + assert (R : flip_skeleton (mk_skel [0; mt; t] [a; mx; b] mx ue (Rmax a b) None) =
        Ok (mk_skel [0; t - mt; t] [a; a + b - mx; b] (a + b - mx) (a + b - ue) (a + b - Rmax a b) None)).
      { rewrite flip_eq.
        - unfold flip_of, mirror_sum, horizon. cbn. f_equal. f_equal; repeat (f_equal; try lra).
        - reflexivity.
        - cbn. repeat constructor; lra.
        - reflexivity.
        - cbn. lia. }
      apply (can_lift _ _ _ R). exists le, ue, mt, mx, p. auto 10.
    + apply can_ret. exists le, ue, mt, mx, p. auto 10.
Qed.
