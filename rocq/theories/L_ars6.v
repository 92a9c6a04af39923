(** The law of one iteration of adaptive rejection sampling, and of the loop with a fixed hull. *)
From Coq Require Import Reals List ZArith Bool Arith Lia Lra Sorted.
From Coquelicot Require Import Rbar Hierarchy Continuity Derive AutoDerive RInt RInt_gen RInt_analysis.
From Verif Require Import Base Np Rng M_adapt M_ars SpecArs SpecLaw L_list L_path L_mat L_adapt L_rng L_law L_law2 L_law5 L_ars L_ars2 L_ars3 L_ars4 L_ars5 Mat.
Import ListNotations.
Local Open Scope R_scope.

(** the test of a point p: lines 52-67 *)
Definition tested (f df : R -> R) (maxp : nat) (h : hull) (y : list ext) (xo : option R) : M (option (hull * option R)) :=
  match xo with
  | None => ret None
  | Some x_new =>
      do lo <- lift (eval_lower (h_x h) (h_fx h) x_new);
      do up <- lift (eval_upper (h_x h) (h_fx h) (h_dfx h) y x_new);
      do u <- draw_r (DUniform 0 1);
      let below (t : ext) := match t with
        | NegInf => false
        | Fin w => if Reqb u 0 then true else Rltb (ln u) (w - up)
        | PosInf => true end in
      if below lo then ret (Some (h, Some x_new))
      else if below (Fin (f x_new)) then ret (Some (h, Some x_new))
      else if Nat.ltb (length (h_x h)) maxp then
        let i := searchsorted_left (h_x h) x_new in
        ret (Some (mk_hull (insert_at (h_x h) i x_new) (insert_at (h_fx h) i (f x_new)) (insert_at (h_dfx h) i (df x_new)), None))
      else ret (Some (h, None))
  end.
Definition cut (u up : R) (t : ext) : bool := match t with NegInf => false | Fin w => if Reqb u 0 then true else Rltb (ln u) (w - up) | PosInf => true end.
Definition level (up : R) (t : ext) : R := match t with NegInf => 0 | Fin w => Rmin 1 (exp (w - up)) | PosInf => 1 end.
Lemma level_range up t : 0 <= level up t <= 1.
Proof. destruct t as [|w|]; cbn; try lra. pose proof (exp_pos (w - up)). unfold Rmin. destruct (Rle_dec _ _); lra. Qed.
Lemma cut_level u up t : 0 <= u < 1 -> cut u up t = true <-> u < level up t.
Proof.
  intros Hu. destruct t as [|w|]; cbn; [split; [discriminate|lra]| |split; [lra|reflexivity]].
  pose proof (exp_pos (w - up)) as P. destruct (Reqb_dec u 0) as [[E ->]|[E ->]].
  - split; [intros _; subst u; apply Rmin_glb_lt; lra|reflexivity].
  - rewrite Rltb_true. assert (LN : ln u < w - up <-> u < exp (w - up)).
    { split; intros H; [apply exp_increasing in H; rewrite exp_ln in H by lra; exact H|]. rewrite <- (ln_exp (w - up)). apply ln_increasing; lra. }
    rewrite LN. unfold Rmin. destruct (Rle_dec _ _); lra.
Qed.
Lemma exp_mono a b : a <= b -> exp a <= exp b.
Proof. intros [L| ->]; [left; apply exp_increasing; exact L|lra]. Qed.

Lemma dom_hd lb ub h : supports lb ub (h_x h) -> dom lb ub (nth 0 (h_x h) 0).
Proof. intros HSup. apply (domj lb ub (h_x h) HSup 0). destruct HSup as (_ & _ & N). destruct (h_x h); [congruence|cbn; lia]. Qed.
  Lemma dom_open lb ub v : dom lb ub v -> exists d, 0 < d /\ dom lb ub (v - d) /\ dom lb ub (v + d).
  Proof.
    intros (L & U). exists (Rmin (match lb with Fin l => (v - l) / 2 | _ => 1 end) (match ub with Fin u => (u - v) / 2 | _ => 1 end)).
    set (m := Rmin _ _).
    assert (P : 0 < m) by (unfold m; apply Rmin_glb_lt; [destruct lb; cbn in *; lra|destruct ub; cbn in *; lra]).
    assert (M1 : m <= match lb with Fin l => (v - l) / 2 | _ => 1 end) by apply Rmin_l. assert (M2 : m <= match ub with Fin u => (u - v) / 2 | _ => 1 end) by apply Rmin_r.
    clearbody m. split; [exact P|]. unfold dom. destruct lb, ub; cbn in *; try contradiction; repeat split; lra.
  Qed.

Section Step.
  Context (lb ub : ext) (f df : R -> R) (maxp : nat) (h : hull).
  Hypothesis HC : strictly_concave_on lb ub f df.
  Hypothesis Hfx : h_fx h = map f (h_x h).
  Hypothesis Hdf : h_dfx h = map df (h_x h).
  Notation x := (h_x h).
  Hypothesis HSup : supports lb ub x.
  Hypothesis NZ : forall a, In a x -> df a <> 0.
  Hypothesis HLB : lb = NegInf -> 0 < df (hd 0 x).
  Hypothesis HUB : ub = PosInf -> df (last x 0) < 0 /\ (2 <= length x)%nat.
  Notation n := (length x).
  Notation y := (breaks lb ub f df x).
  Notation E := (fun v => exp (least_tangent f df x v)).
  Notation Z := (Z_ lb ub f df x).

  Definition at_draw (z : R) : res (option R) := fst (sample_envelope x (map f x) (map df x) y {| ora_r := fun _ _ => z; ora_n := fun _ _ => 0%nat |} 0%nat).
  Lemma envelope_run o k : sample_envelope x (map f x) (map df x) y o k = (at_draw (ora_r o k (DUniform 0 1)), S k).
  Proof.
    destruct (table_ok lb ub f df x HC HSup NZ HLB HUB) as (off & ET). unfold at_draw, sample_envelope. rewrite ET.
    set (cdf := map _ (seq 0 (S n))). set (vl := map _ (seq 0 n)).
    assert (EL : get cdf (-1) = Ok (rsum n (m_ lb ub f df x off))).
    { unfold get. change (pyget cdf (-1)) with (last_opt cdf). unfold cdf. rewrite seq_S, map_app. cbn [map]. rewrite last_opt_app. reflexivity. }
    rewrite EL. unfold bind, lift, draw_r, ret. cbv beta iota. cbn [ora_r]. set (z := ora_r o k (DUniform 0 1)).
    destruct (opt_list _) as [nc|]; [|reflexivity]. cbv zeta. set (i := (Z.of_nat (searchsorted_left nc z) - 1)%Z).
    destruct (get x i); [|reflexivity|reflexivity]. destruct (get (map df x) i); [|reflexivity|reflexivity]. destruct (get (map f x) i); [|reflexivity|reflexivity].
    destruct (get vl i); [|reflexivity|reflexivity]. destruct (get cdf i); reflexivity.
  Qed.
  Definition point (z : R) : R := match at_draw z with Ok (Some p) => p | _ => 0 end.
  Lemma point_ok z : 0 < z < 1 -> at_draw z = Ok (Some (point z)) /\ dom lb ub (point z) /\ is_RInt_gen (V := R_NormedModule) E (lim lb) (at_point (point z)) (z * Z).
  Proof.
    intros Hz. destruct (draw_mass lb ub f df x HC HSup NZ HLB HUB {| ora_r := fun _ _ => z; ora_n := fun _ _ => 0%nat |} 0%nat z eq_refl Hz) as (p & E1 & D & G).
    fold (at_draw z) in E1. unfold point. rewrite E1. auto.
  Qed.
  (** the mass to the left of a point *)
  Definition left_of (w0 v : R) : R := w0 + RInt (V := R_CompleteNormedModule) E (nth 0 x 0) v.
  Lemma left_int a b : is_RInt (V := R_NormedModule) E a b (RInt (V := R_CompleteNormedModule) E a b).
  Proof. apply (RInt_correct (V := R_CompleteNormedModule)). apply (ex_RInt_continuous (V := R_CompleteNormedModule)). intros v _. apply env_cont. Qed.
  Lemma left_derive w0 v : is_derive (left_of w0) v (E v).
  Proof.
    unfold left_of. replace (E v) with (plus (zero : R_NormedModule) (E v)) by (unfold plus, zero; cbn; ring).
    apply (is_derive_plus (V := R_NormedModule) (fun _ => w0)); [apply (is_derive_const (V := R_NormedModule) w0)|].
    apply (is_derive_RInt (V := R_NormedModule) E (fun b => RInt (V := R_CompleteNormedModule) E (nth 0 x 0) b) (nth 0 x 0) v); [|apply env_cont].
    exists (mkposreal 1 Rlt_0_1). intros b _. apply left_int.
  Qed.
  Definition accept (v : R) : R := exp (f v - least_tangent f df x v).
  Lemma below_hull v : dom lb ub v -> f v <= least_tangent f df x v.
  Proof.
    intros D. destruct (least_spec f df x v) as ((a & Ha & ->) & _); [apply HSup|]. apply (tangent_above lb ub); [apply strictly_concave; exact HC| |exact D].
    destruct HSup as (_ & F & _). rewrite Forall_forall in F. apply F. exact Ha.
  Qed.
  Lemma accept_range v : dom lb ub v -> 0 <= accept v <= 1.
  Proof. intros D. pose proof (below_hull v D). unfold accept. split; [left; apply exp_pos|]. rewrite <- exp_0. destruct (Req_dec (f v) (least_tangent f df x v)) as [->|N]; [rewrite Rminus_eq_0; lra|left; apply exp_increasing; lra]. Qed.
  Lemma f_cont v : dom lb ub v -> continuity_pt f v.
  Proof. intros D. apply derivable_continuous_pt. exists (df v). apply HC. exact D. Qed.
  Lemma accept_cont v : dom lb ub v -> continuous accept v.
  Proof.
    intros D. apply continuity_pt_filterlim. apply (continuity_pt_comp (fun v => f v - least_tangent f df x v) exp); [|apply derivable_continuous_pt, derivable_pt_exp].
    apply (continuity_pt_minus f (least_tangent f df x)); [apply f_cont; exact D|apply least_cont].
  Qed.
  Lemma tilt a u v : dom lb ub u -> dom lb ub v -> dom lb ub a -> u <= v -> (v <= a -> f u - tangent f df a u <= f v - tangent f df a v) /\ (a <= u -> f v - tangent f df a v <= f u - tangent f df a u).
  Proof.
    intros Du Dv Da [L|<-]; [|split; lra]. destruct (mvt lb ub f df u v (proj1 HC) Du Dv L) as (c & Ec & Hc & Dc). unfold tangent. split; intros Q.
    - assert (df a <= df c). { left. apply (proj2 HC); [exact Dc|exact Da|lra]. } nra.
    - assert (df c <= df a). { left. apply (proj2 HC); [exact Da|exact Dc|lra]. } nra.
  Qed.
  Lemma accept_inc : exists v1, dom lb ub v1 /\ forall u v, dom lb ub u -> u <= v <= v1 -> accept u <= accept v.
  Proof.
    assert (NP : (0 < n)%nat) by (destruct HSup as (_ & _ & N0); destruct x; [congruence|cbn; lia]).
    exists (nth 0 x 0). split; [exact (dom_hd lb ub h HSup)|]. intros u v Du Huv. pose proof (breaks_around lb ub f df x 0 HC HSup NP) as (B1 & B2). rewrite breaks_0 in B1.
    assert (Dv : dom lb ub v) by (apply (dom_between lb ub u v (nth 0 x 0)); [exact Du|exact (dom_hd lb ub h HSup)|exact Huv]).
    assert (SG : forall w, dom lb ub w -> w <= nth 0 x 0 -> least_tangent f df x w = tangent f df (nth 0 x 0) w).
    { intros w (W1 & _) Hw. symmetry. apply (on_segment lb ub f df x HC HSup 0 w NP).
      - rewrite breaks_0. destruct lb; cbn in *; auto; lra.
      - destruct (nth 1 y PosInf); cbn in *; auto; try contradiction. lra. }
    unfold accept. rewrite !SG by (assumption || lra). apply exp_mono. apply (tilt (nth 0 x 0) u v Du Dv (dom_hd lb ub h HSup) ltac:(lra)). lra.
  Qed.
  Lemma accept_dec : exists v2, dom lb ub v2 /\ forall u v, dom lb ub v -> v2 <= u <= v -> accept v <= accept u.
  Proof.
    assert (NP : (0 < n)%nat) by (destruct HSup as (_ & _ & N0); destruct x; [congruence|cbn; lia]).
    assert (DL : dom lb ub (nth (n - 1) x 0)) by (apply (domj lb ub x HSup (n - 1)); lia).
    exists (nth (n - 1) x 0). split; [exact DL|]. intros u v Dv Huv. pose proof (breaks_around lb ub f df x (n - 1) HC HSup ltac:(lia)) as (B1 & B2).
    replace (S (n - 1)) with n in B2 by lia. rewrite breaks_last in B2 by apply HSup.
    assert (Du : dom lb ub u) by (apply (dom_between lb ub (nth (n - 1) x 0) u v); [exact DL|exact Dv|exact Huv]).
    assert (SG : forall w, dom lb ub w -> nth (n - 1) x 0 <= w -> least_tangent f df x w = tangent f df (nth (n - 1) x 0) w).
    { intros w (_ & W2) Hw. symmetry. apply (on_segment lb ub f df x HC HSup (n - 1) w ltac:(lia)).
      - destruct (nth (n - 1) y PosInf); cbn in *; auto; try contradiction. lra.
      - replace (S (n - 1)) with n by lia. rewrite breaks_last by apply HSup. destruct ub; cbn in *; auto; lra. }
    unfold accept. rewrite !SG by (assumption || lra). apply exp_mono. apply (tilt (nth (n - 1) x 0) u v Du Dv DL ltac:(lra)). lra.
  Qed.
  (** all the facts about the quantiles together *)
  Lemma quantiles : exists W, (forall v, is_derive W v (E v)) /\ (forall v, dom lb ub v -> 0 < W v < Z) /\ (forall z, 0 < z < 1 -> dom lb ub (point z) /\ W (point z) = z * Z).
  Proof.
    destruct (dom_mass lb ub f df x HC HSup NZ HLB HUB _ (dom_hd lb ub h HSup)) as (w0 & _ & G0). exists (left_of w0).
    assert (LG : forall v, is_RInt_gen (V := R_NormedModule) E (lim lb) (at_point v) (left_of w0 v)).
    { intros v. apply (gen_chasles E lb (nth 0 x 0) (Fin v) _ _ G0). apply is_RInt_gen_at_point. apply left_int. }
    split; [intros v; apply left_derive|]. split.
    - intros v D. destruct (dom_mass lb ub f df x HC HSup NZ HLB HUB v D) as (w & Hw & G). rewrite (gen_unique E lb (Fin v) _ _ (LG v) G). exact Hw.
    - intros z Hz. destruct (point_ok z Hz) as (_ & D & G). split; [exact D|]. exact (gen_unique E lb (Fin (point z)) _ _ (LG (point z)) G).
  Qed.
  Lemma weight v : E v * accept v = exp (f v).
  Proof. cbv beta. unfold accept. rewrite <- exp_plus. f_equal. ring. Qed.
  Lemma window_int s r m : dom lb ub s -> dom lb ub r -> s <= r -> is_RInt (V := R_NormedModule) (fun v => exp (f v)) s r m ->
    is_RInt (V := R_NormedModule) (fun z => if Rltb s (point z) && Rleb (point z) r then accept (point z) else 0) 0 1 (m / Z).
  Proof.
    intros Ds Dr Hsr Hm. destruct quantiles as (W & HW & IN & HQ).
    apply (change_window E W accept point Z (dom lb ub)); try assumption.
    - intros v. apply env_cont.
    - intros v. apply exp_pos.
    - exact (Z_pos lb ub f df x HC HSup NZ HLB HUB).
    - intros a b c. apply dom_between.
    - exact (dom_open lb ub).
    - exact accept_cont.
    - refine (is_RInt_ext (V := R_NormedModule) _ _ _ _ _ _ Hm). intros v _. symmetry. apply weight.
  Qed.
  Lemma whole_int : exists A, is_RInt (V := R_NormedModule) (fun z => accept (point z)) 0 1 (A / Z) /\ 0 <= A <= Z /\ target_mass lb ub f A.
  Proof.
    destruct quantiles as (W & HW & IN & HQ). pose proof (Z_pos lb ub f df x HC HSup NZ HLB HUB) as ZP.
    destruct (whole E W accept point Z (dom lb ub)) as (I & HI & RI & LI); try assumption.
    - intros v. apply env_cont.
    - intros v. apply exp_pos.
    - intros a b c. apply dom_between.
    - exact (dom_open lb ub).
    - exact accept_cont.
    - exact accept_range.
    - exact accept_inc.
    - exact accept_dec.
    - assert (DV : forall a b : R, 0 < b -> a * b / b = a) by (intros; field; lra). exists (I * Z). split; [rewrite (DV I Z ZP); exact HI|]. split; [nra|].
      unfold target_mass. destruct LI as (U & L). split.
      + intros m (s & r & Ds & Dr & Hsr & Hm). apply U. exists s, r. do 3 (split; [assumption|]).
        refine (is_RInt_ext (V := R_NormedModule) _ _ _ _ _ _ Hm). intros v _. symmetry. apply weight.
      + intros B HB. apply L. intros m (s & r & Ds & Dr & Hsr & Hm). apply HB. exists s, r. do 3 (split; [assumption|]).
        refine (is_RInt_ext (V := R_NormedModule) _ _ _ _ _ _ Hm). intros v _. apply weight.
  Qed.
End Step.
