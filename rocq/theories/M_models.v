(** Model of ctbayes/ito/models/{ou,cir}.py, ctbayes/switching/models/{ou,ou2,ou3}.py, of
    eval_disc and gen_normops of both static.py, and of flip_param_coin of both mcmc.py.
    Real numbers are exact.  Definitions only.  An array of parameters is a list; functions that
    act element-wise on arrays are given on one element.  eval_inf_disc of
    cir.py is not used by the library and not modelled; for eval_log_prior see M_prior.v and for
    eval_grad M_euler.v. *)
From Coq Require Import Reals List Bool Arith ZArith.
From Verif Require Import Base Np Rng M_mjp M_hit M_path M_skel M_seed.
Import ListNotations.
Local Open Scope R_scope.

Definition par (thi : list R) (i : nat) : R := nth i thi 0.
(** thi[y, i] and thi[y] for an array of parameters by regime *)
Definition row (thi : list (list R)) (y : nat) : list R := nth y thi [].
Definition par2 (thi : list (list R)) (y i : nat) : R := par (row thi y) i.
(** np.prod(thi[y]) *)
Definition prod_row (thi : list (list R)) (y : nat) : R := np_prod (row thi y).

(** ** ito/models/ou.py *)
Definition ou_drift (thi : list R) (x : R) : R := - par thi 0 * x. (* line 9 *)
Definition ou_sx (thi : list R) (x : R) : R := - par thi 0 * (x * x) / 2. (* line 13 *)
Definition ou_dx (thi : list R) (x : R) : R := - (x ^ 0) * par thi 0. (* line 17 *)
Definition ou_reduce (thi : list R) (v : R) : R := v / par thi 1. (* line 21 *)
Definition ou_dv (thi : list R) (v : R) : R := v ^ 0 / par thi 1. (* line 25 *)
Definition ou_dereduce (thi : list R) (x : R) : R := x * par thi 1. (* line 29 *)
(** eval_disc of ito/static.py: lines 64-67 *)
Definition ito_disc (drift dx : list R -> R -> R) (thi : list R) (x : R) : R := (drift thi x * drift thi x + dx thi x) / 2.
Definition ou_disc : list R -> R -> R := ito_disc ou_drift ou_dx.
Definition ou_inf (thi : list R) : R := - par thi 0 / 2. (* line 41 *)
(** lines 32-38 *)
Definition ou_bounds_disc (thi : list R) (le_x ue_x : R) : R * R * R :=
  let ll := if Rltb le_x 0 && Rltb 0 ue_x then ou_disc thi 0 else ou_disc thi (Rmin (Rabs le_x) (Rabs ue_x)) in
  let ul := ou_disc thi (Rmax (Rabs le_x) (Rabs ue_x)) in
  (ou_inf thi, ll, ul).
(** lines 52-59 *)
Definition ou_bounds_grad (thi_nil thi_prime : list R) (fin_t init_v fin_v lb_z ub_z : R) : list R :=
  let az := Rmax (Rabs lb_z) (Rabs ub_z) in
  let av := Rmax (Rabs init_v) (Rabs fin_v) in
  let ub := Rmax (par thi_nil 0) (par thi_prime 0) in
  let ls := Rmin (par thi_nil 1) (par thi_prime 1) in
  [ub * (fin_t * az ^ 2 + (av / ls) ^ 2 + 2 * sqrt fin_t * az * av / ls) + 1 / 2;
   ub ^ 2 * (sqrt fin_t * az * av / ls ^ 2 + av ^ 2 / ls ^ 3)].

(** ** ito/models/cir.py *)
Definition cir_drift (thi : list R) (x : R) : R := (2 * par thi 0 * par thi 1 / par thi 2 ^ 2 - 1 / 2) / x - par thi 0 / 2 * x. (* line 9 *)
Definition cir_sx (thi : list R) (x : R) : R := (2 * par thi 0 * par thi 1 / par thi 2 ^ 2 - 1 / 2) * ln x - par thi 0 / 4 * (x * x). (* line 13 *)
Definition cir_dx (thi : list R) (x : R) : R := (1 / 2 - 2 * par thi 0 * par thi 1 / par thi 2 ^ 2) / (x * x) - par thi 0 / 2. (* line 17 *)
Definition cir_reduce (thi : list R) (v : R) : R := 2 * sqrt v / par thi 2. (* line 21 *)
Definition cir_dv (thi : list R) (v : R) : R := 1 / (sqrt v * par thi 2). (* line 25 *)
Definition cir_dereduce (thi : list R) (x : R) : R := (x * par thi 2 / 2) * (x * par thi 2 / 2). (* line 29 *)
Definition cir_disc : list R -> R -> R := ito_disc cir_drift cir_dx.
(** line 49; the power 1/4 of a non-negative number *)
Definition cir_argmin (thi : list R) : R := sqrt (sqrt ((4 * par thi 1 / par thi 2 ^ 2 - 2 / par thi 0) ^ 2 - 1 / par thi 0 ^ 2)).
(** lines 32-46; [None] is NaN: when 4 kappa mu = 3 sigma^2 the minimum is at zero, where the
    code computes inf - inf; bounds_x is (0, inf), so the second test of line 38 is never true *)
Definition cir_bounds_disc (thi : list R) (le_x ue_x : R) : option R * option R * ext :=
  let e0 := cir_disc thi le_x in
  let e1 := cir_disc thi ue_x in
  if Rltb (4 * par thi 0 * par thi 1) (3 * par thi 2 ^ 2) then (None, Some (Rmin e0 e1), Fin (Rmax e0 e1))
  else
    let am := cir_argmin thi in
    let mp := if Reqb am 0 then None else Some (cir_disc thi am) in
    if Rltb le_x 0 then (mp, mp, PosInf)
    else if Rleb am le_x then (mp, Some e0, Fin e1)
    else if Rleb ue_x am then (mp, Some e1, Fin e0)
    else (mp, mp, Fin (Rmax e0 e1)).
(** line 60 *)
Definition cir_bounds_grad (thi_nil thi_prime : list R) (fin_t init_v fin_v lb_z ub_z : R) : list R := [0; 0; 0].

(** ** switching/models: one regime [y] *)
(** eval_disc of switching/static.py: lines 83-86 *)
Definition sw_disc (drift dx : list (list R) -> nat -> R -> R) (vol : list (list R) -> nat -> R) (thi : list (list R)) (y : nat) (x : R) : R :=
  ((drift thi y x / vol thi y) * (drift thi y x / vol thi y) + dx thi y x) / 2.
(** eval_bounds_disc, lines 35-42 of all three files *)
Definition sw_bounds_disc (disc : list (list R) -> nat -> R -> R) (inf : list (list R) -> nat -> R) (thi : list (list R)) (y : nat) (le_x ue_x : R) : R * R * R :=
  let ll := if Rltb le_x 0 && Rltb 0 ue_x then disc thi y 0 else disc thi y (Rmin (Rabs le_x) (Rabs ue_x)) in
  let ul := disc thi y (Rmax (Rabs le_x) (Rabs ue_x)) in
  (inf thi y, ll, ul).
(** ou.py: lines 8-21, 45 *)
Definition ou1_vol (thi : list (list R)) (y : nat) : R := 1 / par2 thi y 1.
Definition ou1_drift (thi : list (list R)) (y : nat) (x : R) : R := - par2 thi y 0 * x.
Definition ou1_sx (thi : list (list R)) (y : nat) (x : R) : R := - par2 thi y 0 * (x * x) / 2.
Definition ou1_dx (thi : list (list R)) (y : nat) (x : R) : R := - par2 thi y 0.
Definition ou1_inf (thi : list (list R)) (y : nat) : R := - par2 thi y 0 / 2.
Definition ou1_disc := sw_disc ou1_drift ou1_dx ou1_vol.
Definition ou1_bounds_disc := sw_bounds_disc ou1_disc ou1_inf.
(** ou.py: lines 48-55; the parameters are those of one regime *)
Definition ou1_bounds_grad (thi_nil thi_prime : list R) (fin_t init_v fin_v lb_z ub_z : R) : list R :=
  let az := Rmax (Rabs lb_z) (Rabs ub_z) in
  let av := Rmax (Rabs init_v) (Rabs fin_v) in
  let ub := Rmax (par thi_nil 0) (par thi_prime 0) in
  let ug := Rmax (par thi_nil 1) (par thi_prime 1) in
  [ub * (fin_t * az ^ 2 + (av * ug) ^ 2 + 2 * sqrt fin_t * az * av * ug) + 1 / 2;
   ub ^ 2 * (sqrt fin_t * az * av + av ^ 2 * ug)].
(** ou2.py: lines 8-21, 45 *)
Definition ou2_vol (thi : list (list R)) (y : nat) : R := par2 thi y 0 / par2 thi y 1.
Definition ou2_drift (thi : list (list R)) (y : nat) (x : R) : R := - par2 thi y 0 * x.
Definition ou2_sx (thi : list (list R)) (y : nat) (x : R) : R := - par2 thi y 0 * (x * x) / 2.
Definition ou2_dx (thi : list (list R)) (y : nat) (x : R) : R := - par2 thi y 0.
Definition ou2_inf (thi : list (list R)) (y : nat) : R := - par2 thi y 0 / 2.
Definition ou2_disc := sw_disc ou2_drift ou2_dx ou2_vol.
Definition ou2_bounds_disc := sw_bounds_disc ou2_disc ou2_inf.
(** ou2.py: lines 48-55 *)
Definition ou2_bounds_grad (thi_nil thi_prime : list R) (fin_t init_v fin_v lb_z ub_z : R) : list R :=
  let az := Rmax (Rabs lb_z) (Rabs ub_z) in
  let av := Rmax (Rabs init_v) (Rabs fin_v) in
  let ub := Rmax (par thi_nil 0) (par thi_prime 0) in
  let ul := Rmax (par thi_nil 1) (par thi_prime 1) in
  [ub * fin_t * az ^ 2 + ul * sqrt fin_t * az * av + 1 / 2;
   ul * av ^ 2 + ub * sqrt fin_t * az * av].
(** ou3.py: lines 8-21, 45, for a single regime *)
Definition ou3_vol (thi : list (list R)) (y : nat) : R := par2 thi y 0.
Definition ou3_drift (thi : list (list R)) (y : nat) (x : R) : R := - prod_row thi y * x.
Definition ou3_sx (thi : list (list R)) (y : nat) (x : R) : R := - prod_row thi y / 2 * (x * x) / 2.
Definition ou3_dx (thi : list (list R)) (y : nat) (x : R) : R := - prod_row thi y / 2.
Definition ou3_inf (thi : list (list R)) (y : nat) : R := - prod_row thi y / 2.
Definition ou3_disc := sw_disc ou3_drift ou3_dx ou3_vol.
Definition ou3_bounds_disc := sw_bounds_disc ou3_disc ou3_inf.
(** ou3.py: lines 48-55 *)
Definition ou3_bounds_grad (thi_nil thi_prime : list R) (fin_t init_v fin_v lb_z ub_z : R) : list R :=
  let az := Rmax (Rabs lb_z) (Rabs ub_z) in
  let av := Rmax (Rabs init_v) (Rabs fin_v) in
  let ur := Rmax (par thi_nil 0) (par thi_prime 0) in
  let ul := Rmax (par thi_nil 1) (par thi_prime 1) in
  [ul ^ 2 * (ur * fin_t * az ^ 2 + sqrt fin_t * az * av) + ul / 2;
   ul * (ur ^ 2 * fin_t * az ^ 2 + av ^ 2 + 2 * ur * sqrt fin_t * az * av) + ur / 2].
(** sx_eval_drift on arrays of regimes, as called by eval_biased_log_lik (switching/static.py
    line 72): element-wise for ou and ou2; for ou3 np.prod(thi[yt]) multiplies the parameters of
    all the regimes in the array *)
Definition pointwise_sx (sx : list (list R) -> nat -> R -> R) (thi : list (list R)) (yt : list nat) (xt : list R) : list R := map (fun p => sx thi (fst p) (snd p)) (combine yt xt).
Definition ou3_sx_array (thi : list (list R)) (yt : list nat) (xt : list R) : list R :=
  let p := np_prod (map (prod_row thi) yt) in map (fun x => - p / 2 * (x * x) / 2) xt.

(** ** flip_param_coin *)
(** x[is_updating] where is_updating = (thi_nil != thi_prime); lists of equal length *)
Definition updating (thi_nil thi_prime : list R) {A} (x : list A) : list A :=
  map snd (filter (fun p => negb (Reqb (fst (fst p)) (snd (fst p)))) (combine (combine thi_nil thi_prime) x)).
Definition rsum (l : list R) : R := fold_right Rplus 0 l.
(** ito/mcmc.py lines 110-111 *)
Definition ito_intensity (thi_nil thi_prime ub_abs_dphi : list R) : R :=
  rsum (map Rabs (updating thi_nil thi_prime (map (fun p => fst p - snd p) (combine thi_nil thi_prime)))) * rsum (map Rabs (updating thi_nil thi_prime ub_abs_dphi)).
(** switching/mcmc.py lines 144-145 *)
Definition sw_intensity (thi_nil thi_prime ub_abs_dphi : list R) : R :=
  rsum (map Rabs (updating thi_nil thi_prime (map (fun p => fst p - snd p) (combine thi_nil thi_prime)))) * rsum (updating thi_nil thi_prime ub_abs_dphi).
(** ito/mcmc.py lines 106-116 on one interval of duration fin_t (mod.t[-1]) from init_v to fin_v;
    gen_normops(thi, t, vt)[0] is the pair of operators from reduce(v0) to reduce(v1) *)
Definition ito_param_coin (fuel mp max_props : nat) (reduce disc : list R -> R -> R) (grad : list R -> list R -> R -> R -> R -> R -> R -> list R)
    (thi_nil thi_prime : list R) (fin_t init_v fin_v : R) (z : skel) (upside : bool) (batch_size : nat) : M (bool * skel) :=
  let intensity := ito_intensity thi_nil thi_prime (grad thi_nil thi_prime fin_t init_v fin_v (k_loose z) (k_tight z)) in
  let dt := fin_t - 0 in
  flip_dual_coin fuel mp max_props z intensity
    (ito_norm dt (reduce thi_nil init_v) (reduce thi_nil fin_v)) (ito_denorm dt (reduce thi_nil init_v) (reduce thi_nil fin_v)) (disc thi_nil)
    (ito_norm dt (reduce thi_prime init_v) (reduce thi_prime fin_v)) (ito_denorm dt (reduce thi_prime init_v) (reduce thi_prime fin_v)) (disc thi_prime)
    upside batch_size.
(** switching/mcmc.py lines 139-150; reduce is the identity for all models of the package *)
Definition sw_param_coin (fuel mp max_props : nat) (vol : list (list R) -> nat -> R) (disc : list (list R) -> nat -> R -> R)
    (grad : list R -> list R -> R -> R -> R -> R -> R -> list R)
    (thi_nil thi_prime : list (list R)) (fin_t : R) (y : nat) (init_v fin_v : R) (z : skel) (upside : bool) (batch_size : nat) : M (bool * skel) :=
  let intensity := sw_intensity (row thi_nil y) (row thi_prime y) (grad (row thi_nil y) (row thi_prime y) fin_t init_v fin_v (k_loose z) (k_tight z)) in
  let dt := fin_t - 0 in
  flip_dual_coin fuel mp max_props z intensity
    (sw_norm (vol thi_nil y) dt init_v fin_v) (sw_denorm (vol thi_nil y) dt init_v fin_v) (disc thi_nil y)
    (sw_norm (vol thi_prime y) dt init_v fin_v) (sw_denorm (vol thi_prime y) dt init_v fin_v) (disc thi_prime y)
    upside batch_size.
