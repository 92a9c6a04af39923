(** Model of ctbayes/sdelib/hitting.py, of ctbayes/sdelib/layers.py and of
    gen_seeded_brownbr_min (ctbayes/sdelib/transforms.py).  Numbers are exact reals,
    extended with infinities where the code lets them be infinite.  Definitions only. *)
From Coq Require Import Reals List Bool Arith.
From Verif Require Import Base Rng.
Import ListNotations.
Local Open Scope R_scope.

(** ** Distribution of the minimum of a Brownian bridge *)

(** line 45: pm *)
Definition pm_brownbr (min_x : ext) (fin_t init_x fin_x : R) : R :=
  match min_x with
  | NegInf => 0 (* np.exp(-inf) *)
  | Fin m => if Rltb m (Rmin init_x fin_x) then exp (-2 * (init_x - m) * (fin_x - m) / fin_t) else 1
  | PosInf => 1
  end.
(** lines 39-42: default bounds *)
Definition lb_default (lb : option ext) : ext := match lb with None => NegInf | Some l => l end.
Definition ub_default (ub : option R) (init_x fin_x : R) : R :=
  match ub with None => Rmin init_x fin_x | Some u => u end.
(** lines 43, 89, 139: lb_min_x < ub_min_x <= min(init_x, fin_x) *)
Definition bounds_ok (lb : ext) (ub : R) (init_x fin_x : R) : bool :=
  eltb lb (Fin ub) && Rleb ub (Rmin init_x fin_x).
(** lines 46, 91: np.isinf(lb_min_x) and ub_min_x == min(init_x, fin_x) *)
Definition unbounded_min (lb : ext) (ub : R) (init_x fin_x : R) : bool :=
  negb (is_fin lb) && Reqb ub (Rmin init_x fin_x).

(** cdf_brownbr_min: lines 9-51.  The recursive calls on line 49 use the default bounds and
    therefore return at line 47. *)
Definition cdf_brownbr_min (min_x : ext) (fin_t init_x fin_x : R) (lb : option ext) (ub : option R) : res R :=
  let l := lb_default lb in
  let u := ub_default ub init_x fin_x in
  if negb (Rltb 0 fin_t) then Raise AssertionError
  else if negb (bounds_ok l u init_x fin_x) then Raise AssertionError
  else
    let pm := pm_brownbr min_x fin_t init_x fin_x in
    if unbounded_min l u init_x fin_x then Ok pm
    else
      let cdf_lb := pm_brownbr l fin_t init_x fin_x in
      let cdf_ub := pm_brownbr (Fin u) fin_t init_x fin_x in
      Ok ((pm - cdf_lb) / (cdf_ub - cdf_lb)).

(** ppf_brownbr_min: lines 54-98; np.log(0) = -inf makes the result -inf *)
Definition ppf_brownbr_min (p : R) (fin_t init_x fin_x : R) (lb : option ext) (ub : option R) : res ext :=
  let l := lb_default lb in
  let u := ub_default ub init_x fin_x in
  if negb (Rleb 0 p && Rleb p 1) then Raise AssertionError
  else if negb (Rltb 0 fin_t) then Raise AssertionError
  else if negb (bounds_ok l u init_x fin_x) then Raise AssertionError
  else
    let pm := if unbounded_min l u init_x fin_x then p
              else let cdf_lb := pm_brownbr l fin_t init_x fin_x in
                   let cdf_ub := pm_brownbr (Fin u) fin_t init_x fin_x in
                   p * (cdf_ub - cdf_lb) + cdf_lb in
    if Reqb pm 0 then Ok NegInf
    else Ok (Fin ((fin_x + init_x - sqrt ((fin_x - init_x) ^ 2 - 2 * fin_t * ln pm)) / 2)).

(** sample_brownbr_min: lines 101-153.  [None] stands for (nan, -inf), the result of a
    minimum of -inf (uniform draw 0.0 and no lower bound). *)
Definition sample_brownbr_min (fin_t init_x fin_x : R) (lb : option ext) (ub : option R) : M (option (R * R)) :=
  let l := lb_default lb in
  let u := ub_default ub init_x fin_x in
  do _ <- assert_ (Rltb 0 fin_t);
  do _ <- assert_ (bounds_ok l u init_x fin_x);
  do p <- draw_r (DUniform 0 1);
  do e <- lift (ppf_brownbr_min p fin_t init_x fin_x (Some l) (Some u));
  match e with
  | Fin min_x =>
      let par1 := (fin_x - min_x) ^ 2 / (2 * fin_t) in
      let par2 := (min_x - init_x) ^ 2 / (2 * fin_t) in
      let par3 := sqrt (par1 / par2) in
      do v <- draw_r (DUniform 0 1);
      if Rltb v (1 / (1 + par3)) then
        do w <- draw_r (DWald par3 (2 * par1));
        ret (Some (fin_t / (1 + w), min_x))
      else
        do w <- draw_r (DWald (1 / par3) (2 * par2));
        ret (Some (fin_t / (1 + 1 / w), min_x))
  | _ =>
      do _ <- draw_r (DUniform 0 1);
      do _ <- draw_r (DWald 0 0); (* wald(nan, inf) *)
      ret None
  end.

(** ** Escape series *)

(** series_brownbr_esc, lines 368-372: up and down *)
Definition s_up (ue_x fin_t : R) (j : nat) (a b : R) : R :=
  exp (-2 * (ue_x * (2 * INR j - 1) - a) * (ue_x * (2 * INR j - 1) - b) / fin_t).
Definition s_down (ue_x fin_t : R) (j : nat) (a b : R) : R :=
  exp (-2 * INR j * (4 * ue_x ^ 2 * INR j + 2 * ue_x * (a - b)) / fin_t).
(** lines 390-393: one pass of the loop, i >= 1 *)
Definition brown_inc (fin_t init_x fin_x ue_x : R) (i : nat) : R :=
  if Nat.odd i then
    s_up ue_x fin_t (Nat.div (i + 1) 2) init_x fin_x + s_up ue_x fin_t (Nat.div (i + 1) 2) (- init_x) (- fin_x)
  else
    - (s_down ue_x fin_t (Nat.div i 2) init_x fin_x + s_down ue_x fin_t (Nat.div i 2) (- init_x) (- fin_x)).
(** the i-th value yielded (i >= 1); the sum is 0 before the first *)
Fixpoint brown_sum (fin_t init_x fin_x ue_x : R) (i : nat) : R :=
  match i with
  | O => 0
  | S k => brown_sum fin_t init_x fin_x ue_x k + brown_inc fin_t init_x fin_x ue_x i
  end.

(** A floating point number that may be infinite; [None] is NaN. *)
Definition fval : Type := option ext.
(** comparisons: always False with NaN *)
Definition flt (a b : fval) : bool := match a, b with Some x, Some y => eltb x y | _, _ => false end.
Definition feq (a b : fval) : bool :=
  match a, b with
  | Some NegInf, Some NegInf | Some PosInf, Some PosInf => true
  | Some (Fin x), Some (Fin y) => Reqb x y
  | _, _ => false
  end.
(** lines 385, 430: 1 - (1 - r) / (1 - s) on finite r, s; 1 - s is +0.0 when s = 1 *)
Definition fratio (r s : R) : fval :=
  if Reqb s 1 then
    (if Rltb r 1 then Some NegInf else if Rltb 1 r then Some PosInf else None)
  else Some (Fin (1 - (1 - r) / (1 - s))).

(** series_brownbr_esc: lines 354-394; value yielded at position i >= 1.  In the bounded
    case zip never ends, so the code after the for loop is not reached; islice(.., 1, None)
    drops the first value of the denominator. *)
Definition series_brownbr_esc (fin_t init_x fin_x ue_x : R) (ub_x : option R) (i : nat) : fval :=
  match ub_x with
  | None => Some (Fin (brown_sum fin_t init_x fin_x ue_x i))
  | Some ub => fratio (brown_sum fin_t init_x fin_x ue_x i) (brown_sum fin_t init_x fin_x ub (S i))
  end.

(** the deciding loops, lines 263-265 and 349-351: values at positions i, i+1, ... *)
Fixpoint esc_loop (ser : nat -> fval) (fuel i : nat) (seed : R) : res bool :=
  match fuel with
  | O => NoFuel
  | S f =>
      let s := ser i in
      if orb (andb (Nat.even i) (flt (Some (Fin seed)) s)) (andb (Nat.odd i) (flt s (Some (Fin seed))))
      then Ok (Nat.even i)
      else esc_loop ser f (S i) seed
  end.

(** lines 252-253 and 324-325: the seed, drawn when not given *)
Definition get_seed (seed : option R) : M R :=
  match seed with Some s => ret s | None => draw_r (DUniform 0 1) end.

(** sample_brownbr_esc: lines 213-265 *)
Definition sample_brownbr_esc (fuel : nat) (fin_t init_x fin_x ue_x : R) (ub_x : option R) (seed : option R) : M bool :=
  do s <- get_seed seed;
  do _ <- assert_ (Rltb 0 fin_t);
  do _ <- assert_ (Rleb 0 s && Rleb s 1);
  if Rleb ue_x (Rmax (Rabs init_x) (Rabs fin_x)) then ret true
  else if match ub_x with Some ub => Rltb ub ue_x | None => false end then ret false
  else
    (* assertions of the generator, lines 374-378 *)
    do _ <- assert_ (Rltb 0 ue_x);
    do _ <- assert_ (match ub_x with Some ub => Rltb 0 ub | None => true end);
    lift (esc_loop (series_brownbr_esc fin_t init_x fin_x ue_x ub_x) fuel 1 s).

(** series_bessel3br_esc, lines 411-412: inc *)
Definition s_inc (ue_x fin_t : R) (i : nat) (b : R) : R :=
  (2 * ue_x * INR i + b) * exp (-2 * ue_x * INR i * (ue_x * INR i + b) / fin_t).
(** lines 440-443: one pass of the loop, j >= 1 *)
Definition bessel0_inc (fin_t fin_x ue_x : R) (j : nat) : R :=
  if Nat.odd j then s_inc ue_x fin_t (Nat.div (j + 1) 2) (- fin_x) / fin_x
  else - (s_inc ue_x fin_t (Nat.div j 2) fin_x / fin_x).
Fixpoint bessel0_sum (fin_t fin_x ue_x : R) (i : nat) : R :=
  match i with
  | O => 0
  | S k => bessel0_sum fin_t fin_x ue_x k + bessel0_inc fin_t fin_x ue_x i
  end.
(** the unbounded series: lines 432-444; for init_x > 0 (and fin_x > 0, asserted) the
    denominator on line 435 is not 0 *)
Definition bessel_sum (fin_t init_x fin_x ue_x : R) (i : nat) : R :=
  if Reqb init_x 0 then bessel0_sum fin_t fin_x ue_x i
  else 1 - (1 - brown_sum fin_t (init_x - ue_x / 2) (fin_x - ue_x / 2) (ue_x / 2) i)
           / (1 - exp (-2 * init_x * fin_x / fin_t)).
(** series_bessel3br_esc: lines 397-444.  The trivial case of line 422 is not reached from
    sample_bessel3br_esc, which only calls it with max(init_x, fin_x) < ue_x (<= ub_x). *)
Definition series_bessel3br_esc (fin_t init_x fin_x ue_x : R) (ub_x : option R) (i : nat) : fval :=
  match ub_x with
  | None => Some (Fin (bessel_sum fin_t init_x fin_x ue_x i))
  | Some ub => fratio (bessel_sum fin_t init_x fin_x ue_x i) (bessel_sum fin_t init_x fin_x ub (S i))
  end.

(** lines 340-347: fast forward; returns the next position i0.  seq[0] = 0. *)
Definition ff_seq (ser : nat -> fval) (i : nat) : fval :=
  match i with O => Some (Fin 0) | S _ => ser i end.
Fixpoint ff_loop (ser : nat -> fval) (fuel i : nat) : res nat :=
  match fuel with
  | O => NoFuel
  | S f =>
      if orb (andb (andb (Nat.ltb 2 i) (Nat.odd i))
                   (andb (flt (ff_seq ser i) (Some (Fin 1)))
                         (andb (flt (ff_seq ser i) (ff_seq ser (i - 2))) (flt (ff_seq ser (i - 1)) (ff_seq ser i)))))
             (feq (ff_seq ser i) (ff_seq ser (i - 1)))
      then Ok (S i)
      else ff_loop ser f (S i)
  end.

(** sample_bessel3br_esc: lines 268-351 *)
Definition sample_bessel3br_esc (fuel : nat) (fin_t init_x fin_x ue_x : R) (ub_x : option R) (seed : option R) : M bool :=
  do s <- get_seed seed;
  do _ <- assert_ (Rltb 0 fin_t);
  do _ <- assert_ (Rleb 0 init_x);
  do _ <- assert_ (Rltb 0 fin_x);
  do _ <- assert_ (Rleb 0 s && Rleb s 1);
  if Rleb ue_x (Rmax init_x fin_x) then ret true
  else if match ub_x with Some ub => Rltb ub ue_x | None => false end then ret false
  else
    do _ <- assert_ (Rltb 0 ue_x);
    do _ <- assert_ (match ub_x with Some ub => Rltb 0 ub | None => true end);
    let ser := series_bessel3br_esc fin_t init_x fin_x ue_x ub_x in
    do i0 <- (if Rltb fin_t (3 * ue_x ^ 2) then ret 1%nat else lift (ff_loop ser fuel 1));
    lift (esc_loop ser fuel i0 s).

(** sample_layerbr_min: lines 156-210; on a NaN time the assertion of
    sample_bessel3br_esc fails. *)
Fixpoint layerbr_min_loop (fuel n : nat) (fin_t init_x fin_x : R) (ub_x : option R) (lb_min_x : option ext) (ub_min_x : option R)
  : M (option (R * R)) :=
  match n with
  | O => raise BudgetConstraintError
  | S n' =>
      do m <- sample_brownbr_min fin_t init_x fin_x lb_min_x ub_min_x;
      match ub_x with
      | None => ret m
      | Some ub =>
          match m with
          | None => raise AssertionError
          | Some (min_t, min_x) =>
              do esc1 <- sample_bessel3br_esc fuel min_t 0 (init_x - min_x) (ub - min_x) None None;
              do esc2 <- sample_bessel3br_esc fuel (fin_t - min_t) 0 (fin_x - min_x) (ub - min_x) None None;
              if negb esc1 && negb esc2 then ret (Some (min_t, min_x))
              else layerbr_min_loop fuel n' fin_t init_x fin_x ub_x lb_min_x ub_min_x
          end
      end
  end.
Definition sample_layerbr_min (fuel max_props : nat) (fin_t init_x fin_x : R) (ub_x : option R) (lb_min_x : option ext)
    (ub_min_x : option R) : M (option (R * R)) :=
  do _ <- assert_ (Rltb 0 fin_t);
  do _ <- assert_ (match ub_x with Some ub => Rleb (Rmax init_x fin_x) ub | None => true end);
  layerbr_min_loop fuel max_props fin_t init_x fin_x ub_x lb_min_x ub_min_x.

(** ** transforms.py lines 122-176: gen_seeded_brownbr_min *)
(** lines 156-160: gen_seeded_wald *)
Definition gen_seeded_wald (u1 r2 : R) (mu lam : R) : R :=
  let cand := mu + (mu ^ 2 * r2 - mu * sqrt (4 * mu * lam * r2 + mu ^ 2 * r2 ^ 2)) / (2 * lam) in
  if Rltb u1 (mu / (mu + cand)) then cand else mu ^ 2 / cand.
(** [Raise ValueError] in the last branch does not occur: u[0] > 0 makes the minimum finite *)
Definition gen_seeded_brownbr_min (u0 u1 u2 r2 fin_t init_x fin_x : R) : res (R * R) :=
  if negb (Rltb 0 (Rmin u0 (Rmin u1 u2)) && Rltb (Rmax u0 (Rmax u1 u2)) 1) then Raise AssertionError
  else if negb (Rltb 0 r2) then Raise AssertionError
  else if negb (Rltb 0 fin_t) then Raise AssertionError
  else
    match ppf_brownbr_min u0 fin_t init_x fin_x None None with
    | Ok (Fin min_x) =>
        let par1 := (fin_x - min_x) ^ 2 / (2 * fin_t) in
        let par2 := (min_x - init_x) ^ 2 / (2 * fin_t) in
        let par3 := sqrt (par1 / par2) in
        Ok (if Rltb u2 (1 / (1 + par3)) then fin_t / (1 + gen_seeded_wald u1 r2 par3 (2 * par1))
            else fin_t / (1 + 1 / gen_seeded_wald u1 r2 (1 / par3) (2 * par2)), min_x)
    | Ok _ => Raise ValueError
    | Raise e => Raise e
    | NoFuel => NoFuel
    end.

(** ** layers.py *)

(** m - e with e possibly infinite *)
Definition esub_from (m : R) (e : ext) : ext :=
  match e with Fin r => Fin (m - r) | PosInf => NegInf | NegInf => PosInf end.
(** compute_edges: layers.py lines 161-202, with the default pow=2 (no caller passes
    another one) *)
Definition compute_edges (i : nat) (fin_t init_x fin_x : R) (lb_x ub_x : ext) : res (ext * ext) :=
  if negb (Rltb 0 fin_t) then Raise AssertionError
  else if negb (eltb lb_x (Fin (Rmin init_x fin_x))) then Raise AssertionError
  else if negb (eltb (Fin (Rmax init_x fin_x)) ub_x) then Raise AssertionError
  else
    match i with
    | O => Ok (Fin (Rmin init_x fin_x), Fin (Rmax init_x fin_x))
    | S _ =>
        let mirror := (init_x + fin_x) / 2 in
        let p := 1 / (INR i ^ 2 + 1) in
        rdo le_x <- ppf_brownbr_min p fin_t init_x fin_x (Some lb_x) None;
        rdo ue <- ppf_brownbr_min p fin_t (mirror - init_x) (mirror - fin_x) (Some (esub_from mirror ub_x)) None;
        Ok (le_x, esub_from mirror ue)
    end.

(** layers.py lines 78-84: the loop that rejects escaping seeds *)
Fixpoint layer_reject (fuel n : nat) (fin_t init_x fin_x lb ub : R) : M R :=
  match n with
  | O => raise BudgetConstraintError
  | S n' =>
      do u <- draw_r (DUniform 0 1);
      let offset := (lb + ub) / 2 in
      let width := ub - lb in
      do esc <- sample_brownbr_esc fuel fin_t (init_x - offset) (fin_x - offset) (width / 2) None (Some u);
      if esc then layer_reject fuel n' fin_t init_x fin_x lb ub else ret u
  end.
(** lines 77-90: the seed *)
Definition layer_seed (fuel max_props : nat) (fin_t init_x fin_x : R) (lb_x ub_x : ext) : M R :=
  match lb_x, ub_x with
  | Fin lb, Fin ub => layer_reject fuel max_props fin_t init_x fin_x lb ub
  | Fin lb, _ => do c <- lift (cdf_brownbr_min (Fin lb) fin_t init_x fin_x None None); draw_r (DUniform c 1)
  | _, Fin ub => do c <- lift (cdf_brownbr_min (Fin (- ub)) fin_t (- fin_x) (- init_x) None None); draw_r (DUniform c 1)
  | _, _ => draw_r (DUniform 0 1)
  end.
(** lines 92-96: the first layer from which the seed does not escape.  An infinite edge
    (it does not occur: the probability on line 199 is positive) would make the offset nan. *)
Fixpoint layer_loop (fuel n l : nat) (fin_t init_x fin_x : R) (lb_x ub_x : ext) (u : R) : M nat :=
  match n with
  | O => nofuel
  | S n' =>
      do e <- lift (compute_edges l fin_t init_x fin_x lb_x ub_x);
      match e with
      | (Fin le, Fin ue) =>
          let offset := (le + ue) / 2 in
          let width := ue - le in
          do esc <- sample_brownbr_esc fuel fin_t (init_x - offset) (fin_x - offset) (width / 2) None (Some u);
          if esc then layer_loop fuel n' (S l) fin_t init_x fin_x lb_x ub_x u else ret l
      | _ => raise ValueError
      end
  end.
(** sample_layer: lines 10-96 *)
Definition sample_layer (fuel max_props : nat) (fin_t init_x fin_x : R) (lb_x ub_x : ext) : M nat :=
  do _ <- assert_ (Rltb 0 fin_t);
  do u <- layer_seed fuel max_props fin_t init_x fin_x lb_x ub_x;
  layer_loop fuel fuel 1 fin_t init_x fin_x lb_x ub_x u.

(** -e with e possibly infinite *)
Definition eopp (e : ext) : ext := match e with Fin r => Fin (- r) | PosInf => NegInf | NegInf => PosInf end.
(** sample_anchor: lines 99-124; the second component of the result are the two sectors *)
Definition sample_anchor (fuel max_props : nat) (fin_t init_x fin_x : R) (lb_x ub_x : ext)
  : M (bool * (ext * ext) * (ext * ext)) :=
  do _ <- assert_ (Rltb 0 fin_t);
  do layer_ix <- sample_layer fuel max_props fin_t init_x fin_x lb_x ub_x;
  do in_layer <- lift (compute_edges layer_ix fin_t init_x fin_x lb_x ub_x);
  do ou_layer <- lift (compute_edges (layer_ix - 1) fin_t init_x fin_x lb_x ub_x);
  let lo_sector := (fst in_layer, fst ou_layer) in
  let hi_sector := (snd ou_layer, snd in_layer) in
  do p_lo <- lift (cdf_brownbr_min (snd lo_sector) fin_t init_x fin_x (Some (fst lo_sector)) None);
  do p_hi <- lift (cdf_brownbr_min (eopp (fst hi_sector)) fin_t (- fin_x) (- init_x) (Some (eopp (snd hi_sector))) None);
  do u <- draw_r (DUniform 0 1);
  ret (Rltb u (p_lo / (p_lo + p_hi)), lo_sector, hi_sector).

(** sample_edges: lines 127-158 *)
Fixpoint edges_loop (fuel mp n : nat) (fin_t init_x fin_x lb_inf ub_inf lb_sup ub_sup : R)
  : M (option (R * R * R * R * option (bool * bool))) :=
  match n with
  | O => raise BudgetConstraintError
  | S n' =>
      do m <- sample_layerbr_min fuel mp fin_t init_x fin_x (Some ub_sup) (Some (Fin lb_inf)) (Some ub_inf);
      match m with
      | None => ret None
      | Some (min_t, min_x) =>
          if orb (Reqb (Rmin init_x fin_x) ub_inf) (Reqb (Rmin init_x fin_x) lb_sup)
          then ret (Some (min_t, min_x, lb_sup, ub_sup, None))
          else
            do esc1 <- sample_bessel3br_esc fuel min_t 0 (init_x - min_x) (lb_sup - min_x) (Some (ub_sup - min_x)) None;
            do esc2 <- sample_bessel3br_esc fuel (fin_t - min_t) 0 (fin_x - min_x) (lb_sup - min_x) (Some (ub_sup - min_x)) None;
            if negb esc1 && negb esc2 then ret (Some (min_t, min_x, lb_sup, ub_sup, Some (esc1, esc2)))
            else
              do v <- draw_r (DUniform 0 1);
              if Rltb (1/2) v then ret (Some (min_t, min_x, lb_sup, ub_sup, Some (esc1, esc2)))
              else edges_loop fuel mp n' fin_t init_x fin_x lb_inf ub_inf lb_sup ub_sup
      end
  end.
Definition sample_edges (fuel mp max_props : nat) (fin_t init_x fin_x : R) (bounds_inf_x bounds_sup_x : R * R)
  : M (option (R * R * R * R * option (bool * bool))) :=
  do _ <- assert_ (Rltb 0 fin_t);
  do _ <- assert_ (Nat.ltb 0 max_props);
  edges_loop fuel mp max_props fin_t init_x fin_x (fst bounds_inf_x) (snd bounds_inf_x) (fst bounds_sup_x) (snd bounds_sup_x).
