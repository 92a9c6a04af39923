(** Model of ctbayes/misc/ars.py: adaptive rejection sampling.
    Numbers are exact reals; a floating-point operation whose result is not a finite number
    where the code needs one (division by zero, log of a non-positive number, inf - inf)
    is [None]. *)
From Coq Require Import Reals List ZArith Bool Arith.
From Verif Require Import Base Np Rng M_adapt.
Import ListNotations.
Local Open Scope R_scope.

(** a / b elementwise *)
Definition fdiv (a b : R) : option R := if Reqb b 0 then None else Some (a / b).
Fixpoint opt_list {A} (l : list (option A)) : option (list A) :=
  match l with
  | [] => Some []
  | None :: _ => None
  | Some a :: r => match opt_list r with Some r' => Some (a :: r') | None => None end
  end.
Definition map2 {A B C} (g : A -> B -> C) (l : list A) (m : list B) : list C :=
  map (fun p => g (fst p) (snd p)) (combine l m).

(** gen_upper: ctbayes/misc/ars.py lines 102-115 *)
Definition gen_upper (x fx dfx : list R) : option (list R) :=
  let num := np_diff (map2 Rminus fx (map2 Rmult x dfx)) in
  let den := map2 Rminus (but_last dfx) (tl dfx) in
  opt_list (map2 fdiv num den).

(** line 49: y = [lb, *gen_upper(x, fx, dfx), ub] *)
Definition hull_breaks (lb ub : ext) (x fx dfx : list R) : option (list ext) :=
  match gen_upper x fx dfx with
  | Some u => Some (lb :: map Fin u ++ [ub])
  | None => None
  end.

(** np.searchsorted(y, v) on an array with infinite entries *)
Definition esearch (y : list ext) (v : R) : nat := length (filter (fun a => eltb a (Fin v)) y).

Definition get {A} (l : list A) (i : Z) : res A :=
  match pyget l i with Some a => Ok a | None => Raise IndexError end.

(** eval_upper: lines 118-136 *)
Definition eval_upper (x fx dfx : list R) (y : list ext) (x_new : R) : res R :=
  let i := (Z.of_nat (esearch y x_new) - 1)%Z in
  rdo f <- get fx i;
  rdo a <- get x i;
  rdo d <- get dfx i;
  Ok (f + (x_new - a) * d).

(** eval_lower: lines 139-156 *)
Definition eval_lower (x fx : list R) (x_new : R) : res ext :=
  let i := (Z.of_nat (searchsorted_left x x_new) - 1)%Z in
  if orb (Z.eqb i (-1)) (Z.eqb i (Z.of_nat (length x) - 1)) then Ok NegInf
  else
    rdo a <- get x i;
    rdo b <- get x (i + 1);
    rdo fa <- get fx i;
    rdo fb <- get fx (i + 1);
    Ok (Fin (((b - x_new) * fa + (x_new - a) * fb) / (b - a))).

(** dfx * (y - x) + fx, lines 182-185 *)
Definition seg_exp (x f d : R) (y : ext) : option ext :=
  match y with
  | Fin v => Some (Fin (d * (v - x) + f))
  | PosInf => if Rltb 0 d then Some PosInf else if Rltb d 0 then Some NegInf else None
  | NegInf => if Rltb 0 d then Some NegInf else if Rltb d 0 then Some PosInf else None
  end.
(** np.max of extended reals *)
Definition emax (a b : ext) : ext := if eltb a b then b else a.
Definition np_emax (l : list ext) : option ext :=
  match l with [] => None | a :: r => Some (fold_left emax r a) end.
(** exp(e - offset) / d *)
Definition vol (off : R) (d : R) (e : ext) : option R :=
  match e with
  | Fin r => fdiv (exp (r - off)) d
  | NegInf => fdiv 0 d
  | PosInf => None
  end.
Fixpoint map3 {A B C D} (g : A -> B -> C -> D) (l : list A) (m : list B) (n : list C) : list D :=
  match l, m, n with
  | a :: l', b :: m', c :: n' => g a b c :: map3 g l' m' n'
  | _, _, _ => []
  end.
Definition seg_exps (x fx dfx : list R) (y : list ext) : option (list ext) :=
  opt_list (map2 (fun p v => seg_exp (fst (fst p)) (snd (fst p)) (snd p) v) (zip3 x fx dfx) y).
Definition obind {A B} (o : option A) (g : A -> option B) : option B := match o with Some a => g a | None => None end.

(** Lines 182-187: offset, vol_lower and cdf *)
Definition envelope_table (x fx dfx : list R) (y : list ext) : option (R * list R * list R) :=
  obind (seg_exps x fx dfx (tl y)) (fun eu =>
  obind (seg_exps x fx dfx (removelast y)) (fun el =>
  obind (np_emax eu) (fun m =>
  match m with
  | Fin off =>
      obind (opt_list (map2 (vol off) dfx eu)) (fun vu =>
      obind (opt_list (map2 (vol off) dfx el)) (fun vl =>
      Some (off, vl, 0 :: np_cumsum (map2 Rminus vu vl))))
  | _ => None
  end))).

(** sample_envelope: lines 159-194.  The result is [None] when it is not a number. *)
Definition sample_envelope (x fx dfx : list R) (y : list ext) : M (option R) :=
  match envelope_table x fx dfx y with
  | None => do _ <- draw_r (DUniform 0 1); ret None
  | Some (off, vl, cdf) =>
      do norm <- lift (get cdf (-1));
      do z <- draw_r (DUniform 0 1);
      match opt_list (map (fun c => fdiv c norm) cdf) with
      | None => ret None
      | Some ncdf =>
          let i := (Z.of_nat (searchsorted_left ncdf z) - 1)%Z in
          do a <- lift (get x i);
          do d <- lift (get dfx i);
          do f <- lift (get fx i);
          do v <- lift (get vl i);
          do c <- lift (get cdf i);
          ret (obind (np_log ((norm * z - c + v) * d)) (fun l =>
               obind (fdiv (l - f + off) d) (fun q => Some (a + q))))
      end
  end.

(** Loop state of sample: lines 43-44 *)
Record hull : Type := mk_hull { h_x : list R; h_fx : list R; h_dfx : list R }.
Definition hull_init (f df : R -> R) (init : list R) : hull :=
  let x := np_sort init in mk_hull x (map f x) (map df x).
(** np.insert(l, i, v) *)
Definition insert_at {A} (l : list A) (i : nat) (v : A) : list A := firstn i l ++ v :: skipn i l.

(** One iteration of the loop: lines 48-67.  [None] as result: a value is not a number and
    the further run is not described.  The second component is the yielded value. *)
Definition ars_step (f df : R -> R) (lb ub : ext) (max_points : nat) (h : hull) : M (option (hull * option R)) :=
  match hull_breaks lb ub (h_x h) (h_fx h) (h_dfx h) with
  | None => ret None
  | Some y =>
      do xo <- sample_envelope (h_x h) (h_fx h) (h_dfx h) y;
      match xo with
      | None => ret None
      | Some x_new =>
          do lo <- lift (eval_lower (h_x h) (h_fx h) x_new);
          do up <- lift (eval_upper (h_x h) (h_fx h) (h_dfx h) y x_new);
          do u <- draw_r (DUniform 0 1);
          (* z = np.log(u) is -inf for u = 0 *)
          let below (t : ext) := match t with
            | NegInf => false
            | Fin w => if Reqb u 0 then true else Rltb (ln u) (w - up)
            | PosInf => true end in
          if below lo then ret (Some (h, Some x_new))
          else if below (Fin (f x_new)) then ret (Some (h, Some x_new))
          else if Nat.ltb (length (h_x h)) max_points then
            let i := searchsorted_left (h_x h) x_new in
            ret (Some (mk_hull (insert_at (h_x h) i x_new) (insert_at (h_fx h) i (f x_new)) (insert_at (h_dfx h) i (df x_new)), None))
          else ret (Some (h, None))
      end
  end.

(** The first [n] iterations of the loop (lines 46-67): yielded values so far and the hull.
    [draws] is max_draws, None for np.inf. *)
Fixpoint ars_run (n : nat) (f df : R -> R) (lb ub : ext) (max_points : nat) (draws : option nat) (h : hull)
  : M (option (list R * hull)) :=
  match n, draws with
  | O, _ | _, Some O => ret (Some ([], h))
  | S n', _ =>
      do r <- ars_step f df lb ub max_points h;
      match r with
      | None => ret None
      | Some (h', None) => ars_run n' f df lb ub max_points draws h'
      | Some (h', Some v) =>
          do r' <- ars_run n' f df lb ub max_points (option_map Nat.pred draws) h';
          ret (option_map (fun p => (v :: fst p, snd p)) r')
      end
  end.

(** brace: lines 70-99, for the mode found by scipy's minimize *)
Definition brace (mode : R) (lb ub : ext) : R * R :=
  (match lb with Fin l => (mode + l) / 2 | _ => mode - 1 end,
   match ub with Fin u => (mode + u) / 2 | _ => mode + 1 end).
