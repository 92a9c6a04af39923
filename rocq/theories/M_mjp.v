(** Model of ctbayes/mjplib/skeleton.py.  Definitions only. *)
From Coq Require Import Reals List ZArith Bool Arith.
From Verif Require Import Base Np Rng Mat.
Import ListNotations.

(** ** Skeletons (lines 9-22) *)

(** class Skeleton(NamedTuple): lines 9-12.  States are integers >= 0. *)
Record skel (T : Type) : Type := mk_skel { sk_t : list T; sk_x : list nat; sk_fin : T }.
Arguments mk_skel {T} _ _ _.
Arguments sk_t {T} _.
Arguments sk_x {T} _.
Arguments sk_fin {T} _.

Section Discrete.
Context {T : Type} `{Num T}.

(** Skeleton.__call__: lines 14-17.  An array of evaluation times. *)
Definition skel_call (s : skel T) (ts : list T) : res (list nat) :=
  if existsb (fun t => nltb (sk_fin s) t) ts then Raise ValueError
  else
    fold_right (fun t acc =>
        rdo xs <- acc;
        match pyget (sk_x s) (Z.of_nat (searchsorted_right (sk_t s) t) - 1) with
        | Some x => Ok (x :: xs)
        | None => Raise IndexError
        end) (Ok []) ts.

(** Skeleton.__eq__: lines 19-22. *)
Definition skel_eq (a b : skel T) : bool :=
  (Nat.eqb (length (sk_t a)) (length (sk_t b))
     && forallb (fun p => neqb (fst p) (snd p)) (combine (sk_t a) (sk_t b)))
  && (Nat.eqb (length (sk_x a)) (length (sk_x b))
     && forallb (fun p => Nat.eqb (fst p) (snd p)) (combine (sk_x a) (sk_x b)))
  && neqb (sk_fin a) (sk_fin b).

(** ~is_virtual for [is_virtual = np.hstack([False, x[1:] == x[:-1]])]:
    lines 222 and 275. *)
Definition not_virtual (x : list nat) : list bool :=
  map negb (false :: eq_pairs (tl x) (but_last x)).

(** paste_partition: lines 254-277.  [zip] of an empty list cannot be unpacked
    (ValueError); a boolean mask of the wrong length is an IndexError. *)
Definition paste_partition (partition : list (skel T)) : res (skel T) :=
  let partition := filter (fun s => negb (neqb (sk_fin s) n0)) partition in
  let breaks := n0 :: np_cumsum (map sk_fin partition) in
  match partition with
  | [] => Raise ValueError
  | _ =>
      let t := concat (map (fun p => map (nadd (fst p)) (sk_t (snd p)))
                         (combine (but_last breaks) partition)) in
      let x := concat (map sk_x partition) in
      match mask t (not_virtual x), mask x (not_virtual x), last_opt breaks with
      | Some t', Some x', Some b => Ok (mk_skel t' x' b)
      | _, _, _ => Raise IndexError
      end
  end.

(** partition_skeleton: lines 314-342. *)
Definition partition_skeleton (s : skel T) (new_t : list T) : list (skel T) :=
  let new_t := n0 :: new_t ++ [sk_fin s] in
  let slice_right := map (searchsorted_right (sk_t s)) new_t in
  let slice_left := map (searchsorted_left (sk_t s)) new_t in
  let t := map (fun p => let '(init_t, i0, i1) := p in
                  n0 :: map (fun u => nsub u init_t)
                          (pyslice (sk_t s) (Z.of_nat i0) (Z.of_nat i1)))
             (zip3 new_t slice_right (tl slice_left)) in
  let x := map (fun p => let '(i0, t_) := p in
                  pyslice (sk_x s) (Z.of_nat i0 - 1) (Z.of_nat i0 - 1 + Z.of_nat (length t_)))
             (combine slice_right t) in
  map (fun p => let '(t_, x_, fin_t) := p in mk_skel t_ x_ fin_t)
    (zip3 t x (np_diff (new_t ++ [sk_fin s]))).

(** repartition_skeleton: lines 345-365. *)
Definition repartition_skeleton (partition : list (skel T)) (new_t : list T)
  : res (list (skel T)) :=
  rdo s <- paste_partition partition; Ok (partition_skeleton s new_t).
End Discrete.

Local Open Scope R_scope.

(** ** Poisson point processes (lines 28-99) *)

(** Running generator of sample_batch_ppp: drawn number of points, remaining batch
    sizes, current [ub]. *)
Record ppp_state : Type := mk_ppp { pp_n : nat; pp_sizes : list nat; pp_ub : R }.

(** np.prod(bounds) *)
Definition np_prod (l : list R) : R := fold_right Rmult 1 l.

(** batch sizes: lines 53-55. *)
Definition batch_sizes (n_points batch_size : nat) : list nat :=
  repeat batch_size (n_points / batch_size) ++
  (if Nat.eqb (n_points mod batch_size) 0 then [] else [n_points mod batch_size]).

(** sample_batch_ppp up to the first iteration: lines 48-57.  The assertions run at
    the first [next()].  min(()) raises ValueError. *)
Definition ppp_start (intensity : R) (bounds : list R) (batch_size : nat) : M ppp_state :=
  do _ <- assert_ (Rltb 0 intensity);
  do b0 <- lift_opt ValueError (hd_error bounds);
  do _ <- assert_ (Rltb 0 (np_min_from b0 (tl bounds)));
  do _ <- assert_ (Nat.ltb 0 batch_size);
  do n_points <- draw_n (DPoisson (intensity * np_prod bounds));
  ret (mk_ppp n_points (batch_sizes n_points batch_size) 0).

(** the (i, len(bounds)-1) array of uniforms of line 64, row by row *)
Fixpoint draw_rows (i : nat) (ds : list rdist) : M (list (list R)) :=
  match i with
  | O => ret []
  | S i' => do r <- draw_rs ds; do rs <- draw_rows i' ds; ret (r :: rs)
  end.

(** one iteration of the loop: lines 58-65.  [None] = generator exhausted.  A batch
    is a list of points, a point its list of coordinates. *)
Definition ppp_next (bounds : list R) (s : ppp_state) : M (option (list (list R) * ppp_state)) :=
  match pp_sizes s with
  | [] => ret None
  | i :: rest =>
      do b <- draw_r (DBeta (INR i) (INR (pp_n s) + 1 - INR i));
      let lb := pp_ub s in
      let ub := pp_ub s + hd 0 bounds * b in
      do u0 <- (if Nat.eqb i 1 then ret [ub]
                else do us <- draw_rs (repeat (DUniform lb ub) (i - 1));
                     ret (np_sort us ++ [ub]));
      do u <- draw_rows i (map (DUniform 0) (tl bounds));
      ret (Some (map (fun p => fst p :: snd p) (combine u0 u), mk_ppp (pp_n s) rest ub))
  end.

(** Draining the generator: list(sample_batch_ppp(...)).  Structural on the batch
    sizes, so no fuel is needed. *)
Fixpoint ppp_drain (fuel : nat) (bounds : list R) (s : ppp_state) : M (list (list (list R))) :=
  match fuel with
  | O => nofuel
  | S f =>
      do r <- ppp_next bounds s;
      match r with
      | None => ret []
      | Some (batch, s') => do bs <- ppp_drain f bounds s'; ret (batch :: bs)
      end
  end.
Definition sample_batch_ppp (intensity : R) (bounds : list R) (batch_size : nat)
  : M (list (list (list R))) :=
  do s <- ppp_start intensity bounds batch_size;
  ppp_drain (S (length (pp_sizes s))) bounds s.

(** rows sorted by their first coordinate: locations[np.argsort(locations[:, 0])],
    line 99 (ties in the drawn order; numpy's default sort is not stable, ties have
    probability zero). *)
Fixpoint row_ins (a : list R) (l : list (list R)) : list (list R) :=
  match l with
  | [] => [a]
  | b :: r => if Rleb (hd 0 a) (hd 0 b) then a :: l else b :: row_ins a r
  end.
Fixpoint row_sort (l : list (list R)) : list (list R) :=
  match l with [] => [] | a :: r => row_ins a (row_sort r) end.

(** sample_ppp: lines 68-99. *)
Definition sample_ppp (intensity : R) (bound : list R) : M (list (list R)) :=
  do _ <- assert_ (Rltb 0 intensity);
  do b0 <- lift_opt ValueError (hd_error bound);
  do _ <- assert_ (Rltb 0 (np_min_from b0 (tl bound)));
  do n_points <- draw_n (DPoisson (intensity * np_prod bound));
  do locations <- draw_rows n_points (map (DUniform 0) bound);
  ret (row_sort locations).

(** ** Generators (lines 368-407) *)

(** get_trans: lines 381-388 *)
Definition get_trans (L : linalg) (dim : nat) (fin_t : R) (gen : mat) : mat :=
  la_expm L dim (fun i j => fin_t * gen i j).

(** the system of get_stat: lines 391-397.  gen.T - 1 and -ones. *)
Definition stat_matrix (gen : mat) : mat := fun i j => gen j i - 1.
Definition stat_rhs : vec := fun _ => - (1).
Definition get_stat (L : linalg) (dim : nat) (gen : mat) : option vec :=
  la_solve L dim (stat_matrix gen) stat_rhs.

(** est_stat: lines 400-407.  np.ediff1d(t, to_end=fin_t - t[-1]); t[-1] of an empty
    array is an IndexError; division by fin_t = 0 is a numpy warning, not modelled. *)
Definition ediff1d_end (t : list R) (last : R) : list R := np_diff t ++ [last].
Definition rdot (l m : list R) : R := fold_right Rplus 0 (map (fun p => fst p * snd p) (combine l m)).
Definition est_stat (s : skel R) (states : list nat) : res (list R) :=
  match last_opt (sk_t s) with
  | None => Raise IndexError
  | Some tl_ =>
      let hold := ediff1d_end (sk_t s) (sk_fin s - tl_) in
      Ok (map (fun st => rdot (map (fun x => if Nat.eqb x st then 1 else 0) (sk_x s)) hold
                         / sk_fin s) states)
  end.

(** sample_trial_generator: lines 368-378. *)
Definition fill_diagonal (A : mat) (d : vec) : mat := fun i j => if Nat.eqb i j then d i else A i j.
Definition sample_trial_generator (dim : nat) : M mat :=
  do u <- draw_rs (repeat DLognormal (dim * dim));
  let gen := fun i j => nth (i * dim + j) u 0 in
  let gen := fill_diagonal gen (fun _ => 0) in
  ret (fill_diagonal gen (fun i => - rsum dim (gen i))).

(** ** Forward simulation (lines 102-134) *)

(** ome.exponential(1 / rates): a zero rate has infinite scale and an infinite
    holding time; a negative scale is a ValueError. *)
Fixpoint draw_holds (rates : list R) : M (list ext) :=
  match rates with
  | [] => ret []
  | r :: rs =>
      do h <- (if Rltb r 0 then raise ValueError
               else if Reqb r 0 then ret PosInf
               else do x <- draw_r (DExp (1 / r)); ret (Fin x));
      do hs <- draw_holds rs; ret (h :: hs)
  end.
(** np.argmin over possibly infinite entries: first minimum *)
Fixpoint eargmin_from (best : ext) (bi i : nat) (l : list ext) : nat :=
  match l with
  | [] => bi
  | a :: r => if eltb a best then eargmin_from a i (S i) r else eargmin_from best bi (S i) r
  end.
Definition eargmin (l : list ext) : option nat :=
  match l with [] => None | a :: r => Some (eargmin_from a 0 1 r) end.
Definition eadd_r (a : R) (b : ext) : ext :=
  match b with Fin x => Fin (a + x) | NegInf => NegInf | PosInf => PosInf end.

(** the while loop, lines 128-134.  [t], [x] are t[:-1], x[:-1]; [last], [lastx] are
    t[-1], x[-1] (t[-1] may be infinite, in which case the loop stops). *)
Fixpoint forwards_loop (fuel : nat) (fin_t : R) (dim : nat) (gen : mat)
    (t : list R) (x : list nat) (last : ext) (lastx : nat) : M (skel R) :=
  match fuel with
  | O => nofuel
  | S f =>
      match last with
      | Fin u =>
          if Rltb u fin_t then
            do hold <- draw_holds (np_delete (row_list dim gen lastx) lastx);
            do move <- lift_opt ValueError (eargmin hold);
            forwards_loop f fin_t dim gen (t ++ [u]) (x ++ [lastx])
              (eadd_r u (nth move hold PosInf))
              (move + (if Nat.leb lastx move then 1 else 0))
          else ret (mk_skel t x fin_t)
      | _ => ret (mk_skel t x fin_t)
      end
  end.

Definition sample_forwards (L : linalg) (fuel : nat) (fin_t : R) (init_x : option nat) (dim : nat)
    (gen : mat) : M (skel R) :=
  do x0 <- (match init_x with
            | Some x => ret x
            | None => do p <- lift_opt ValueError (get_stat L dim gen);
                      choice (vec_list dim p)
            end);
  forwards_loop fuel fin_t dim gen [] [] (Fin 0) x0.

(** ** Bridges (lines 137-224) *)

(** np.log on [0, inf): log 0 = -inf *)
Definition eln (x : R) : ext := if Rltb 0 x then Fin (ln x) else NegInf.
Definition eplus (a b : ext) : ext :=
  match a, b with
  | Fin x, Fin y => Fin (x + y)
  | NegInf, _ => NegInf | _, NegInf => NegInf
  | _, _ => PosInf
  end.
(** n * a for a positive integer n *)
Definition enmul (n : nat) (a : ext) : ext :=
  match a with Fin x => Fin (INR n * x) | e => e end.
(** np.logaddexp *)
Definition elogaddexp (a b : ext) : ext :=
  match a, b with
  | NegInf, e => e | e, NegInf => e
  | Fin x, Fin y => Fin (ln (exp x + exp y))
  | _, _ => PosInf
  end.

(** -np.min(np.diag(gen)): line 206 *)
Definition rate_bound (dim : nat) (gen : mat) : R :=
  - np_min_from (gen 0%nat 0%nat) (map (fun i => gen i i) (seq 1 (dim - 1))).
(** dtrans: line 207 *)
Definition dtrans (dim : nat) (gen : mat) : mat :=
  fun i j => mident i j + gen i j / rate_bound dim gen.

(** one term of the series, line 202: n log(rate_bound fin_t) - loggamma(n+1) + log(pow) *)
Definition trans_term (n : nat) (lam pw : R) : ext :=
  eplus (eplus (enmul n (eln lam)) (Fin (- ln (INR (fact n))))) (eln pw).

(** sample_n_trans' while loop, lines 195-203.  [p] is p[-1]; [pows] is pow_dtrans in
    reverse order, so its head is pow_dtrans[-1]. *)
Fixpoint n_trans_loop (fuel : nat) (dim : nat) (P : mat) (lam : R) (init_x fin_x : nat)
    (u : ext) (n : nat) (p : ext) (pows : list mat) : res (nat * list mat) :=
  match fuel with
  | O => NoFuel
  | S f =>
      if eltb p u then
        let pw := mmul dim (hd mident pows) P in
        let p' := if Reqb (pw init_x fin_x) 0 then p
                  else elogaddexp p (trans_term (S n) lam (pw init_x fin_x)) in
        n_trans_loop f dim P lam init_x fin_x u (S n) p' (pw :: pows)
      else Ok (n, rev pows)
  end.

Definition sample_n_trans (fuel : nat) (dim : nat) (P : mat) (rb fin_t : R) (ctrans : mat)
    (init_x fin_x : nat) : M (nat * list mat) :=
  do v <- draw_r (DUniform 0 1);
  let u := eplus (eplus (eln v) (eln (ctrans init_x fin_x))) (Fin (rb * fin_t)) in
  lift (n_trans_loop fuel dim P (rb * fin_t) init_x fin_x u 0
          (if Nat.eqb init_x fin_x then Fin 0 else NegInf) [mident]).

(** the probability vector of line 216, [m] = n_trans - i *)
Definition bridge_probs (dim : nat) (P : mat) (pows : list mat) (m cur fin_x : nat) : list R :=
  map (fun j => P cur j * nth m pows mident j fin_x / nth (S m) pows mident cur fin_x)
    (seq 0 dim).

(** the for loop, lines 215-217; [steps] = number of iterations left, so that
    n_trans - i = steps. *)
Fixpoint bridge_states (dim : nat) (P : mat) (pows : list mat) (fin_x : nat) (steps : nat)
    (cur : nat) : M (list nat) :=
  match steps with
  | O => ret []
  | S m =>
      do y <- choice (bridge_probs dim P pows (S m) cur fin_x);
      do ys <- bridge_states dim P pows fin_x m y;
      ret (y :: ys)
  end.

Definition sample_bridge (L : linalg) (fuel : nat) (fin_t : R) (init_x fin_x : nat) (dim : nat)
    (gen : mat) : M (skel R) :=
  let rb := rate_bound dim gen in
  let P := dtrans dim gen in
  let ctrans := get_trans L dim fin_t gen in
  do r <- sample_n_trans fuel dim P rb fin_t ctrans init_x fin_x;
  let '(n_trans, pows) := r in
  if Nat.eqb n_trans 0 || (Nat.eqb n_trans 1 && Nat.eqb init_x fin_x)
  then ret (mk_skel [0] [init_x] fin_t)
  else
    do mid <- bridge_states dim P pows fin_x (n_trans - 1) init_x;
    let x := init_x :: mid ++ [fin_x] in
    do us <- draw_rs (repeat (DUniform 0 fin_t) n_trans);
    let t := 0 :: np_sort us in
    do t' <- lift_opt IndexError (mask t (not_virtual x));
    do x' <- lift_opt IndexError (mask x (not_virtual x));
    ret (mk_skel t' x' fin_t).

(** sample_backwards: lines 137-164. *)
Definition sample_backwards (L : linalg) (fuel : nat) (fin_t : R) (fin_x : nat) (dim : nat)
    (gen : mat) : M (skel R) :=
  let ftrans := get_trans L dim fin_t gen in
  let btrans := map (fun i => ftrans i fin_x / rsum dim (fun j => ftrans j fin_x)) (seq 0 dim) in
  do init_x <- choice btrans;
  sample_bridge L fuel fin_t init_x fin_x dim gen.

(** ** Partitions (lines 227-311) *)

(** np.linspace(0, fin_t, n_breaks + 2)[1:-1] *)
Definition linspace_inner (fin_t : R) (n_breaks : nat) : list R :=
  map (fun i => INR i * (fin_t / INR (n_breaks + 1))) (seq 1 n_breaks).

(** sample_partition: lines 227-251. *)
Definition sample_partition (s : skel R) (intensity : R) : M (list (skel R) * list R) :=
  do n_breaks <- draw_n (DPoisson (intensity * sk_fin s));
  let new_t := linspace_inner (sk_fin s) n_breaks in
  ret (partition_skeleton s new_t, new_t).

Fixpoint mapM {A B} (f : A -> M B) (l : list A) : M (list B) :=
  match l with
  | [] => ret []
  | a :: r => do b <- f a; do bs <- mapM f r; ret (b :: bs)
  end.

(** mutate_partition: lines 280-311.  xt[0] / xt[-1] of an empty array and
    partition[0] of an empty partition are IndexErrors. *)
Definition mutate_partition (L : linalg) (fuel : nat) (partition : list (skel R)) (dim : nat)
    (gen : mat) : M (list (skel R)) :=
  match partition with
  | [] => raise IndexError
  | [p] =>
      do s <- sample_forwards L fuel (sk_fin p) None dim gen; ret [s]
  | p :: rest =>
      do x0 <- lift_opt IndexError (last_opt (sk_x p));
      do init_skel <- sample_backwards L fuel (sk_fin p) x0 dim gen;
      let q := last rest p in
      do x1 <- lift_opt IndexError (hd_error (sk_x q));
      do fin_skel <- sample_forwards L fuel (sk_fin q) (Some x1) dim gen;
      do mids <- mapM (fun s =>
                   do a <- lift_opt IndexError (hd_error (sk_x s));
                   do b <- lift_opt IndexError (last_opt (sk_x s));
                   sample_bridge L fuel (sk_fin s) a b dim gen) (but_last rest);
      ret (init_skel :: mids ++ [fin_skel])
  end.
