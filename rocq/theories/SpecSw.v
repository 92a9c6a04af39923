(** Vocabulary for the statements about augmented states of the switching sampler. *)
From Coq Require Import Reals List Bool Arith Sorted.
From Verif Require Import Base Rng M_mjp M_skel M_seed M_sw SpecMjp SpecSkel SpecSeed.
Import ListNotations.
Local Open Scope R_scope.

(** An observation grid: increasing times from 0 to [fin], with one value each. *)
Record obs_grid (t vt : list R) (fin : R) : Prop := {
  og_len : length vt = length t;
  og_two : (2 <= length t)%nat;
  og_sorted : StronglySorted Rlt t;
  og_first : hd_error t = Some 0;
  og_last : last t 0 = fin }.

(** The anchorage [h] with [n] seeds is an augmentation of the data (t, vt) along the regime
    path [y] with states below [dim]. *)
Record hidden_ok (dim : nat) (t vt : list R) (y : jump_path) (h : anchorage) (n : nat) : Prop := {
  (* three arrays of equal length, one seed per interval *)
  ho_len_y : length (a_y h) = length (a_t h);
  ho_len_v : length (a_v h) = length (a_t h);
  ho_seeds : length (a_t h) = S n;
  (* times increase from 0 to the last observation *)
  ho_sorted : StronglySorted Rlt (a_t h);
  ho_first : hd_error (a_t h) = Some 0;
  ho_last : last (a_t h) 0 = last t 0;
  (* every observation is there, with its value *)
  ho_data : forall k tk vk, nth_error t k = Some tk -> nth_error vt k = Some vk ->
    exists j, nth_error (a_t h) j = Some tk /\ nth_error (a_v h) j = Some vk;
  (* the anchors are the observation times and the jump times, and nothing else *)
  ho_times : forall u, In u (a_t h) <-> In u t \/ In u (M_mjp.sk_t y);
  (* an anchor that repeats the state before it is an observation time *)
  ho_self : forall j u s, nth_error (a_y h) j = Some s -> nth_error (a_y h) (S j) = Some s -> nth_error (a_t h) (S j) = Some u -> In u t;
  (* the regime path is canonical, on the observation window, and gives every anchor its state *)
  ho_wf : wf_skel y;
  ho_fin : M_mjp.sk_fin y = last t 0;
  ho_dim : Forall (fun s => (s < dim)%nat) (M_mjp.sk_x y);
  ho_state : forall j u s, nth_error (a_t h) j = Some u -> nth_error (a_y h) j = Some s -> state_at y u s;
  (* and prune_anchorage recovers it *)
  ho_prune : prune_anchorage h = Ok y }.

(** The regime path does not jump at an observation time after 0. *)
Definition off_grid (t : list R) (y : jump_path) : Prop := forall u, In u t -> In u (M_mjp.sk_t y) -> u = 0.

(** ** parallel jobs *)
(** [m1] and [m2] make the same draws and fail together; their results are related by [Q] *)
Definition alike {A B} (Q : A -> B -> Prop) (m1 : Rng.M A) (m2 : Rng.M B) : Prop := forall o k,
  snd (m1 o k) = snd (m2 o k) /\
  match fst (m1 o k), fst (m2 o k) with
  | Ok a, Ok b => Q a b
  | Raise e, Raise e' => e = e'
  | NoFuel, NoFuel => True
  | _, _ => False
  end.
(** two partitions have the same seeds on the intervals spent in regime [i] *)
Definition agree_on {Z} (h : anchorage) (i : nat) (z1 z2 : list Z) : Prop :=
  length z1 = length z2 /\ forall j, nth_error (a_y h) j = Some i -> nth_error z1 j = nth_error z2 j.
(** run the jobs in a given order, job [i] with its own generator, storing the results by index *)
Fixpoint run_in_order {A} (omes : nat -> Rng.oracle) (job : nat -> Rng.M A) (order : list nat) (store : nat -> option A) : res (nat -> option A) :=
  match order with
  | [] => Ok store
  | i :: r => match fst (job i (omes i) 0%nat) with
              | Ok a => run_in_order omes job r (fun j => if Nat.eqb j i then Some a else store j)
              | Raise e => Raise e
              | NoFuel => NoFuel
              end
  end.

(** ** the biased likelihood *)
(** sx_eval_drift applied to arrays *)
Definition pointwise (f : nat -> R -> R) (ys : list nat) (vs : list R) : list R := map (fun p => f (fst p) (snd p)) (combine ys vs).
(** what the interval between two anchors contributes: the drift term and the log density of the
    increment of the driftless process *)
Definition term (vol : nat -> R) (dv : R -> R) (f : nat -> R -> R) (h : anchorage) (k : nat) : R :=
  let y := nth k (a_y h) 0%nat in let a := nth k (a_v h) 0 in let b := nth (S k) (a_v h) 0 in
  let s := (nth (S k) (a_t h) 0 - nth k (a_t h) 0) * vol y ^ 2 in
  (f y b - f y a) / vol y ^ 2 + (ln (Rabs (dv b)) - ln (2 * PI * s) / 2 - (b - a) ^ 2 / (2 * s)).

(** the quadratic variation, over the times from [a] to [b], of the driftless reduced process on
    the anchors *)
Definition quad_var (vol : nat -> R) (h : anchorage) (a b : R) : R :=
  Mat.rsum (length (a_t h) - 1) (fun j => let u := nth j (a_t h) 0 in
    if Rle_dec a u then if Rlt_dec u b then (nth (S j) (a_t h) 0 - u) * vol (nth j (a_y h) 0%nat) ^ 2 else 0 else 0).
(** the log density, in the coordinate of the data, of the [k]-th observed increment of the driftless
    process given the regime path *)
Definition obs_term (vol : nat -> R) (dv : R -> R) (t vt : list R) (h : anchorage) (k : nat) : R :=
  let s := quad_var vol h (nth k t 0) (nth (S k) t 0) in
  let dx := nth (S k) vt 0 - nth k vt 0 in
  ln (Rabs (dv (nth (S k) vt 0))) - ln (2 * PI * s) / 2 - dx ^ 2 / (2 * s).
(** minus the integral, over the interval after anchor [j], of the lower bound of the discrepancy on the band of its seed *)
Definition low_integral (vol : nat -> R) (bounds : nat -> bounds_fun) (h : anchorage) (z : partition) (j : nat) : R :=
  let dt := nth (S j) (a_t h) 0 - nth j (a_t h) 0 in
  let y := nth j (a_y h) 0%nat in
  match nth_error z j with
  | Some s => - dt * low_level (bounds y) (sqrt dt * vol y) (nth j (a_v h) 0) (nth (S j) (a_v h) 0) s
  | None => 0
  end.
