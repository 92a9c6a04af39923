(** The updates of several pieces with the interpolation of seeds left open: the dual coin, the
    hidden section and the parameter sections of the two chains, and what is asked of known paths. *)
From Coquelicot Require Import Hierarchy RInt.
From Coq Require Import Reals List Bool Arith ZArith.
From Verif Require Import Base Np Rng M_mjp M_hit M_path M_skel M_seed SpecSeed M_bf M_models M_sw M_mcem M_ito SpecLaw SpecEst SpecExact.
Import ListNotations.
Local Open Scope R_scope.

Section With.
Context (interp : skel -> list R -> M (skel * list R)).
(** the loop of seed.flip_dual_coin: ctbayes/ea3lib/seed.py lines 146-159 *)
Fixpoint dual_loop_with (n : nat) (norm_nil denorm_nil norm_prime denorm_prime : normop) (disc_nil disc_prime : R -> R) (upside : bool)
    (intensity fin_t : R) (p : ppp_state) (s : skel) : M (bool * skel) :=
  match n with
  | O => nofuel
  | S n' =>
      do r <- ppp_next [intensity; fin_t] p;
      match r with
      | None => ret (true, s)
      | Some (batch, p') =>
          let rows := col1_sort batch in
          let new_t := map (fun r => nth 1 r 0) rows in
          let crit := map (fun r => nth 0 r 0) rows in
          do q <- interp_seed_with interp norm_nil denorm_nil s new_t;
          do q' <- interp_seed_with interp norm_prime denorm_prime (fst q) new_t;
          let gap := map (fun c => dual_gap upside (disc_nil (fst c)) (disc_prime (snd c))) (combine (snd q) (snd q')) in
          do _ <- assert_ (negb (existsb (fun g => Rltb intensity g) gap));
          if existsb (fun c => Rltb (snd c) (fst c)) (combine gap crit) then ret (false, fst q')
          else dual_loop_with n' norm_nil denorm_nil norm_prime denorm_prime disc_nil disc_prime upside intensity fin_t p' (fst q')
      end
  end.
(** seed.flip_dual_coin: lines 118-159 *)
Definition dual_coin_with (seed : skel) (intensity : R) (norm_nil denorm_nil : normop) (disc_nil : R -> R)
    (norm_prime denorm_prime : normop) (disc_prime : R -> R) (upside : bool) (batch_size : nat) : M (bool * skel) :=
  do fin_t <- lift_opt ValueError (hd_error (fst (denorm_nil [1] None)));
  do p <- ppp_start 1 [intensity; fin_t] batch_size;
  dual_loop_with (S (length (pp_sizes p))) norm_nil denorm_nil norm_prime denorm_prime disc_nil disc_prime upside intensity fin_t p seed.

(** ctbayes/switching/mcmc.py lines 214-220 and 173-195 *)
Definition hidden_coins_with (vol : nat -> R) (disc : nat -> R -> R) (bounds : nat -> bounds_fun) (batch : nat) (z : partition) (h : anchorage) : M (bool * partition) :=
  do rs <- map_m (fun p => let '(z_, y0, n) := p in
                    do r <- seed_coin_with interp (fst n) (snd n) z_ (disc y0) (bounds y0) batch;
                    ret (fst (fst r), snd r)) (zip3 z (a_y h) (sw_normops vol h));
  collect_coins rs.
Definition hidden_section_with (vol : nat -> R) (disc : nat -> R -> R) (bounds : nat -> bounds_fun) (loglik : anchorage -> option nat -> R * R)
    (batch : nat) (precoin : bool) (pr_portkey : R) (max_flips : nat) (z_nil : partition) (h_nil : anchorage) (z_prime : partition) (h_prime : anchorage) : M (bool * partition * anchorage) :=
  let flip (first : bool) (s : partition * partition) : M ((bool * partition) * (partition * partition)) :=
    if first then do r <- hidden_coins_with vol disc bounds batch (fst s) h_prime; ret (r, (snd r, snd s))
    else do r <- hidden_coins_with vol disc bounds batch (snd s) h_nil; ret (r, (fst s, snd r)) in
  do w_nil <- eval_hidden_weight vol bounds loglik z_nil h_nil;
  do w_prime <- eval_hidden_weight vol bounds loglik z_prime h_prime;
  do r <- hidden_step (m := M) (@ret) (@bind) o_ulog_lt precoin w_prime w_nil (run_twocoin flip pr_portkey z_nil max_flips (z_prime, z_nil)) (z_prime, z_nil);
  after_step (false, z_nil, h_nil) (fun accept z_acc => (accept, z_acc, if (accept : bool) then h_prime else h_nil)) r.

(** switching/mcmc.py lines 139-150, 128-136 and 86-112 *)
Definition sw_coin_with (vol : list (list R) -> nat -> R) (disc : list (list R) -> nat -> R -> R) (grad : list R -> list R -> R -> R -> R -> R -> R -> list R)
    (thi_nil thi_prime : list (list R)) (fin_t : R) (y : nat) (init_v fin_v : R) (z : skel) (upside : bool) (batch_size : nat) : M (bool * skel) :=
  let intensity := sw_intensity (row thi_nil y) (row thi_prime y) (grad (row thi_nil y) (row thi_prime y) fin_t init_v fin_v (k_loose z) (k_tight z)) in
  let dt := fin_t - 0 in
  dual_coin_with z intensity
    (sw_norm (vol thi_nil y) dt init_v fin_v) (sw_denorm (vol thi_nil y) dt init_v fin_v) (disc thi_nil y)
    (sw_norm (vol thi_prime y) dt init_v fin_v) (sw_denorm (vol thi_prime y) dt init_v fin_v) (disc thi_prime y)
    upside batch_size.
Definition sw_coins_with (vol : list (list R) -> nat -> R) (disc : list (list R) -> nat -> R -> R) (grad : list R -> list R -> R -> R -> R -> R -> R -> list R) (batch : nat)
    (thi_nil thi_prime : list (list R)) (z : partition) (h : anchorage) (upside : bool) (state : nat) : M (bool * partition) :=
  do rs <- map_m (fun p => let '((dt, y0, v0, v1), z_) := p in
                    if Nat.eqb y0 state then sw_coin_with vol disc grad thi_nil thi_prime dt y0 v0 v1 z_ upside batch
                    else ret (true, z_)) (combine (zip4 (np_diff (a_t h)) (a_y h) (a_v h) (tl (a_v h))) z);
  collect_coins rs.
Definition params_section_with (vol : list (list R) -> nat -> R) (disc : list (list R) -> nat -> R -> R) (grad : list R -> list R -> R -> R -> R -> R -> R -> list R)
    (log_prior : list (list R) -> R) (loglik : list (list R) -> anchorage -> option nat -> R * R) (batch : nat) (precoin : bool) (pr_portkey : R) (max_flips : nat)
    (propose : M (list R * R * R)) (thi_nil : list (list R)) (z : partition) (h : anchorage) (state : nat) : M (bool * list (list R) * partition) :=
  do p <- propose;
  let '(prop, log_p_for, log_p_back) := p in
  let thi_prime := list_set thi_nil state prop in
  let flip (first : bool) (s : partition) := do r <- sw_coins_with vol disc grad batch thi_nil thi_prime s h first state; ret (r, snd r) in
  do r <- switching_step (m := M) (@ret) (@bind) o_ulog_lt log_prior (fun thi => fst (loglik thi h (Some state))) thi_nil thi_prime log_p_for log_p_back precoin
            (run_twocoin_joint flip (fun s => ret s) pr_portkey max_flips z) z;
  after_step (false, thi_nil, z) (fun accept z_acc => (accept, if (accept : bool) then thi_prime else thi_nil, z_acc)) r.

(** ctbayes/ito/mcmc.py lines 106-116, 96-103, and 63-80 once the sector is drawn *)
Definition ito_coin_with (reduce disc : list R -> R -> R) (grad : list R -> list R -> R -> R -> R -> R -> R -> list R)
    (thi_nil thi_prime : list R) (fin_t init_v fin_v : R) (z : skel) (upside : bool) (batch_size : nat) : M (bool * skel) :=
  let intensity := ito_intensity thi_nil thi_prime (grad thi_nil thi_prime fin_t init_v fin_v (k_loose z) (k_tight z)) in
  let dt := fin_t - 0 in
  dual_coin_with z intensity
    (ito_norm dt (reduce thi_nil init_v) (reduce thi_nil fin_v)) (ito_denorm dt (reduce thi_nil init_v) (reduce thi_nil fin_v)) (disc thi_nil)
    (ito_norm dt (reduce thi_prime init_v) (reduce thi_prime fin_v)) (ito_denorm dt (reduce thi_prime init_v) (reduce thi_prime fin_v)) (disc thi_prime)
    upside batch_size.
Definition ito_coins_with (reduce disc : list R -> R -> R) (grad : list R -> list R -> R -> R -> R -> R -> R -> list R) (batch : nat)
    (thi_nil thi_prime : list R) (z : partition) (t vt : list R) (upside : bool) : M (bool * partition) :=
  do rs <- map_m (fun p => do ts <- lift_opt IndexError (sub_t t (fst p));
                           do fin <- lift_opt IndexError (last_opt ts);
                           do v0 <- lift_opt IndexError (hd_error (sub_v vt (fst p)));
                           do v1 <- lift_opt IndexError (last_opt (sub_v vt (fst p)));
                           ito_coin_with reduce disc grad thi_nil thi_prime fin v0 v1 (snd p) upside batch) (combine (seq 0 (length z)) z);
  collect_coins rs.
Definition ito_sector_with (reduce disc : list R -> R -> R) (grad : list R -> list R -> R -> R -> R -> R -> R -> list R)
    (log_prior : list R -> R) (loglik : list R -> list R -> list R -> R) (batch : nat) (precoin : bool) (pr_portkey : R) (max_flips : nat)
    (propose : nat -> M (R * R * R)) (thi_nil : list R) (z : partition) (t vt : list R) (sector : nat) : M (nat * bool * list R * partition) :=
  do p <- propose sector;
  let '(prop, log_p_for, log_p_back) := p in
  let thi_prime := list_set thi_nil sector prop in
  let flip (first : bool) (s : partition) := do r <- ito_coins_with reduce disc grad batch thi_nil thi_prime s t vt first; ret (r, snd r) in
  do r <- ito_step (m := M) (@ret) (@bind) o_ulog_lt log_prior (fun thi => loglik thi t vt) thi_nil thi_prime log_p_for log_p_back precoin
            (run_twocoin_joint flip (fun s => ret s) pr_portkey max_flips z) z;
  after_step (sector, false, thi_nil, z) (fun accept z_acc => (sector, accept, if (accept : bool) then thi_prime else thi_nil, z_acc)) r.
End With.

(** a hidden state with n >= 1 pieces; the duration of piece j *)
Definition pieces_of (z : partition) (h : anchorage) (n : nat) : Prop :=
  (0 < n)%nat /\ length z = n /\ length (a_t h) = S n /\ length (a_y h) = S n /\ length (a_v h) = S n.
Definition span (t : list R) (j : nat) : R := nth (S j) t 0 - nth j t 0.
(** every piece has a known path on which the discrepancy of its regime respects its bounds *)
Definition known_hidden (path : skel -> R -> R) (vol : nat -> R) (disc : nat -> R -> R) (bounds : nat -> bounds_fun) (z : partition) (h : anchorage) (n : nat) (v le ue : nat -> R) : Prop :=
  pieces_of z h n /\ forall j s, nth_error z j = Some s ->
    let y := nth j (a_y h) 0%nat in let T := span (a_t h) j in
    exact_on path (disc y) (bounds y) s T (sqrt T * vol y) (nth j (a_v h) 0) (nth (S j) (a_v h) 0) (v j) (le j) (ue j).
(** two discrepancies along the path of one seed under two parameters, with integrals vf and vg,
    and the parts of their difference, at most C, with integrals a (where f exceeds g) and b *)
Definition compared (path : skel -> R -> R) (f g : R -> R) (s : skel) (T c x0 x1 c' y0 y1 C vf vg a b : R) : Prop :=
  let F u := f (segment_path path s T c x0 x1 u) in let G u := g (segment_path path s T c' y0 y1 u) in
  is_RInt F 0 T vf /\ is_RInt G 0 T vg /\ regular (fun u => Rmax 0 (F u - G u)) T C a /\ regular (fun u => Rmax 0 (G u - F u)) T C b.
(** the same for all pieces of the regime of a switching chain, and for all pieces of an Ito chain *)
Definition known_params (path : skel -> R -> R) (vol : list (list R) -> nat -> R) (disc : list (list R) -> nat -> R -> R) (grad : list R -> list R -> R -> R -> R -> R -> R -> list R)
  (thi thi' : list (list R)) (z : partition) (h : anchorage) (i n : nat) (C vf vg a b : nat -> R) : Prop :=
  pieces_of z h n /\ forall j s, nth_error z j = Some s -> nth j (a_y h) 0%nat = i ->
    let T := span (a_t h) j in let x0 := nth j (a_v h) 0 in let x1 := nth (S j) (a_v h) 0 in
    C j = sw_intensity (row thi i) (row thi' i) (grad (row thi i) (row thi' i) T x0 x1 (k_loose s) (k_tight s)) /\
    compared path (disc thi i) (disc thi' i) s T (sqrt T * vol thi i) x0 x1 (sqrt T * vol thi' i) x0 x1 (C j) (vf j) (vg j) (a j) (b j).
Definition known_ito (path : skel -> R -> R) (reduce disc : list R -> R -> R) (grad : list R -> list R -> R -> R -> R -> R -> R -> list R)
  (thi thi' : list R) (z : partition) (t vt : list R) (n : nat) (C vf vg a b : nat -> R) : Prop :=
  (0 < n)%nat /\ length z = n /\ length t = S n /\ length vt = S n /\ forall j s, nth_error z j = Some s ->
    let T := span t j in let v0 := nth j vt 0 in let v1 := nth (S j) vt 0 in
    C j = ito_intensity thi thi' (grad thi thi' T v0 v1 (k_loose s) (k_tight s)) /\
    compared path (disc thi) (disc thi') s T (sqrt T) (reduce thi v0) (reduce thi v1) (sqrt T) (reduce thi' v0) (reduce thi' v1) (C j) (vf j) (vg j) (a j) (b j).
(** f summed over the pieces of regime i only *)
Definition within (h : anchorage) (i : nat) (f : nat -> R) (j : nat) : R := if Nat.eqb (nth j (a_y h) 0%nat) i then f j else 0.
(** the probabilities that the number of points of piece j, with mean lam j, does not fit into a batch *)
Definition overflow (lam : nat -> R) (batch : nat) (j : nat) : R := poisson_tail (lam j) batch.
