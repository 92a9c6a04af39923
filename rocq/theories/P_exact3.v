(** Property theorems C108: the Ornstein-Uhlenbeck models of the package on continuous paths. *)
From Coquelicot Require Import Hierarchy Continuity RInt.
From Coq Require Import Reals List Bool Arith ZArith Lia Lra.
From Verif Require Import Base Np Rng M_hit M_path M_skel M_seed SpecSkel SpecSeed M_models SpecModels M_sw SpecCan SpecLaw SpecEst SpecExact SpecExact2 L_exact5 L_exact12 L_exact13 SpecExact3.
Import ListNotations.
Local Open Scope R_scope.

(** the bridge update of the Ito chain: on a continuous path between the bounds of its layer the discrepancy is
    integrable and between the bounds the code computes *)
Theorem C108_bridge : forall path thi s T x0 x1, 0 < par thi 0 -> 0 < T -> lies path s ->
  let bounds := as_bounds (ou_bounds_disc thi) in
  levels (fun u => along path (ou_disc thi) s T (sqrt T) x0 x1 u - low_level bounds (sqrt T) x0 x1 s) T ->
  exact_on path (ou_disc thi) bounds s T (sqrt T) x0 x1 (integral (along path (ou_disc thi) s T (sqrt T) x0 x1) T) (low_level bounds (sqrt T) x0 x1 s) (high_level bounds (sqrt T) x0 x1 s).
Proof. exact ito_exact. Qed.
Print Assumptions C108_bridge.
(** the hidden section, for the three switching models *)
Theorem C108_hidden : forall path vol disc bounds grad thi z h n, ou_switching vol disc bounds grad -> Forall pos2 thi -> Forall (fun y => (y < length thi)%nat) (a_y h) ->
  pieces_of z h n -> (forall j, (j < n)%nat -> 0 < span (a_t h) j) -> Forall (lies path) z ->
  (forall j s, nth_error z j = Some s -> levels (fun u => sw_along path (vol thi) (disc thi) h j s u - sw_low (vol thi) (bounds thi) h j s) (span (a_t h) j)) ->
  known_hidden path (vol thi) (disc thi) (bounds thi) z h n (fun j => piece z j (fun s => integral (sw_along path (vol thi) (disc thi) h j s) (span (a_t h) j)))
    (fun j => piece z j (sw_low (vol thi) (bounds thi) h j)) (fun j => piece z j (sw_high (vol thi) (bounds thi) h j)).
Proof. exact sw_known_hidden. Qed.
Print Assumptions C108_hidden.
(** the parameter section of regime i *)
Theorem C108_params : forall path vol disc bounds grad thi q i z h n, ou_switching vol disc bounds grad -> Forall pos2 thi -> pos2 q -> (i < length thi)%nat ->
  pieces_of z h n -> (forall j, (j < n)%nat -> 0 < span (a_t h) j) -> Forall (lies path) z ->
  let thi' := list_set thi i q in
  let C j := piece z j (fun s => sw_intensity (row thi i) (row thi' i) (grad (row thi i) (row thi' i) (span (a_t h) j) (nth j (a_v h) 0) (nth (S j) (a_v h) 0) (k_loose s) (k_tight s))) in
  let F j s := sw_along path (vol thi) (disc thi) h j s in let G j s := sw_along path (vol thi') (disc thi') h j s in
  (forall j s, nth_error z j = Some s -> nth j (a_y h) 0%nat = i -> 0 < C j /\ levels (pos_part (F j s) (G j s)) (span (a_t h) j) /\ levels (pos_part (G j s) (F j s)) (span (a_t h) j)) ->
  known_params path vol disc grad thi thi' z h i n C (fun j => piece z j (fun s => integral (F j s) (span (a_t h) j))) (fun j => piece z j (fun s => integral (G j s) (span (a_t h) j)))
    (fun j => piece z j (fun s => integral (pos_part (F j s) (G j s)) (span (a_t h) j))) (fun j => piece z j (fun s => integral (pos_part (G j s) (F j s)) (span (a_t h) j))).
Proof. exact sw_known_params. Qed.
Print Assumptions C108_params.
(** a sector of the Ito chain *)
Theorem C108_ito : forall path thi b sg i q z t vt n, thi = [b; sg] -> 0 < b -> 0 < sg -> 0 < q -> (i < 2)%nat ->
  (0 < n)%nat -> length z = n -> length t = S n -> length vt = S n -> (forall j, (j < n)%nat -> 0 < span t j) -> Forall (lies path) z ->
  let thi' := list_set thi i q in
  let C j := piece z j (fun s => ito_intensity thi thi' (ou_bounds_grad thi thi' (span t j) (nth j vt 0) (nth (S j) vt 0) (k_loose s) (k_tight s))) in
  let F j s := ito_along path (ou_reduce thi) (ou_disc thi) t vt j s in let G j s := ito_along path (ou_reduce thi') (ou_disc thi') t vt j s in
  (forall j s, nth_error z j = Some s -> 0 < C j /\ levels (pos_part (F j s) (G j s)) (span t j) /\ levels (pos_part (G j s) (F j s)) (span t j)) ->
  known_ito path ou_reduce ou_disc ou_bounds_grad thi thi' z t vt n C (fun j => piece z j (fun s => integral (F j s) (span t j))) (fun j => piece z j (fun s => integral (G j s) (span t j)))
    (fun j => piece z j (fun s => integral (pos_part (F j s) (G j s)) (span t j))) (fun j => piece z j (fun s => integral (pos_part (G j s) (F j s)) (span t j))).
Proof. exact ito_known. Qed.
Print Assumptions C108_ito.
(** two pieces of a straight line in two regimes of ou.py, and the first parameter from 1 to 1/2 *)
Example C108_example :
  Forall pos2 ou_thi /\ Forall (fun y => (y < length ou_thi)%nat) (a_y ou_h) /\ pieces_of ou_z ou_h 2 /\ (forall j, (j < 2)%nat -> 0 < span (a_t ou_h) j) /\ Forall (lies two_paths) ou_z /\
  (forall j s, nth_error ou_z j = Some s ->
    levels (fun u => sw_along two_paths (ou1_vol ou_thi) (ou1_disc ou_thi) ou_h j s u - sw_low (ou1_vol ou_thi) (fun y => as_bounds (ou1_bounds_disc ou_thi y)) ou_h j s) (span (a_t ou_h) j)).
Proof. exact (conj (proj1 ou_positive) (conj (proj2 ou_positive) (conj (proj1 ou_pieces) (conj (proj1 (proj2 ou_pieces)) (conj (proj2 (proj2 ou_pieces)) ou_hidden_levels))))). Qed.
Example C108_params_example : forall j s, nth_error ou_z j = Some s -> nth j (a_y ou_h) 0%nat = 0%nat -> let thi' := list_set ou_thi 0 [1/2; 1] in
  0 < piece ou_z j (fun s => sw_intensity (row ou_thi 0) (row thi' 0) (ou1_bounds_grad (row ou_thi 0) (row thi' 0) (span (a_t ou_h) j) (nth j (a_v ou_h) 0) (nth (S j) (a_v ou_h) 0) (k_loose s) (k_tight s))) /\
  levels (pos_part (sw_along two_paths (ou1_vol ou_thi) (ou1_disc ou_thi) ou_h j s) (sw_along two_paths (ou1_vol thi') (ou1_disc thi') ou_h j s)) (span (a_t ou_h) j) /\
  levels (pos_part (sw_along two_paths (ou1_vol thi') (ou1_disc thi') ou_h j s) (sw_along two_paths (ou1_vol ou_thi) (ou1_disc ou_thi) ou_h j s)) (span (a_t ou_h) j).
Proof. exact ou_params_levels. Qed.
Example C108_ito_example : forall j s, nth_error [seed_line] j = Some s -> let thi' := list_set [1; 1] 0 (1/2) in
  0 < piece [seed_line] j (fun s => ito_intensity [1; 1] thi' (ou_bounds_grad [1; 1] thi' (span [0; 1] j) (nth j [0; 1] 0) (nth (S j) [0; 1] 0) (k_loose s) (k_tight s))) /\
  levels (pos_part (ito_along two_paths (ou_reduce [1; 1]) (ou_disc [1; 1]) [0; 1] [0; 1] j s) (ito_along two_paths (ou_reduce thi') (ou_disc thi') [0; 1] [0; 1] j s)) (span [0; 1] j) /\
  levels (pos_part (ito_along two_paths (ou_reduce thi') (ou_disc thi') [0; 1] [0; 1] j s) (ito_along two_paths (ou_reduce [1; 1]) (ou_disc [1; 1]) [0; 1] [0; 1] j s)) (span [0; 1] j).
Proof. exact ou_ito_levels. Qed.
