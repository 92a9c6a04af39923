(** Property theorems C109: the sections, bridges and regimes that are updated in parallel move
    together as one reversible update, on paths that are already known; for the regimes this needs
    a prior in which they are independent. *)
From Coquelicot Require Import Hierarchy RInt.
From Coq Require Import Reals List Bool Arith Lra.
From Verif Require Import Base Np Rng M_hit M_path M_skel M_seed SpecSkel SpecSeed M_bf M_models M_sw M_mcem M_ito SpecLaw SpecEst SpecExact SpecExact2 Mat SpecJobs L_jobs L_jobs2 L_jobs3 L_jobs4 L_exact5 L_exact11.
Import ListNotations.
Local Open Scope R_scope.

(** The law of jobs with independent generators is determined, and is the law of the same jobs run
    one after the other with one generator. *)
Theorem C109_one_generator : forall A (jobs : list (M A)) F v, independently jobs F v ->
  average (map_m (fun j => j) jobs) F v /\ forall u, independently jobs F u -> u = v.
Proof. exact (fun A jobs F v H => conj (one_generator A jobs F v H) (fun u H' => independently_unique A jobs F u v H' H)). Qed.
Print Assumptions C109_one_generator.

(** Hidden update.  Section j has two values, for b = false and b = true, and proposes the one it
    does not have; c says which values the sections have before, d after the update. *)
Theorem C109_hidden : forall path vol disc bounds loglik batch pre pr maxf (m : nat) (z : nat -> bool -> partition) (h : nat -> bool -> anchorage) n v le ue,
  (forall j b, (j < m)%nat -> known_hidden path vol disc bounds (z j b) (h j b) (n j b) (v j b) (le j b) (ue j b)) -> (0 < batch)%nat -> 0 <= pr <= 1 ->
  let L h := fst (loglik h None) + snd (loglik h None) : R in
  let section j (b : bool) := hidden_section_with (pinned path) vol disc bounds loglik batch pre pr maxf (z j b) (h j b) (z j (negb b)) (h j (negb b)) in
  exists (w : nat -> bool -> R) (k : nat -> bool -> bool -> R),
    (forall j b, (j < m)%nat -> Rabs (w j b - exp (L (h j b) - rsum (n j b) (v j b))) <=
       exp (L (h j b) - rsum (n j b) (fun i => span (a_t (h j b)) i * le j b i)) * rsum (n j b) (overflow (fun i => (ue j b i - le j b i) * span (a_t (h j b)) i) batch)) /\
    (forall c F, independently (map (fun j => section j (of_part c j)) (seq 0 m)) F
       (sum_over (patterns m) (fun d => product m (fun j => k j (of_part c j) (of_part d j)) *
          F (map (fun j => (xorb (of_part c j) (of_part d j), z j (of_part d j), h j (of_part d j))) (seq 0 m))))) /\
    (forall c d, product m (fun j => w j (of_part c j)) * product m (fun j => k j (of_part c j) (of_part d j)) =
                 product m (fun j => w j (of_part d j)) * product m (fun j => k j (of_part d j) (of_part c j))).
Proof. exact hidden_jobs. Qed.
Print Assumptions C109_hidden.

(** The bridges of an Ito chain, likewise. *)
Theorem C109_bridges : forall path reduce disc bounds batch pr maxf thi t vt (m : nat) (z : nat -> bool -> skel) v le ue,
  length t = S m -> length vt = S m ->
  (forall j b, (j < m)%nat -> exact_on path (disc thi) (bounds thi) (z j b) (span t j) (sqrt (span t j)) (reduce thi (nth j vt 0)) (reduce thi (nth (S j) vt 0)) (v j b) (le j b) (ue j b)) -> (0 < batch)%nat -> 0 <= pr <= 1 ->
  let bridge j (b : bool) := bridge_with (pinned path) reduce disc bounds batch pr maxf j thi (z j b) (z j (negb b)) t vt in
  exists (w : nat -> bool -> R) (k : nat -> bool -> bool -> R),
    (forall j b, (j < m)%nat -> Rabs (w j b - exp (- v j b)) <= exp (- span t j * le j b) * poisson_tail ((ue j b - le j b) * span t j) batch) /\
    (forall c F, independently (map (fun j => bridge j (of_part c j)) (seq 0 m)) F
       (sum_over (patterns m) (fun d => product m (fun j => k j (of_part c j) (of_part d j)) * F (map (fun j => z j (of_part d j)) (seq 0 m))))) /\
    (forall c d, product m (fun j => w j (of_part c j)) * product m (fun j => k j (of_part c j) (of_part d j)) =
                 product m (fun j => w j (of_part d j)) * product m (fun j => k j (of_part d j) (of_part c j))).
Proof. exact bridge_jobs. Qed.
Print Assumptions C109_bridges.

(** Parameter update of a switching chain: all regimes propose at once from the same parameters,
    and row i of the result is row i of what job i returns.  With a prior that is a sum over the
    regimes, the update leads from [thi c] to [thi d] and is reversible. *)
Theorem C109_params : forall path vol disc grad log_prior loglik batch pre pr maxf (m : nat) (opt : nat -> bool -> list R) (lp : nat -> bool -> R) (prior lik : nat -> list R -> R) z h,
  (forall x y i, row x i = row y i -> vol x i = vol y i /\ disc x i = disc y i) ->
  (forall x y T v0 v1 lo hi, grad x y T v0 v1 lo hi = grad y x T v0 v1 lo hi) ->
  (forall x i, length x = m -> (i < m)%nat -> fst (loglik x h (Some i)) = lik i (row x i)) ->
  (forall x, length x = m -> log_prior x = rsum m (fun i => prior i (row x i))) ->
  let thi c := map (fun i => opt i (of_part c i)) (seq 0 m) in
  let job c i := params_section_with (pinned path) vol disc grad log_prior loglik batch pre pr maxf
                   (ret (opt i (negb (of_part c i)), lp i (of_part c i), lp i (negb (of_part c i)))) (thi c) z h i in
  let W i b := lik i (opt i b) + prior i (opt i b) + lp i b in
  forall (n : nat) (C : nat -> nat -> R) (v e : nat -> bool -> nat -> R), Forall (fun y => (y < m)%nat) (a_y h) -> pieces_of z h n ->
  (forall i, (i < m)%nat -> known_params path vol disc grad (thi []) (list_set (thi []) i (opt i true)) z h i n (C i) (v i false) (v i true) (e i false) (e i true)) -> (0 < batch)%nat -> 0 <= pr <= 1 ->
  exists (w : nat -> bool -> R) (k : nat -> bool -> bool -> R),
    (forall i b, (i < m)%nat -> Rabs (w i b - exp (W i b - rsum n (within h i (v i b)))) <=
       exp (W i b - rsum n (within h i (fun j => v i b j - e i b j))) * rsum n (within h i (overflow (fun j => C i j * span (a_t h) j) batch))) /\
    (forall c F, independently (map (job c) (seq 0 m)) (fun parts => match assemble parts (a_y h) with Ok r => F (map (fun p => fst (fst p)) parts, fst r, snd r) | _ => 0 end)
       (sum_over (patterns m) (fun d => product m (fun i => k i (of_part c i) (of_part d i)) * F (map (fun i => xorb (of_part c i) (of_part d i)) (seq 0 m), thi d, z)))) /\
    (forall c d, product m (fun i => w i (of_part c i)) * product m (fun i => k i (of_part c i) (of_part d i)) =
                 product m (fun i => w i (of_part d i)) * product m (fun i => k i (of_part d i) (of_part c i))).
Proof. exact params_jobs. Qed.
Print Assumptions C109_params.

(** The error of the joint target. *)
Theorem C109_error : forall n (w t e : nat -> R), (forall j, (j < n)%nat -> 0 <= t j /\ Rabs (w j - t j) <= e j) ->
  Rabs (product n w - product n t) <= product n (fun j => t j + e j) - product n t.
Proof. exact product_error. Qed.
Print Assumptions C109_error.

(** Without independence in the prior it fails: two regimes that no piece of the hidden state has,
    a likelihood that does not matter, symmetric proposals and a prior that only ties them together.
    The update from (1, 1) to (2, 2) and back does not balance with respect to the prior, which is
    then the posterior of these two. *)
Theorem C109_prior_refuted : forall path vol disc grad (loglik : list (list R) -> anchorage -> option nat -> R * R) batch pre pr maxf s,
  (0 < maxf)%nat -> 0 <= pr <= 1 -> (forall y h q, fst (loglik y h q) = 0) ->
  exists (log_prior : list (list R) -> R) (z : partition) (h : anchorage),
  let both (a b : R) := map (fun i => params_section_with (pinned path) vol disc grad log_prior loglik batch pre pr maxf (ret ([b], 0, 0)) [[a]; [a]; [1]] z h i) [0%nat; 1%nat] in
  let moved (parts : list (bool * list (list R) * partition)) := ind (forallb (fun p => fst (fst p)) parts) in
  z = [s] /\ a_y h = [2; 2]%nat /\
  exists there back, independently (both 1 2) moved there /\ independently (both 2 1) moved back /\ exp (log_prior [[1]; [1]; [1]]) * there <> exp (log_prior [[2]; [2]; [1]]) * back.
Proof.
  exact (fun path vol disc grad loglik batch pre pr maxf s Hf HP HL => ex_intro _ tied (ex_intro _ (fst (third s)) (ex_intro _ (snd (third s))
    (conj eq_refl (conj eq_refl (tied_jobs path vol disc grad loglik batch pre pr maxf s Hf HP HL)))))).
Qed.
Print Assumptions C109_prior_refuted.

Example C109_example :
  (forall (j : nat) (b : bool), (j < 2)%nat -> known_hidden two_paths (fun _ => 1) ex_disc ex_bounds [if b then seed_sag else seed_line; seed_sag] ex_h 2
     (fun i => if Nat.eqb i 0 then (if b then 1/3 else 1/2) else 1/3) (fun i => if Nat.eqb i 0 then 0 else 0) (fun i => if Nat.eqb i 0 then 2 else 2)) /\
  (forall i, (i < 2)%nat -> let opt (i : nat) (b : bool) := if b then [2] else [1] in let thi := map (fun i => opt i (of_part [] i)) (seq 0 2) in
     known_params two_paths (fun _ _ => 1) ex_disc2 slope_grad thi (list_set thi i (opt i true)) [seed_line; seed_line] ex_h i 2 (fun _ => 2) (fun _ => 1/2) (fun _ => 1) (fun _ => 0) (fun _ => 1/2)) /\
  (forall x y i, row x i = row y i -> 1 = 1 /\ ex_disc2 x i = ex_disc2 y i) /\ Forall (fun y => (y < 2)%nat) (a_y ex_h) /\ pieces_of [seed_line; seed_line] ex_h 2.
Proof.
  split; [intros j [|] _; [exact (proj2 ex_known_hidden)|exact (proj1 ex_known_hidden)]|]. split; [exact ex_known_jobs|].
  split; [intros x y i E; unfold ex_disc2; rewrite E; auto|]. split; [apply Forall_cons; [auto|apply Forall_cons; [auto|apply Forall_cons; [auto|apply Forall_nil]]]|]. repeat split; auto with arith.
Qed.
