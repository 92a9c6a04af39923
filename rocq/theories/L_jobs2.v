(** The sections of a hidden update and the bridges of an Ito update, all at once. *)
From Coquelicot Require Import Hierarchy RInt.
From Coq Require Import Reals List Bool Arith ZArith Lra Lia.
From Verif Require Import Base Np Rng M_mjp M_hit M_path M_skel M_seed SpecSeed M_bf M_models M_sw M_mcem M_ito SpecLaw SpecEst SpecExact SpecExact2 SpecJobs L_law L_law2 L_exact4 L_exact5 L_exact7 L_exact8 L_jobs.
From Verif Require Import Mat.
Import ListNotations.
Local Open Scope R_scope.

Lemma hidden_jobs : forall path vol disc bounds loglik batch pre pr maxf (m : nat) (z : nat -> bool -> partition) (h : nat -> bool -> anchorage) n v le ue,
  (forall j b, (j < m)%nat -> known_hidden path vol disc bounds (z j b) (h j b) (n j b) (v j b) (le j b) (ue j b)) -> (0 < batch)%nat -> 0 <= pr <= 1 ->
  let L h := fst (loglik h None) + snd (loglik h None) : R in
  let section j (b : bool) := hidden_section_with (pinned path) vol disc bounds loglik batch pre pr maxf (z j b) (h j b) (z j (negb b)) (h j (negb b)) in
  exists (w : nat -> bool -> R) (k : nat -> bool -> bool -> R),
    (forall j b, (j < m)%nat -> Rabs (w j b - exp (L (h j b) - rsum (n j b) (v j b))) <=
       exp (L (h j b) - rsum (n j b) (fun i => span (a_t (h j b)) i * le j b i)) * rsum (n j b) (overflow (fun i => (ue j b i - le j b i) * span (a_t (h j b)) i) batch)) /\
    (forall c F, independently (map (fun j => section j (of_part c j)) (seq 0 m)) F
       (sum_over (patterns m) (fun d => product m (fun j => k j (of_part c j) (of_part d j)) *
          F (map (fun j => (xorb (of_part c j) (of_part d j), z j (of_part d j), h j (of_part d j))) (seq 0 m))))) /\
    (forall c d, product m (fun j => w j (of_part c j)) * product m (fun j => k j (of_part c j) (of_part d j)) =
                 product m (fun j => w j (of_part d j)) * product m (fun j => k j (of_part d j) (of_part c j))).
Proof.
  intros path vol disc bounds loglik batch pre pr maxf m z h n v le ue HK HB HP L section.
  destruct (finite_choice ((bool -> R) * (bool -> bool -> R)) (fun _ => 0, fun _ _ => 0) m (fun j q =>
    (forall b, Rabs (fst q b - exp (L (h j b) - rsum (n j b) (v j b))) <=
       exp (L (h j b) - rsum (n j b) (fun i => span (a_t (h j b)) i * le j b i)) * rsum (n j b) (overflow (fun i => (ue j b i - le j b i) * span (a_t (h j b)) i) batch)) /\
    (forall b f, average (section j b) f (snd q b true * f (xorb b true, z j true, h j true) + snd q b false * f (xorb b false, z j false, h j false))) /\
    fst q false * snd q false true = fst q true * snd q true false)) as [q Hq].
  { intros j Hj. destruct (hidden_law path vol disc bounds loglik batch pre pr maxf (z j false) (h j false) (z j true) (h j true) _ _ _ _ _ _ _ _ (HK j false Hj) (HK j true Hj) HB HP)
      as (dn & dp & acc & stay & acc' & stay' & E1 & E2 & A1 & A2 & B1 & _).
    exists (fun b : bool => if b then dp else dn, fun b b' : bool => if b then (if b' then stay' else acc') else (if b' then acc else stay)). cbn [fst snd]. split; [|split].
    - intros [|]; assumption.
    - intros [|] f; cbn [xorb negb]; [|exact (A1 f)]. refine (average_eq _ _ _ _ _ _ (A2 f)). apply Rplus_comm.
    - exact B1. }
  exists (fun j => fst (q j)), (fun j => snd (q j)). split; [|split].
  - intros j b Hj. exact (proj1 (Hq j Hj) b).
  - intros c F. exact (joint_law _ m section (fun j => snd (q j)) (fun j b b' => (xorb b b', z j b', h j b')) (fun j b Hj => proj1 (proj2 (Hq j Hj)) b) c F).
  - exact (joint_balance m (fun j => fst (q j)) (fun j => snd (q j)) (fun j Hj => proj2 (proj2 (Hq j Hj)))).
Qed.
Lemma bridge_jobs : forall path reduce disc bounds batch pr maxf thi t vt (m : nat) (z : nat -> bool -> skel) v le ue,
  length t = S m -> length vt = S m ->
  (forall j b, (j < m)%nat -> exact_on path (disc thi) (bounds thi) (z j b) (span t j) (sqrt (span t j)) (reduce thi (nth j vt 0)) (reduce thi (nth (S j) vt 0)) (v j b) (le j b) (ue j b)) -> (0 < batch)%nat -> 0 <= pr <= 1 ->
  let bridge j (b : bool) := bridge_with (pinned path) reduce disc bounds batch pr maxf j thi (z j b) (z j (negb b)) t vt in
  exists (w : nat -> bool -> R) (k : nat -> bool -> bool -> R),
    (forall j b, (j < m)%nat -> Rabs (w j b - exp (- v j b)) <= exp (- span t j * le j b) * poisson_tail ((ue j b - le j b) * span t j) batch) /\
    (forall c F, independently (map (fun j => bridge j (of_part c j)) (seq 0 m)) F
       (sum_over (patterns m) (fun d => product m (fun j => k j (of_part c j) (of_part d j)) * F (map (fun j => z j (of_part d j)) (seq 0 m))))) /\
    (forall c d, product m (fun j => w j (of_part c j)) * product m (fun j => k j (of_part c j) (of_part d j)) =
                 product m (fun j => w j (of_part d j)) * product m (fun j => k j (of_part d j) (of_part c j))).
Proof.
  intros path reduce disc bounds batch pr maxf thi t vt m z v le ue HT HV HK HB HP bridge.
  destruct (finite_choice ((bool -> R) * (bool -> bool -> R)) (fun _ => 0, fun _ _ => 0) m (fun j q =>
    (forall b, Rabs (fst q b - exp (- v j b)) <= exp (- span t j * le j b) * poisson_tail ((ue j b - le j b) * span t j) batch) /\
    (forall b f, average (bridge j b) f (snd q b true * f (z j true) + snd q b false * f (z j false))) /\
    fst q false * snd q false true = fst q true * snd q true false)) as [q Hq].
  { intros j Hj. assert (B1 : (j < length t)%nat) by lia. assert (B2 : (S j < length t)%nat) by lia. assert (B3 : (j < length vt)%nat) by lia. assert (B4 : (S j < length vt)%nat) by lia.
    destruct (bridge_law path reduce disc bounds batch pr maxf j thi (z j false) (z j true) t vt (nth j t 0) (nth (S j) t 0) (nth j vt 0) (nth (S j) vt 0) _ _ _ _ _ _
      (nth_error_nth' t 0 B1) (nth_error_nth' t 0 B2) (nth_error_nth' vt 0 B3) (nth_error_nth' vt 0 B4) (HK j false Hj) (HK j true Hj) HB HP)
      as (dn & dp & acc & stay & acc' & stay' & E1 & E2 & A1 & A2 & BB & _).
    exists (fun b : bool => if b then dp else dn, fun b b' : bool => if b then (if b' then stay' else acc') else (if b' then acc else stay)). cbn [fst snd]. split; [|split].
    - intros [|]; assumption.
    - intros [|] f; [|exact (A1 f)]. refine (average_eq _ _ _ _ _ _ (A2 f)). apply Rplus_comm.
    - exact BB. }
  exists (fun j => fst (q j)), (fun j => snd (q j)). split; [|split].
  - intros j b Hj. exact (proj1 (Hq j Hj) b).
  - intros c F. exact (joint_law _ m bridge (fun j => snd (q j)) (fun j b b' => z j b') (fun j b Hj => proj1 (proj2 (Hq j Hj)) b) c F).
  - exact (joint_balance m (fun j => fst (q j)) (fun j => snd (q j)) (fun j Hj => proj2 (proj2 (Hq j Hj)))).
Qed.
