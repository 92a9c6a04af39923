(** Several coins on known paths, and the law of a step with or without its pre-coin. *)
From Coquelicot Require Import Rcomplements Hierarchy RInt.
From Coq Require Import Reals List Bool Arith ZArith Lra Lia Psatz Permutation FunctionalExtensionality.
From Verif Require Import Base Np Rng L_list L_rng M_mjp M_hit M_path M_skel M_seed SpecSkel SpecSeed L_seed M_bf M_models M_sw M_mcem M_ito SpecLaw SpecCoin SpecEst SpecExact SpecExact2 SpecFactory
  L_law L_law2 L_law3 L_law4 L_law5 L_law6 L_exact3 L_exact4 L_sde3 L_exact6.
Import ListNotations.
Local Open Scope R_scope.

(** ** several coins *)
(** [good c b q e]: c hands back b and its probability of heads is within e of q *)
Definition good {B} (c : M (bool * B)) (d : B * R * R) : Prop :=
  let '(b, q, e) := d in total c (fun r => snd r = b) /\ 0 <= q <= 1 /\ exists p, chance c fst p /\ Rabs (p - q) <= e.
Definition prods {B} (l : list (B * R * R)) : R := fold_right Rmult 1 (map (fun d => snd (fst d)) l).
Definition errs {B} (l : list (B * R * R)) : R := fold_right Rplus 0 (map snd l).
Lemma coins_map : forall A B (F : A -> M (bool * B)) l ds, Forall2 (fun a d => good (F a) d) l ds ->
  total (map_m F l) (fun rs => map snd rs = map (fun d => fst (fst d)) ds /\ length rs = length l) /\ 0 <= prods ds <= 1 /\
  exists p, chance (map_m F l) (forallb fst) p /\ Rabs (p - prods ds) <= errs ds.
Proof.
  intros A B F l ds H. induction H as [|a [[b q] e] l ds G H (TI & PI & pI & CI & EI)].
  - split; [intros o k V; cbn; auto|]. unfold prods, errs; cbn [map fold_right]. split; [lra|]. exists 1. split; [|rewrite Rminus_diag_eq, Rabs_R0 by reflexivity; lra].
    unfold chance. cbn [map_m]. exact (average_ret _ [] (fun a : list (bool * B) => ind (forallb fst a))).
  - destruct G as (TG & Hq & p & CG & EG). unfold prods, errs in *. cbn [map_m map fold_right fst snd length] in *. set (P := fold_right Rmult 1 _) in *. set (E := fold_right Rplus 0 _) in *.
    split; [|split; [nra|]].
    + intros o k V. specialize (TG o k V). unfold bind at 1. destruct (F a o k) as [[r|x|] k1]; try contradiction. cbn [fst] in TG. specialize (TI o k1 V).
      unfold bind. destruct (map_m F l o k1) as [[rs|x|] k2]; try contradiction. cbn [fst ret map length] in *. destruct TI as [T1 T2]. rewrite T1, T2, TG. auto.
    + exists (p * pI). split.
      * unfold chance. apply (average_bind0 _ _ _ _ _ (fun r : bool * B => ind (fst r) * pI)).
        { refine (average_eq _ _ _ _ _ (Rmult_comm _ _) _). refine (average_ext _ _ _ _ _ _ (average_scal _ _ _ _ pI CG)). intros r. cbv beta. ring. }
        intros r. apply (average_bind0 _ _ _ _ _ (fun rs => ind (fst r) * ind (forallb fst rs))).
        { apply average_scal. exact CI. }
        intros rs. refine (average_eq _ _ _ _ _ _ (average_ret _ (r :: rs) (fun a => ind (forallb fst a)))). cbn [forallb]. destruct (fst r), (forallb fst rs); cbn; ring.
      * replace (p * pI - q * P) with (p * (pI - P) + (p - q) * P) by ring. pose proof (chance_range _ _ _ _ CG) as R1.
        eapply Rle_trans; [apply Rabs_triang|]. rewrite !Rabs_mult, (Rabs_pos_eq p), (Rabs_pos_eq P) by lra.
        pose proof (Rabs_pos (pI - P)). pose proof (Rabs_pos (p - q)). nra.
Qed.
Lemma coins_all : forall A B (F : A -> M (bool * B)) l ds, l <> [] -> Forall2 (fun a d => good (F a) d) l ds ->
  good (do rs <- map_m F l; collect_coins rs) (map (fun d => fst (fst d)) ds, prods ds, errs ds).
Proof.
  intros A B F l ds NE H. destruct (coins_map A B F l ds H) as (TT & PR & p & HP & HE).
  assert (RUN : forall o k, valid o -> (do rs <- map_m F l; collect_coins rs) o k = (do rs <- map_m F l; ret (forallb fst rs, map snd rs)) o k).
  { intros o k V. specialize (TT o k V). unfold bind. destruct (map_m F l o k) as [[rs|x|] k1]; try contradiction. cbn [fst] in TT. destruct TT as [_ TL]. destruct rs; [destruct l; [congruence|discriminate]|reflexivity]. }
  split; [|split; [exact PR|]].
  - intros o k V. rewrite RUN by exact V. specialize (TT o k V). unfold bind. destruct (map_m F l o k) as [[rs|x|] k1]; try contradiction. cbn in *. apply TT.
  - exists p. split; [|exact HE]. unfold chance. apply (average_comp _ _ _ _ _ RUN). apply average_map. exact HP.
Qed.
Lemma good_map : forall B (c : M (bool * B)) C (c' : M (bool * C)) b q e b', good c (b, q, e) -> (forall o k, valid o -> c' o k = (do r <- c; ret (fst r, b')) o k) -> good c' (b', q, e).
Proof.
  intros B c C c' b q e b' (T & Q & p & HP & HE) RUN. split; [|split; [exact Q|]].
  - intros o k V. rewrite RUN by exact V. specialize (T o k V). unfold bind. destruct (c o k) as [[r|x|] k1]; try contradiction. reflexivity.
  - exists p. split; [|exact HE]. unfold chance. apply (average_comp _ _ _ _ _ RUN). apply average_map. exact HP.
Qed.

(** ** the steps *)
Definition gq (c p1 p2 e : R) (n : nat) : R := geometric ((c * (1 - p1) + (1 - c) * (1 - p2)) * (1 - e)) n.
Definition hit (c p1 p2 e : R) (n : nat) : R := c * p1 * gq c p1 p2 e n.
Definition keep (c p1 p2 e : R) (n : nat) : R := (c * (1 - p1) * e + (1 - c) * (p2 + e * (1 - p2))) * gq c p1 p2 e n.
Lemma gq_swap : forall c p1 p2 e n, gq (1 - c) p2 p1 e n = gq c p1 p2 e n.
Proof. intros. unfold gq. f_equal. ring. Qed.
Section Step.
Context {A St : Type} (flip : bool -> St -> M ((bool * A) * St)) (st : St) (c1 c2 : M (bool * A)) (a1 a2 : A) (p1 p2 e : R) (n : nat).
Hypothesis HF : forall (first : bool) o k, valid o -> flip first st o k = (do r <- (if first then c1 else c2); ret (r, st)) o k.
Hypothesis T1 : total c1 (fun r => snd r = a1).
Hypothesis T2 : total c2 (fun r => snd r = a2).
Hypothesis P1 : chance c1 fst p1.
Hypothesis P2 : chance c2 fst p2.
Hypothesis He : 0 <= e <= 1.
Definition outcome (F : bool -> A -> R) (r : option (bool * bool * A) * St) : R := match fst r with Some (acc, _, a) => F acc a | None => 0 end.
Definition run_law (run : R -> R -> M (option (bool * bool * A) * St)) : Prop :=
  forall w1 w2 F, average (run w1 w2) (outcome F) (let c := exp w1 / (exp w1 + exp w2) in hit c p1 p2 e n * F true a1 + keep c p1 p2 e n * F false a2).
Lemma loop_known : forall (esc : A -> A) w1 w2 (F : bool -> A -> R), esc a1 = a2 -> esc a2 = a2 ->
  average (do r <- twocoin_loop (m := M) (@ret) (@bind) o_ulog_lt o_u_lt flip (w1 - logaddexp w1 w2) e esc n st; match r with (Some x, s') => ret (x, s') | (None, _) => raise BudgetConstraintError end)
    (fun r => F (fst (fst (fst r))) (snd (fst r))) (let c := exp w1 / (exp w1 + exp w2) in hit c p1 p2 e n * F true a1 + keep c p1 p2 e n * F false a2).
Proof.
  intros esc w1 w2 F X1 X2. cbv zeta. set (c := exp w1 / (exp w1 + exp w2)).
  assert (T1' : total c1 (fun _ => True)) by (intros o k V; specialize (T1 o k V); destruct (fst (c1 o k)); auto).
  assert (T2' : total c2 (fun _ => True)) by (intros o k V; specialize (T2 o k V); destruct (fst (c2 o k)); auto).
  assert (R1 : forall g h : bool * A -> R, (forall b, g (b, a1) = h (b, a1)) -> forall v, average c1 g v -> average c1 h v).
  { intros g h E v. apply average_swap. intros o k V. specialize (T1 o k V). destruct (fst (c1 o k)) as [[b a]|x|]; auto. cbn in T1. subst a. apply E. }
  assert (R2 : forall g h : bool * A -> R, (forall b, g (b, a2) = h (b, a2)) -> forall v, average c2 g v -> average c2 h v).
  { intros g h E v. apply average_swap. intros o k V. specialize (T2 o k V). destruct (fst (c2 o k)) as [[b a]|x|]; auto. cbn in T2. subst a. apply E. }
  pose proof (chance_not _ _ _ _ P1 T1') as N1. pose proof (chance_not _ _ _ _ P2 T2') as N2.
  assert (Ee : clip01 e = e) by (unfold clip01; rewrite Rmin_left, Rmax_right by lra; reflexivity).
  assert (Ec : clip01 (exp (w1 - logaddexp w1 w2)) = c) by apply barker_clip.
  set (f1 := F true). set (f2 := F false).
  assert (S1 : average c1 (fun r => if fst r then f1 (snd r) else 0) (f1 a1 * p1)) by (refine (R1 _ _ _ _ (average_scal _ _ _ _ (f1 a1) P1)); intros []; cbn; ring).
  assert (S2 : average c2 (fun r => if fst r then f2 (snd r) else 0) (f2 a2 * p2)) by (refine (R2 _ _ _ _ (average_scal _ _ _ _ (f2 a2) P2)); intros []; cbn; ring).
  assert (Y1 : average c1 (fun r => if fst r then 0 else f2 (esc (snd r))) (f2 a2 * (1 - p1))) by (refine (R1 _ _ _ _ (average_scal _ _ _ _ (f2 a2) N1)); intros []; cbn; rewrite ?X1; ring).
  assert (Y2 : average c2 (fun r => if fst r then 0 else f2 (esc (snd r))) (f2 a2 * (1 - p2))) by (refine (R2 _ _ _ _ (average_scal _ _ _ _ (f2 a2) N2)); intros []; cbn; rewrite ?X2; ring).
  pose proof (L_law6.loop_law c1 c2 (w1 - logaddexp w1 w2) e esc f1 f2 f2 f1 0 (f1 a1 * p1) (f2 a2 * p2) (f2 a2 * (1 - p1)) (f2 a2 * (1 - p2)) p1 p2 S1 S2 Y1 Y2 N1 N2 n) as L.
  rewrite Ec, Ee in L.
  set (lp := twocoin_loop (m := M) (@ret) (@bind) o_ulog_lt o_u_lt (memoryless c1 c2) (w1 - logaddexp w1 w2) e esc n tt) in *.
  apply (average_comp _ (do r <- (do r <- lp; match r with (Some x, s') => ret (x, s') | (None, _) => raise BudgetConstraintError end); ret (fst r, st))).
  { intros o k V. pose proof (still_loop flip st c1 c2 HF (w1 - logaddexp w1 w2) e esc n o k V) as SL. fold lp in SL. unfold bind at 1. rewrite SL. unfold bind. destruct (lp o k) as [[[[x|] []]|x|] k1]; reflexivity. }
  apply average_map. cbn [fst snd]. apply strip.
  refine (average_ext _ _ _ _ _ _ (average_eq _ _ _ _ _ _ L)).
  - intros [[[[[|] [|]] a]|] []]; reflexivity.
  - unfold hit, keep, gq. fold f1 f2. ring.
Qed.
Lemma run_known : run_law (run_twocoin flip e a2 n st).
Proof.
  intros w1 w2 F. unfold run_twocoin. apply (average_map _ _ _ (fun r => (Some (fst r), snd r))). unfold outcome. cbn [fst].
  refine (average_ext _ _ _ _ _ _ (loop_known (fun _ => a2) w1 w2 F eq_refl eq_refl)). intros [[[acc x] a] s]. reflexivity.
Qed.
Lemma joint_known : a1 = a2 -> run_law (run_twocoin_joint flip (fun s => ret s) e n st).
Proof.
  intros EQ w1 w2 F. unfold run_twocoin_joint. apply (average_map _ _ _ (fun r => (Some (fst r), snd r))). unfold outcome. cbn [fst].
  refine (average_ext _ _ _ _ _ _ (loop_known (fun a => a) w1 w2 F EQ eq_refl)). intros [[[acc x] a] s]. reflexivity.
Qed.
Definition total_hit (pre : bool) (c0 c : R) : R := if pre then c0 * hit (1/2) p1 p2 e n else hit c p1 p2 e n.
Definition total_keep (pre : bool) (c0 c : R) : R := if pre then c0 * keep (1/2) p1 p2 e n + (1 - c0) else keep c p1 p2 e n.
Lemma step_law : forall run (B : Type) (rej : B) (kept : bool -> A -> B) pre pw1 pw2 w1 w2 s0, run_law run -> kept false a2 = rej -> forall f,
  average (do r <- barker_step (m := M) (@ret) (@bind) o_ulog_lt run pre pw1 pw2 w1 w2 s0; after_step rej kept r) f
    (let c0 := exp pw1 / (exp pw1 + exp pw2) in let c := exp w1 / (exp w1 + exp w2) in total_hit pre c0 c * f (kept true a1) + total_keep pre c0 c * f rej).
Proof.
  intros run B rej kept pre pw1 pw2 w1 w2 s0 RL EK f. cbv zeta. set (c0 := exp pw1 / (exp pw1 + exp pw2)). set (c := exp w1 / (exp w1 + exp w2)).
  assert (AFTER : forall u1 u2, average (bind (bind (run u1 u2) (fun r => ret (Some (fst r), snd r))) (fun r => after_step rej kept r)) f
     (let d := exp u1 / (exp u1 + exp u2) in hit d p1 p2 e n * f (kept true a1) + keep d p1 p2 e n * f rej)).
  { intros u1 u2. cbv zeta. apply (average_bind0 _ _ _ _ _ (fun r : option (option (bool * bool * A)) * St => match fst r with Some (Some (acc, _, a)) => f (kept acc a) | Some None => 0 | None => f rej end)).
    - apply (average_map _ _ _ (fun r : option (bool * bool * A) * St => (Some (fst r), snd r))). cbn [fst]. pose proof (RL u1 u2 (fun acc a => f (kept acc a))) as L. cbv zeta beta in L. rewrite EK in L.
      refine (average_ext _ _ _ _ _ _ L). intros [[[[acc x] a]|] s]; reflexivity.
    - intros [[[[[acc x] a]|]|] s]; unfold after_step; cbn [fst].
      + apply average_ret.
      + apply average_raise.
      + apply average_ret. }
  unfold barker_step. destruct pre; cbv iota.
  - apply (average_comp _ (bind (o_ulog_lt (pw1 - logaddexp pw1 pw2)) (fun b : bool => if b then bind (bind (run 0 0) (fun r => ret (Some (fst r), snd r))) (fun r => after_step rej kept r) else ret rej))).
    { intros o k V. unfold barker, bind. destruct (o_ulog_lt (pw1 - logaddexp pw1 pw2) o k) as [[[|]|x|] k1]; reflexivity. }
    apply (average_bind0 _ _ _ _ _ (fun b : bool => if b then hit (1/2) p1 p2 e n * f (kept true a1) + keep (1/2) p1 p2 e n * f rej else f rej)).
    + refine (average_eq _ _ _ _ _ _ (ulog_law (pw1 - logaddexp pw1 pw2) _)). cbv beta iota. rewrite barker_clip. fold c0. unfold total_hit, total_keep. ring.
    + intros [|]; [|apply average_ret]. refine (average_eq _ _ _ _ _ _ (AFTER 0 0)). cbv zeta. replace (exp 0 / (exp 0 + exp 0)) with (1/2) by (rewrite exp_0; field). reflexivity.
  - apply AFTER.
Qed.
End Step.
(** two opposite steps *)
Lemma step_balance : forall pre w1 w2 p1 p2 e n, 0 <= p1 <= 1 -> 0 <= p2 <= 1 -> 0 <= e <= 1 ->
  let c := exp w1 / (exp w1 + exp w2) in let c' := exp w2 / (exp w2 + exp w1) in
  exp w2 * p2 * total_hit p1 p2 e n pre c c = exp w1 * p1 * total_hit p2 p1 e n pre c' c' /\
  (pre = false -> total_hit p1 p2 e n pre c c + total_keep p1 p2 e n pre c c = total_hit p2 p1 e n pre c' c' + total_keep p2 p1 e n pre c' c') /\
  (pre = false -> e = 0 -> total_hit p1 p2 e n pre c c * (exp w2 * p2 + exp w1 * p1) = exp w1 * p1 * (total_hit p1 p2 e n pre c c + total_keep p1 p2 e n pre c c)).
Proof.
  intros pre w1 w2 p1 p2 e n R1 R2 Re. cbv zeta. pose proof (exp_pos w1) as E1. pose proof (exp_pos w2) as E2.
  replace (exp w2 / (exp w2 + exp w1)) with (1 - exp w1 / (exp w1 + exp w2)) by (field; lra).
  set (c := exp w1 / (exp w1 + exp w2)). assert (CE : c * exp w2 = (1 - c) * exp w1) by (unfold c; field; lra).
  unfold total_hit, total_keep, hit, keep. replace (gq (1/2) p2 p1 e n) with (gq (1/2) p1 p2 e n) by (rewrite <- (gq_swap (1/2)); f_equal; lra). rewrite gq_swap.
  generalize (gq (1/2) p1 p2 e n). generalize (gq c p1 p2 e n). intros g g'. destruct pre; (split; [|split]).
  - transitivity (c * exp w2 * (p2 * (1/2) * p1 * g')); [ring|]. rewrite CE. ring.
  - discriminate.
  - discriminate.
  - transitivity (c * exp w2 * (p2 * p1 * g)); [ring|]. rewrite CE. ring.
  - intros _. ring.
  - intros _ ->. transitivity (p1 * g * (c * exp w2 * p2 + c * exp w1 * p1)); [ring|]. rewrite CE. ring.
Qed.
