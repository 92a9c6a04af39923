(** The generator in MCEM and the bounds of its optimiser. *)
From Coq Require Import Reals List Bool Arith ZArith Lia Lra.
From Verif Require Import Base Np L_list Rng M_mjp SpecMjp SpecLin SpecInf M_inf L_mat L_inf M_adapt M_path M_skel M_seed M_models M_sw M_chain L_sw10 M_mcem SpecEm Mat.
Import ListNotations.
Local Open Scope R_scope.

(** ** NaN entries on the diagonal *)
Definition diag_nan (dim : nat) (A : omat) : Prop := (forall i, (i < dim)%nat -> A i i = None) /\ forall i j, (i < dim)%nat -> (j < dim)%nat -> i <> j -> exists x, A i j = Some x.
Lemma filter_seq_one n : forall a i, (a <= i < a + n)%nat -> filter (Nat.eqb i) (seq a n) = [i].
Proof.
  induction n as [|n IH]; intros a i Hi; [lia|]. cbn [seq filter]. destruct (Nat.eqb i a) eqn:E.
  - apply Nat.eqb_eq in E. subst. f_equal. apply filter_none. intros j Hj. apply in_seq in Hj. apply Nat.eqb_neq. lia.
  - apply Nat.eqb_neq in E. apply IH. lia.
Qed.
Lemma row_cells (A : omat) i l : Forall (fun j => negb (is_some (A i j)) = Nat.eqb i j) l ->
  filter (fun p => negb (is_some (A (fst p) (snd p)))) (map (fun j => (i, j)) l) = map (fun j => (i, j)) (filter (Nat.eqb i) l).
Proof.
  induction 1 as [|j l H _ IH]; [reflexivity|]. cbn [map filter fst snd]. rewrite H. destruct (Nat.eqb i j); cbn [map]; now rewrite IH.
Qed.
Lemma diag_cells dim A : diag_nan dim A -> nan_cells dim A = map (fun i => (i, i)) (seq 0 dim).
Proof.
  intros [HD HO]. unfold nan_cells. enough (G : forall l, Forall (fun i => (i < dim)%nat) l -> filter (fun p => negb (is_some (A (fst p) (snd p)))) (list_prod l (seq 0 dim)) = map (fun i => (i, i)) l).
  { apply G. apply Forall_forall. intros i Hi. apply in_seq in Hi. lia. }
  induction 1 as [|i l Hi _ IH]; [reflexivity|]. cbn [list_prod]. rewrite filter_app, IH. rewrite row_cells.
  - rewrite filter_seq_one by lia. reflexivity.
  - apply Forall_forall. intros j Hj. apply in_seq in Hj. destruct (Nat.eqb_spec i j) as [->|N]; [now rewrite HD by lia|]. destruct (HO i j) as [x Hx]; try lia. now rewrite Hx.
Qed.
Lemma count_before n : forall i, (i <= n)%nat -> length (filter (fun p : nat * nat => before p i i) (map (fun i => (i, i)) (seq 0 n))) = i.
Proof.
  induction n as [|n IH]; intros i Hi; [replace i with 0%nat by lia; reflexivity|].
  rewrite seq_S, map_app, filter_app, app_length. cbn [map filter Nat.add]. unfold before at 2. cbn [fst snd].
  destruct (Nat.eq_dec i (S n)) as [->|N].
  - replace (Nat.ltb n (S n)) with true by (symmetry; apply Nat.ltb_lt; lia). cbn [orb length]. rewrite <- (IH n) at 2 by lia.
    enough (G : filter (fun p : nat * nat => before p (S n) (S n)) (map (fun i => (i, i)) (seq 0 n)) = filter (fun p : nat * nat => before p n n) (map (fun i => (i, i)) (seq 0 n))) by (rewrite G; lia).
    apply filter_ext_in. intros [a b] H. apply in_map_iff in H. destruct H as (k & [= <- <-] & H). apply in_seq in H. unfold before. cbn [fst snd].
    replace (Nat.ltb k (S n)) with true by (symmetry; apply Nat.ltb_lt; lia). replace (Nat.ltb k n) with true by (symmetry; apply Nat.ltb_lt; lia). reflexivity.
  - replace (Nat.ltb n i) with false by (symmetry; apply Nat.ltb_ge; lia). rewrite andb_false_r. cbn [orb length]. rewrite IH by lia. lia.
Qed.
Lemma set_nan_diag dim A v : diag_nan dim A -> exists B, set_nan dim A v = Ok B /\ (forall i, (i < dim)%nat -> B i i = Some (v i)) /\ forall i j, (i < dim)%nat -> (j < dim)%nat -> i <> j -> B i j = A i j.
Proof.
  intros D. pose proof (diag_cells _ _ D) as C. unfold set_nan. rewrite C, map_length, seq_length, Nat.eqb_refl. eexists. split; [reflexivity|]. destruct D as [HD HO]. split.
  - intros i Hi. rewrite HD by auto. now rewrite count_before by lia.
  - intros i j Hi Hj N. destruct (HO i j Hi Hj N) as [x ->]. reflexivity.
Qed.
Lemma rsum_diag dim (B A : omat) i : (i < dim)%nat -> A i i = None -> (forall j, (j < dim)%nat -> i <> j -> B i j = A i j) -> B i i = Some (- nansum_row dim A i) -> rsum dim (mat_of B i) = 0.
Proof.
  intros Hi HA HO HB. unfold nansum_row in HB.
  assert (E : rsum dim (mat_of B i) = rsum dim (fun j => nan0 (A i j)) + mat_of B i i).
  { transitivity (rsum dim (fun j => nan0 (A i j) + (if Nat.eqb j i then mat_of B i i else 0))).
    - apply rsum_ext. intros j Hj. destruct (Nat.eqb_spec j i) as [->|N]; [rewrite HA; cbn; lra|]. unfold mat_of. rewrite HO by auto. unfold nan0. destruct (A i j); lra.
    - rewrite rsum_plus. f_equal. apply (rsum_delta_r dim (fun _ => mat_of B i i)); auto. }
  rewrite E. unfold mat_of at 1. rewrite HB. lra.
Qed.
Lemma em_rows dim A : diag_nan dim A -> exists B, set_nan dim A (fun i => - nansum_row dim A i) = Ok B /\ (forall i j, (i < dim)%nat -> (j < dim)%nat -> exists x, B i j = Some x) /\
  (forall i, (i < dim)%nat -> rsum dim (mat_of B i) = 0) /\ forall i j, (i < dim)%nat -> (j < dim)%nat -> i <> j -> B i j = A i j.
Proof.
  intros D. destruct (set_nan_diag dim A (fun i => - nansum_row dim A i) D) as (B & E & HB & HO). exists B. split; [exact E|]. split; [|split; [|exact HO]].
  - intros i j Hi Hj. destruct (Nat.eq_dec i j) as [<-|N]; [eauto|]. rewrite HO by auto. now apply D.
  - intros i Hi. apply (rsum_diag dim B A); auto. now apply D.
Qed.
(** ** the initial generator *)
Lemma const_init dim a b : b <> 0 -> exists B, init_generator dim (fst (construct_gen_hyperprior a b)) (snd (construct_gen_hyperprior a b)) = Ok B /\
  (forall i j, (i < dim)%nat -> (j < dim)%nat -> exists x, B i j = Some x) /\ (forall i, (i < dim)%nat -> rsum dim (mat_of B i) = 0) /\
  (forall i j, (i < dim)%nat -> (j < dim)%nat -> i <> j -> B i j = Some (a / b)).
Proof.
  intros Hb. unfold init_generator. set (A := fun i j => nandiv (fst (construct_gen_hyperprior a b) i j) (snd (construct_gen_hyperprior a b) i j)).
  assert (HA : forall i j, A i j = if Nat.eqb i j then None else Some (a / b)).
  { intros i j. unfold A, construct_gen_hyperprior. cbn [fst snd]. destruct (Nat.eqb i j); cbn [nandiv]; [reflexivity|].
    destruct (Reqb (b * 1) 0) eqn:E; [apply Reqb_true in E; lra|]. f_equal. now rewrite !Rmult_1_r. }
  assert (D : diag_nan dim A). { split; intros i; [intros _; rewrite HA; now rewrite Nat.eqb_refl|]. intros j _ _ N. rewrite HA. destruct (Nat.eqb_spec i j); [congruence|eauto]. }
  destruct (em_rows dim A D) as (B & EB & H1 & H2 & H3). exists B. split.
  - rewrite <- EB. clear - HA. unfold set_nan. destruct (Nat.eqb (length (nan_cells dim A)) dim); [|reflexivity]. f_equal.
    assert (S : forall i, nansum_col dim A i = nansum_row dim A i). { intros i. unfold nansum_col, nansum_row. apply rsum_ext. intros k _. rewrite !HA. now rewrite Nat.eqb_sym. }
    apply FunctionalExtensionality.functional_extensionality. intros i. apply FunctionalExtensionality.functional_extensionality. intros j. destruct (A i j); [reflexivity|]. now rewrite S.
  - split; [exact H1|]. split; [exact H2|]. intros i j Hi Hj N. rewrite H3 by auto. rewrite HA. destruct (Nat.eqb_spec i j); congruence.
Qed.
Lemma asym_init : exists alp bet B, hyper 2 (Rlt 0) alp /\ hyper 2 (Rlt 0) bet /\ init_generator 2 alp bet = Ok B /\ rsum 2 (mat_of B 0%nat) <> 0.
Proof.
  set (alp := fun i j : nat => match i, j with O, O => None | S O, S O => None | O, _ => Some 2 | _, _ => Some 1 end).
  set (bet := fun i j : nat => if Nat.eqb i j then None else Some 1).
  assert (R10 : Reqb 1 0 = false) by (apply Reqb_false; lra).
  assert (D : diag_nan 2 (fun i j => nandiv (alp i j) (bet i j))).
  { split; [intros [|[|i]] Hi; try lia; reflexivity|]. intros [|[|i]] [|[|j]] Hi Hj N; try lia; cbn [alp bet Nat.eqb nandiv]; rewrite R10; eauto. }
  destruct (set_nan_diag 2 _ (fun j => - nansum_col 2 (fun i j => nandiv (alp i j) (bet i j)) j) D) as (B & E & HB & HO).
  exists alp, bet, B. split; [|split; [|split]].
  - split; [intros [|[|i]] Hi; try lia; reflexivity|]. intros [|[|i]] [|[|j]] Hi Hj N; try lia; eexists; split; try reflexivity; lra.
  - split; [intros i _; unfold bet; now rewrite Nat.eqb_refl|]. intros i j _ _ N. unfold bet. destruct (Nat.eqb_spec i j); [congruence|]. exists 1. split; [reflexivity|lra].
  - exact E.
  - unfold rsum, mat_of. rewrite (HB 0%nat), (HO 0%nat 1%nat) by lia. unfold nansum_col, rsum. cbn. rewrite R10. cbn. lra.
Qed.

(** ** the M-step *)
Lemma res_map_ok {A B} (f : A -> res B) (P : A -> B -> Prop) l r : Forall2 (fun a b => f a = Ok b /\ P a b) l r -> res_map f l = Ok r.
Proof. induction 1 as [|a b l r [H _] _ IH]; [reflexivity|]. cbn [res_map]. rewrite H. cbn [rbind]. now rewrite IH. Qed.
Lemma all_ok_some {A} (l : list A) : all_ok (map Some l) = Ok l.
Proof. induction l as [|a l IH]; [reflexivity|]. cbn [map all_ok]. now rewrite IH. Qed.
Lemma all_ok_none {A} (l : list (option A)) : l <> [] -> Forall (eq None) l -> all_ok l = Raise IndexError.
Proof. intros N H. destruct H as [|a l <- _]; [congruence|reflexivity]. Qed.
Definition mean {A} (f : A -> R) (l : list A) : R := np_mean (map f l).
Lemma mean_rsum {A} (f : A -> nat -> R) n (l : list A) : mean (fun a => rsum n (f a)) l = rsum n (fun i => mean (fun a => f a i) l).
Proof.
  unfold mean, np_mean. rewrite map_length.
  transitivity (rsum n (fun i => fold_right Rplus 0 (map (fun a => f a i) l)) / INR (length l)).
  - f_equal. induction l as [|a l IH]; cbn [map fold_right]; [symmetry; apply rsum_0; auto|]. rewrite IH. now rewrite <- rsum_plus.
  - rewrite <- rsum_div. apply rsum_ext. intros i _. now rewrite map_length.
Qed.
Lemma mean_ext {A} (f g : A -> R) l : (forall a, In a l -> f a = g a) -> mean f l = mean g l.
Proof. intros H. unfold mean. f_equal. apply map_ext_in. exact H. Qed.
Lemma mean_lin {A} (f g : A -> R) c d l : mean (fun a => f a * c - g a * d) l = mean f l * c - mean g l * d.
Proof.
  unfold mean, np_mean. rewrite !map_length. enough (E : fold_right Rplus 0 (map (fun a => f a * c - g a * d) l) = fold_right Rplus 0 (map f l) * c - fold_right Rplus 0 (map g l) * d) by (rewrite E; unfold Rdiv; ring).
  induction l as [|a l IH]; cbn [map fold_right]; [ring|]. rewrite IH. ring.
Qed.
Lemma mean_zero {A} (l : list A) : mean (fun _ => 0) l = 0.
Proof. unfold mean, np_mean. enough (E : fold_right Rplus 0 (map (fun _ : A => 0) l) = 0) by (rewrite E; unfold Rdiv; ring). induction l; cbn; lra. Qed.
Lemma mean_off {A} (f g : A -> nat -> nat -> R) (c d : nat -> nat -> R) n (l : list A) :
  mean (fun a => off_sum n (fun i j => f a i j * c i j - g a i j * d i j)) l = off_sum n (fun i j => mean (fun a => f a i j) l * c i j - mean (fun a => g a i j) l * d i j).
Proof.
  unfold off_sum. rewrite mean_rsum. apply rsum_ext. intros i _. rewrite mean_rsum. apply rsum_ext. intros j _.
  destruct (Nat.eqb i j); [apply mean_zero|]. apply mean_lin.
Qed.
Lemma mean_pos {A} (f : A -> R) l : l <> [] -> (forall a, In a l -> 0 < f a) -> 0 < mean f l.
Proof.
  intros N H. unfold mean, np_mean. apply Rdiv_lt_0_compat.
  - destruct l as [|a l]; [congruence|]. cbn [map fold_right]. assert (0 <= fold_right Rplus 0 (map f l)); [|specialize (H a (or_introl eq_refl)); lra].
    assert (H' : forall b, In b l -> 0 < f b) by (intros b Hb; apply H; now right). clear - H'. induction l as [|b l IH]; cbn [map fold_right]; [lra|].
    specialize (IH (fun c Hc => H' c (or_intror Hc))). specialize (H' b (or_introl eq_refl)). lra.
  - rewrite map_length. apply lt_0_INR. destruct l; [congruence|cbn; lia].
Qed.
Lemma mean_const_add {A} (f : A -> R) c l : l <> [] -> mean (fun a => f a + c) l = mean f l + c.
Proof.
  intros N. unfold mean, np_mean. rewrite !map_length. assert (0 < INR (length l)) by (apply lt_0_INR; destruct l; [congruence|cbn; lia]).
  assert (E : fold_right Rplus 0 (map (fun a => f a + c) l) = fold_right Rplus 0 (map f l) + INR (length l) * c).
  { clear N H. induction l as [|a l IH]; [cbn; lra|]. cbn [map fold_right]. rewrite IH. rewrite (S_INR (length l) : INR (length (a :: l)) = _). ring. }
  rewrite E. field. lra.
Qed.
(** entries of the posterior over a list of paths *)
Definition Num (alp : omat) (yy : list jump_path) (i j : nat) : R := mean (fun y => INR (n_jumps (sk_x y) i j)) yy + num alp i j - 1.
Definition Den (bet : omat) (yy : list jump_path) (i j : nat) : R := mean (fun y => hold_of y i) yy + num bet i j.
Lemma objective_value dim yy alp bet gen v : yy <> [] -> Forall (fun y => wf_skel y /\ Forall (fun i => (i < dim)%nat) (sk_x y)) yy -> hyper dim (fun _ => True) alp -> hyper dim (fun _ => True) bet ->
  generator dim gen -> pos_off dim gen -> (em_objective dim yy alp bet gen v <-> v = off_sum dim (fun i j => Num alp yy i j * ln (gen i j) - Den bet yy i j * gen i j)).
Proof.
  intros NE HY HA HB G1 G2.
  set (LL := fun y => off_sum dim (fun i j => (INR (n_jumps (sk_x y) i j) + num alp i j - 1) * ln (gen i j) - (hold_of y i + num bet i j) * gen i j) - eval_logprior dim gen alp bet).
  assert (LY : forall y, In y yy -> eval_loglik dim y gen = Ok (Some (LL y))).
  { intros y Hy. rewrite Forall_forall in HY. destruct (HY y Hy) as [W D]. destruct (conjugacy dim y gen alp bet W D G1 G2 HA HB) as (a1 & b1 & ll & E1 & E2 & E3). rewrite E2. do 2 f_equal.
    unfold LL. destruct (L_inf.update_ok dim y alp bet (proj1 W) D) as (a2 & b2 & E4 & U1 & U2 & U3). rewrite E1 in E4. injection E4 as <- <-.
    rewrite (logprior_off dim gen a1 b1 (fun _ => True) (fun i j => INR (n_jumps (sk_x y) i j) + num alp i j) (fun i j => hold_of y i + num bet i j)) in E3; auto.
    - rewrite E3. ring.
    - intros i j Hi Hj N. destruct (hyper_num _ _ _ HA i j Hi Hj N) as [Ea _]. destruct (hyper_num _ _ _ HB i j Hi Hj N) as [Eb _]. rewrite U2, U3 by auto. rewrite Ea, Eb. auto. }
  assert (V : mean LL yy + eval_logprior dim gen alp bet = off_sum dim (fun i j => Num alp yy i j * ln (gen i j) - Den bet yy i j * gen i j)).
  { unfold LL. rewrite (mean_ext _ (fun y => off_sum dim (fun i j => (INR (n_jumps (sk_x y) i j) + num alp i j - 1) * ln (gen i j) - (hold_of y i + num bet i j) * gen i j) + - eval_logprior dim gen alp bet)) by (intros; ring).
    rewrite mean_const_add by auto. rewrite (mean_off (fun y i j => INR (n_jumps (sk_x y) i j) + num alp i j - 1) (fun y i j => hold_of y i + num bet i j) (fun i j => ln (gen i j)) (fun i j => gen i j)).
    rewrite Rplus_assoc, Rplus_opp_l, Rplus_0_r. unfold off_sum. apply rsum_ext. intros i _. apply rsum_ext. intros j _. destruct (Nat.eqb i j); [reflexivity|]. unfold Num, Den.
    rewrite (mean_ext (fun y => INR (n_jumps (sk_x y) i j) + num alp i j - 1) (fun y => INR (n_jumps (sk_x y) i j) + (num alp i j - 1))) by (intros; ring).
    rewrite !mean_const_add by auto. ring. }
  split.
  - intros (ll & F & ->). rewrite <- V. f_equal. unfold mean. f_equal. clear - F LY. induction F as [|y l yy ll H F IH]; [reflexivity|]. cbn [map].
    rewrite (LY y) in H by now left. injection H as <-. f_equal. apply IH. intros z Hz. apply LY. now right.
  - intros ->. exists (map LL yy). split; [|now rewrite <- V].
    clear - LY. induction yy as [|y yy IH]; cbn [map]; constructor; [apply LY; now left|]. apply IH. intros z Hz. apply LY. now right.
Qed.
Lemma Forall2_in_r {A B} (P : A -> B -> Prop) l r : Forall2 P l r -> forall b, In b r -> exists a, In a l /\ P a b.
Proof. induction 1 as [|a b l r H _ IH]; intros c Hc; [destruct Hc|]. destruct Hc as [<-|Hc]; [exists a; split; [now left|auto]|]. destruct (IH c Hc) as (a' & ? & ?). exists a'. split; [now right|auto]. Qed.
Lemma nan_mean_some l i j : forall (yy : list jump_path) (g : jump_path -> R), Forall2 (fun (A : omat) y => A i j = Some (g y)) l yy -> nan_mean l i j = Some (mean g yy).
Proof.
  intros yy g F. unfold nan_mean, mean. cbv beta. replace (map (fun A : nat -> nat -> option R => A i j) l) with (map Some (map g yy)); [now rewrite all_ok_some|].
  induction F as [|A y l yy H _ IH]; [reflexivity|]. cbn [map]. now rewrite H, IH.
Qed.
Lemma nan_mean_none l i j : l <> [] -> Forall (fun A : omat => A i j = None) l -> nan_mean l i j = None.
Proof.
  intros N F. unfold nan_mean. cbv beta. rewrite all_ok_none; [reflexivity|destruct l; [congruence|discriminate]|]. apply Forall_forall. intros x Hx. apply in_map_iff in Hx as (A & <- & HA). rewrite Forall_forall in F. symmetry. auto.
Qed.
Lemma Forall2_res {A B} (P : A -> B -> Prop) (f : A -> res B) l : (forall a, In a l -> exists b, f a = Ok b /\ P a b) -> exists r, res_map f l = Ok r /\ Forall2 P l r.
Proof.
  induction l as [|a l IH]; intros H; [exists []; split; constructor|]. destruct (H a (or_introl eq_refl)) as (b & E & Hb). destruct IH as (r & Er & F); [intros c Hc; apply H; now right|].
  exists (b :: r). cbn [res_map]. rewrite E. cbn [rbind]. rewrite Er. split; [reflexivity|now constructor].
Qed.
Lemma all_ok_forall2 {A} (l : list (option A)) r : all_ok l = Ok r <-> l = map Some r.
Proof.
  split; [|intros ->; apply all_ok_some]. revert r; induction l as [|[a|] l IH]; intros r H; cbn [all_ok] in H; [injection H as <-; reflexivity| |discriminate].
  destruct (all_ok l) as [q| |] eqn:E; cbn [rbind] in H; try discriminate. injection H as <-. cbn [map]. f_equal. now apply IH.
Qed.
Lemma em_ok dim hh yy alp bet : yy <> [] -> Forall2 (particle dim) hh yy -> hyper dim (fun _ => True) alp -> hyper dim (Rlt 0) bet ->
  exists lam v, em_update_generator dim hh alp bet = Ok (lam, v) /\ (forall i j, (i < dim)%nat -> (j < dim)%nat -> exists x, lam i j = Some x) /\ (forall i, (i < dim)%nat -> rsum dim (mat_of lam i) = 0) /\
    (forall i j, (i < dim)%nat -> (j < dim)%nat -> i <> j -> 0 < Den bet yy i j /\ lam i j = Some (Num alp yy i j / Den bet yy i j)) /\
    (forall w, v = Some w <-> em_objective dim yy alp bet (mat_of lam) w).
Proof.
  intros NE F HA HB. unfold em_update_generator.
  rewrite (res_map_ok prune_anchorage (fun _ _ => True) hh yy); [|clear - F; induction F as [|h y hh yy (E & _) _ IH]; constructor; auto]. cbn [rbind].
  assert (PY : Forall (fun y => wf_skel y /\ Forall (fun i => (i < dim)%nat) (sk_x y)) yy). { clear - F. induction F as [|h y hh yy (_ & H) _ IH]; constructor; auto. }
  destruct (Forall2_res (fun y (ab : omat * omat) => (forall i, fst ab i i = None) /\ (forall i j, i <> j -> fst ab i j = option_map (Rplus (INR (n_jumps (sk_x y) i j))) (alp i j)) /\ (forall i j, snd ab i j = option_map (Rplus (hold_of y i)) (bet i j)))
    (fun y => update dim y alp bet) yy) as (ab & EAB & FAB).
  { intros y Hy. rewrite Forall_forall in PY. destruct (PY y Hy) as [W D]. destruct (L_inf.update_ok dim y alp bet (proj1 W) D) as (a1 & b1 & E & U1 & U2 & U3). exists (a1, b1). cbn [fst snd]. auto. }
  rewrite EAB. cbn [rbind]. assert (NAB : ab <> []) by (intros ->; inversion FAB; subst; congruence). destruct ab as [|p0 ab0]; [congruence|]. set (ab := p0 :: ab0) in *.
  set (N := nan_mean (map (fun p i j => nan2 Rminus (fst p i j) (Some 1)) ab)). set (D := nan_mean (map snd ab)).
  assert (HN0 : forall i, N i i = None).
  { intros i. unfold N. apply nan_mean_none; [subst ab; discriminate|]. apply Forall_forall. intros A HI. apply in_map_iff in HI as (p & <- & Hp).
    destruct (Forall2_in_r _ _ _ FAB p Hp) as (y & _ & H & _). now rewrite H. }
  assert (HN : forall i j, (i < dim)%nat -> (j < dim)%nat -> i <> j -> N i j = Some (Num alp yy i j)).
  { intros i j Hi Hj NN. destruct (hyper_num _ _ _ HA i j Hi Hj NN) as [Ea _]. unfold N. rewrite (nan_mean_some _ i j yy (fun y => INR (n_jumps (sk_x y) i j) + (num alp i j - 1))).
    - f_equal. rewrite mean_const_add by auto. unfold Num. ring.
    - clear - FAB Ea NN. induction FAB as [|y p yy ab H _ IH]; cbn [map]; constructor; auto. destruct H as (_ & H & _). rewrite H, Ea by auto. cbn [option_map nan2]. f_equal. ring. }
  assert (HD : forall i j, (i < dim)%nat -> (j < dim)%nat -> i <> j -> 0 < Den bet yy i j /\ D i j = Some (Den bet yy i j)).
  { intros i j Hi Hj NN. destruct (hyper_num _ _ _ HB i j Hi Hj NN) as [Eb Pb]. split.
    - unfold Den. rewrite <- mean_const_add by auto. apply mean_pos; auto. intros y Hy. rewrite Forall_forall in PY. pose proof (hold_of_nonneg y i (proj1 (proj1 (PY y Hy)))). lra.
    - unfold D. rewrite (nan_mean_some _ i j yy (fun y => hold_of y i + num bet i j)); [unfold Den; now rewrite mean_const_add|].
      clear - FAB Eb. induction FAB as [|y p yy ab H _ IH]; cbn [map]; constructor; auto. destruct H as (_ & _ & H). now rewrite H, Eb. }
  assert (DN : diag_nan dim (fun i j => nandiv (N i j) (D i j))).
  { split; [intros i _; rewrite HN0; reflexivity|]. intros i j Hi Hj NN. rewrite HN by auto. destruct (HD i j Hi Hj NN) as [P ->]. cbn [nandiv]. destruct (Reqb (Den bet yy i j) 0) eqn:E; [apply Reqb_true in E; lra|eauto]. }
  destruct (em_rows dim _ DN) as (lam & EL & L1 & L2 & L3). rewrite EL. cbn [rbind].
  destruct (Forall2_res (fun y l => eval_loglik dim y (mat_of lam) = Ok l) (fun y => eval_loglik dim y (mat_of lam)) yy) as (ll & ELL & FLL).
  { intros y Hy. rewrite Forall_forall in PY. destruct (PY y Hy) as [W HX]. unfold eval_loglik. replace (forallb (fun a => (a <? dim)%nat) (sk_x y)) with true.
    2:{ symmetry. apply forallb_forall. intros x Hx. rewrite Forall_forall in HX. apply Nat.ltb_lt. auto. }
    replace (length (sk_t y) =? length (sk_x y))%nat with true by (symmetry; apply Nat.eqb_eq; apply W). cbn [negb]. destruct (forallb _ _); eauto. }
  rewrite ELL. cbn [rbind]. do 2 eexists. split; [reflexivity|]. split; [exact L1|]. split; [exact L2|]. split.
  - intros i j Hi Hj NN. destruct (HD i j Hi Hj NN) as [P E]. split; [exact P|]. rewrite L3 by auto. rewrite HN, E by auto. cbn [nandiv]. destruct (Reqb (Den bet yy i j) 0) eqn:E0; [apply Reqb_true in E0; lra|reflexivity].
  - intros w. split.
    + destruct (all_ok ll) as [v| |] eqn:EA; try discriminate. intros [= <-]. apply all_ok_forall2 in EA. exists v. split; [|reflexivity]. subst ll. clear - FLL. remember (map Some v) as l. revert v Heql.
      induction FLL as [|y a yy l H _ IH]; intros [|b v] E; try discriminate; constructor; cbn [map] in E; injection E as -> ->; auto.
    + intros (v & FV & ->). replace ll with (map Some v); [now rewrite all_ok_some|]. clear - FLL FV. revert v FV. induction FLL as [|y a yy l H _ IH]; intros v FV; inversion FV; subst; cbn [map]; [reflexivity|]. f_equal; [congruence|auto].
Qed.
Lemma ln_lt_sub1 x : 0 < x -> x <> 1 -> ln x < x - 1.
Proof.
  intros Hx N. assert (P : 0 < sqrt x) by now apply sqrt_lt_R0. assert (E : x = sqrt x * sqrt x) by (symmetry; apply sqrt_sqrt; lra).
  assert (L : ln x = 2 * ln (sqrt x)). { rewrite E at 1. rewrite ln_mult by auto. ring. } pose proof (ln_le_sub1 (sqrt x) P).
  assert (sqrt x <> 1) by (intros H1; apply N; rewrite E, H1; ring). rewrite L. assert (0 < (sqrt x - 1) * (sqrt x - 1)) by nra. nra.
Qed.
Lemma gamma_strict c d x : 0 < c -> 0 < d -> 0 < x -> x <> c / d -> c * ln x - d * x < c * ln (c / d) - d * (c / d).
Proof.
  intros Hc Hd Hx N. assert (Q : 0 < c / d) by now apply Rdiv_lt_0_compat. set (q := c / d) in *. assert (Ed : c = q * d) by (unfold q; field; lra).
  assert (H : ln (x / q) < x / q - 1). { apply ln_lt_sub1; [now apply Rdiv_lt_0_compat|]. intros H. apply N. apply (Rmult_eq_compat_r q) in H. unfold Rdiv in H. rewrite Rmult_assoc, Rinv_l in H by lra. lra. }
  unfold Rdiv in H at 1. rewrite ln_mult, ln_Rinv in H by (auto; now apply Rinv_0_lt_compat).
  apply (Rmult_lt_compat_l c) in H; [|lra]. replace (c * (x / q - 1)) with (d * x - d * q) in H by (rewrite Ed; field; lra). lra.
Qed.
Lemma off_le dim f g : (forall i j, (i < dim)%nat -> (j < dim)%nat -> i <> j -> f i j <= g i j) -> off_sum dim f <= off_sum dim g.
Proof. intros H. apply rsum_le. intros i Hi. apply rsum_le. intros j Hj. destruct (Nat.eqb_spec i j); [lra|auto]. Qed.
Lemma off_lt dim f g i j : (forall i j, (i < dim)%nat -> (j < dim)%nat -> i <> j -> f i j <= g i j) -> (i < dim)%nat -> (j < dim)%nat -> i <> j -> f i j < g i j -> off_sum dim f < off_sum dim g.
Proof.
  intros H Hi Hj N L. enough (0 < off_sum dim g - off_sum dim f) by lra. unfold off_sum. rewrite <- rsum_minus. apply (rsum_pos _ _ i); auto.
  - intros k Hk. rewrite <- rsum_minus. apply rsum_nonneg. intros m Hm. destruct (Nat.eqb_spec k m); [lra|]. specialize (H k m Hk Hm n). lra.
  - rewrite <- rsum_minus. apply (rsum_pos _ _ j); auto.
    + intros m Hm. destruct (Nat.eqb_spec i m); [lra|]. specialize (H i m Hi Hm n). lra.
    + destruct (Nat.eqb_spec i j); [congruence|lra].
Qed.
Lemma em_optimal dim hh yy alp bet : yy <> [] -> Forall2 (particle dim) hh yy -> hyper dim (Rlt 1) alp -> hyper dim (Rlt 0) bet ->
  exists lam v, em_update_generator dim hh alp bet = Ok (lam, Some v) /\ (forall i j, (i < dim)%nat -> (j < dim)%nat -> exists x, lam i j = Some x) /\ generator dim (mat_of lam) /\ pos_off dim (mat_of lam) /\
    em_objective dim yy alp bet (mat_of lam) v /\
    forall gen w, generator dim gen -> pos_off dim gen -> em_objective dim yy alp bet gen w -> w < v \/ w = v /\ forall i j, (i < dim)%nat -> (j < dim)%nat -> gen i j = mat_of lam i j.
Proof.
  intros NE F HA HB. assert (HA' : hyper dim (fun _ => True) alp) by (destruct HA as [A1 A2]; split; auto; intros i j Hi Hj N; destruct (A2 i j Hi Hj N) as (a & Ea & _); eauto).
  assert (HB' : hyper dim (fun _ => True) bet) by (destruct HB as [A1 A2]; split; auto; intros i j Hi Hj N; destruct (A2 i j Hi Hj N) as (a & Ea & _); eauto).
  assert (PY : Forall (fun y => wf_skel y /\ Forall (fun i => (i < dim)%nat) (sk_x y)) yy). { clear - F. induction F as [|h y hh yy (_ & H) _ IH]; constructor; auto. }
  destruct (em_ok dim hh yy alp bet NE F HA' HB) as (lam & v & E & L1 & L2 & L3 & L4).
  assert (PN : forall i j, (i < dim)%nat -> (j < dim)%nat -> i <> j -> 0 < Num alp yy i j).
  { intros i j Hi Hj N. destruct (hyper_num _ _ _ HA i j Hi Hj N) as [_ Pa]. unfold Num. rewrite <- (mean_const_add (fun y => INR (n_jumps (sk_x y) i j)) (num alp i j) yy NE).
    replace (mean (fun a => INR (n_jumps (sk_x a) i j) + num alp i j) yy - 1) with (mean (fun a => INR (n_jumps (sk_x a) i j) + num alp i j) yy + -1) by ring.
    rewrite <- mean_const_add by auto. apply mean_pos; auto. intros y _. pose proof (pos_INR (n_jumps (sk_x y) i j)). lra. }
  assert (ML : forall i j, (i < dim)%nat -> (j < dim)%nat -> i <> j -> mat_of lam i j = Num alp yy i j / Den bet yy i j) by (intros i j Hi Hj N; unfold mat_of; now rewrite (proj2 (L3 i j Hi Hj N))).
  assert (G2 : pos_off dim (mat_of lam)). { intros i j Hi Hj N. rewrite ML by auto. apply Rdiv_lt_0_compat; [now apply PN|now apply L3]. }
  assert (G1 : generator dim (mat_of lam)) by (split; [intros i j Hi Hj N; left; now apply G2|exact L2]).
  set (v0 := off_sum dim (fun i j => Num alp yy i j * ln (mat_of lam i j) - Den bet yy i j * mat_of lam i j)).
  assert (OV : em_objective dim yy alp bet (mat_of lam) v0) by (apply objective_value; auto).
  assert (v = Some v0) as -> by now apply L4. exists lam, v0. split; [exact E|]. split; [exact L1|]. split; [exact G1|]. split; [exact G2|]. split; [exact OV|].
  intros gen w Gg Gp Ow. apply objective_value in Ow; auto. subst w.
  assert (LE : forall i j, (i < dim)%nat -> (j < dim)%nat -> i <> j -> Num alp yy i j * ln (gen i j) - Den bet yy i j * gen i j <= Num alp yy i j * ln (mat_of lam i j) - Den bet yy i j * mat_of lam i j).
  { intros i j Hi Hj N. rewrite ML by auto. destruct (Req_dec (gen i j) (Num alp yy i j / Den bet yy i j)) as [->|NQ]; [lra|]. left. apply gamma_strict; auto. now apply L3. }
  assert (DEC : (forall i j, (i < dim)%nat -> (j < dim)%nat -> i <> j -> gen i j = mat_of lam i j) \/ exists i j, (i < dim)%nat /\ (j < dim)%nat /\ i <> j /\ gen i j <> mat_of lam i j).
  { clear - dim. enough (Q : forall l : list (nat * nat), (forall p, In p l -> fst p <> snd p -> gen (fst p) (snd p) = mat_of lam (fst p) (snd p)) \/ exists p, In p l /\ fst p <> snd p /\ gen (fst p) (snd p) <> mat_of lam (fst p) (snd p)).
    - destruct (Q (list_prod (seq 0 dim) (seq 0 dim))) as [H|([i j] & H & H1 & H2)].
      + left. intros i j Hi Hj N. apply (H (i, j)); auto. apply in_prod; apply in_seq; lia.
      + right. apply in_prod_iff in H as [Hi Hj]. apply in_seq in Hi, Hj. exists i, j. repeat split; auto; lia.
    - induction l as [|p l IH]; [left; intros ? []|]. destruct IH as [IH|(q & Hq & H)]; [|right; exists q; split; [now right|exact H]].
      destruct (Nat.eq_dec (fst p) (snd p)) as [N|N]; [left; intros q [<-|Hq] NQ; [contradiction|auto]|].
      destruct (Req_dec (gen (fst p) (snd p)) (mat_of lam (fst p) (snd p))) as [Eq|Eq]; [left; intros q [<-|Hq] NQ; auto|]. right. exists p. split; [now left|auto]. }
  destruct DEC as [EQ|(i & j & Hi & Hj & N & NQ)].
  - right. assert (EA : forall i j, (i < dim)%nat -> (j < dim)%nat -> gen i j = mat_of lam i j).
    { intros i j Hi Hj. destruct (Nat.eq_dec i j) as [<-|N]; [|auto]. pose proof (proj2 Gg i Hi) as S1. pose proof (L2 i Hi) as S2.
      assert (S3 : rsum dim (fun j => gen i j - mat_of lam i j) = gen i i - mat_of lam i i).
      { transitivity (rsum dim (fun j => if Nat.eqb i j then gen i j - mat_of lam i j else 0)); [|apply (rsum_delta dim (fun j => gen i j - mat_of lam i j)); auto].
        apply rsum_ext. intros j Hj'. destruct (Nat.eqb_spec i j) as [->|N]; [reflexivity|]. rewrite EQ by auto. ring. }
      rewrite rsum_minus in S3. change (rsum dim (fun j => gen i j)) with (rsum dim (gen i)) in S3. change (rsum dim (fun j => mat_of lam i j)) with (rsum dim (mat_of lam i)) in S3. lra. }
    split; [|exact EA]. unfold v0, off_sum. apply rsum_ext. intros i Hi. apply rsum_ext. intros j Hj. now rewrite EA by auto.
  - left. apply (off_lt _ _ _ i j); auto. rewrite ML by auto. apply gamma_strict; auto; [now apply L3|]. rewrite <- ML by auto. exact NQ.
Qed.
