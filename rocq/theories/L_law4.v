(** Law of the Poisson coin within one batch, and its failure beyond the first batch. *)
From Coquelicot Require Import Hierarchy RInt RInt_analysis RInt_gen Series Rbar Continuity Derive AutoDerive.
From Coq Require Import Reals List Bool Arith Lia Lra Permutation.
From Verif Require Import Base Np Rng L_rng M_mjp L_list L_ppp M_path M_skel SpecLaw SpecCoin L_law L_law2 L_law3.
Import ListNotations.
Local Open Scope R_scope.

Definition prod1 (f : R -> R) (l : list R) : R := fold_right Rmult 1 (map f l).
Lemma prod1_perm : forall g a b, Permutation a b -> prod1 g a = prod1 g b.
Proof.
  intros g a b H. unfold prod1. induction H; cbn; [reflexivity|rewrite IHPermutation; reflexivity|ring|congruence].
Qed.
Lemma prod1_app : forall f a b, prod1 f (a ++ b) = prod1 f a * prod1 f b.
Proof. intros f a b. unfold prod1. induction a as [|x a IH]; cbn; [ring|]. rewrite IH. ring. Qed.

Lemma average_iid : forall d f w, expect_r d f w -> forall n, average (draw_rs (repeat d n)) (prod1 f) (w ^ n).
Proof.
  intros d f w H. induction n as [|n IH]; cbn [repeat draw_rs].
  - apply (average_ret _ [] (prod1 f)).
  - apply (average_r _ _ _ _ (fun x => f x * w ^ n)).
    + cbn [pow]. pose proof (expect_r_scal _ _ _ (w ^ n) H) as P.
      replace (w * w ^ n) with (w ^ n * w) by ring.
      replace (fun x => f x * w ^ n) with (fun x => w ^ n * f x); [exact P|].
      apply FunctionalExtensionality.functional_extensionality. intros x. ring.
    + intros r _. apply (average_map _ _ (draw_rs (repeat d n)) (fun rs => r :: rs)).
      apply (average_scal _ _ _ _ (f r)) in IH. exact IH.
Qed.

Lemma average_times : forall T (g : R -> R -> R) G u0, 0 < T ->
  Forall (fun h => is_RInt (g h) 0 T (T * G h)) u0 ->
  average (draw_rows (length u0) (map (DUniform 0) [T]))
    (fun u => product (fun r => g (nth 0 r 0) (nth 1 r 0)) (map (fun p => fst p :: snd p) (combine u0 u))) (prod1 G u0).
Proof.
  intros T g G u0 HT H. induction H as [|h u0 Hh Hu IH]; cbn [length draw_rows].
  - apply (average_ret _ [] (fun u => product (fun r => g (nth 0 r 0) (nth 1 r 0)) (map (fun p => fst p :: snd p) (combine [] u)))).
  - apply (average_bind0 _ _ _ _ _ (fun r => g h (nth 0 r 0) * prod1 G u0)).
    + unfold prod1; cbn [map fold_right]. fold (prod1 G u0).
      apply (average_ext _ _ (fun r => prod1 G u0 * g h (nth 0 r 0))); [intros; ring|]. rewrite Rmult_comm.
      apply average_scal. pose proof (average_row1 T (g h) _ HT Hh) as P.
      refine (average_eq _ _ _ _ _ _ P). field. lra.
    + intros r. apply (average_map _ _ (draw_rows (length u0) (map (DUniform 0) [T])) (fun rs => r :: rs)).
      apply (average_scal _ _ _ _ (g h (nth 0 r 0))) in IH. refine (average_ext _ _ _ _ _ _ IH).
      intros a. reflexivity.
Qed.

Lemma pow_div : forall a b n, (a / b) ^ n = a ^ n / b ^ n.
Proof. intros a b n. unfold Rdiv. rewrite Rpow_mult_distr, pow_inv. reflexivity. Qed.
(** the density of the largest of n heights *)
Lemma largest_integral : forall (G : R -> R) b n, 0 < b -> (forall h, continuous G h) ->
  is_RInt (fun x => beta_density n 0 x * (G (b * x) * ((RInt G 0 (b * x)) / (b * x)) ^ n)) 0 1 ((RInt G 0 b / b) ^ S n).
Proof.
  intros G b n Hb HG.
  assert (EJ : forall y, ex_RInt G 0 y) by (intros y; apply (ex_RInt_continuous (V := R_CompleteNormedModule)); intros; apply HG).
  assert (DJ : forall y, is_derive (fun y => RInt G 0 y) y (G y)).
  { intros y. apply (is_derive_RInt G (fun y => RInt G 0 y) 0 y).
    - exists (mkposreal 1 Rlt_0_1). intros z _. apply (RInt_correct (V := R_CompleteNormedModule)). apply EJ.
    - apply HG. }
  assert (D : is_RInt (fun x => INR (S n) / b ^ n * (G (b * x) * RInt G 0 (b * x) ^ n)) 0 1 ((RInt G 0 b / b) ^ S n)).
  { replace ((RInt G 0 b / b) ^ S n) with ((fun x => RInt G 0 (b * x) ^ S n / b ^ S n) 1 - (fun x => RInt G 0 (b * x) ^ S n / b ^ S n) 0).
    2:{ cbv beta. rewrite Rmult_1_r, Rmult_0_r. rewrite RInt_point. change (zero : R) with 0. rewrite pow_div, (pow_ne_zero (S n)) by lia.
        unfold Rdiv. ring. }
    apply (is_RInt_derive (fun x => RInt G 0 (b * x) ^ S n / b ^ S n)).
    - intros x _.
      assert (D1 : is_derive (fun x => RInt G 0 (b * x)) x (b * G (b * x))).
      { apply (is_derive_comp (fun y => RInt G 0 y) (fun x => b * x)); [apply DJ|]. auto_derive; [exact Logic.I|ring]. }
      pose proof (is_derive_pow _ (S n) x _ D1) as D2. cbn [Nat.pred] in D2.
      pose proof (is_derive_scal _ x (/ b ^ S n) _ D2) as D3.
      replace (INR (S n) / b ^ n * (G (b * x) * RInt G 0 (b * x) ^ n)) with (/ b ^ S n * (INR (S n) * (b * G (b * x)) * RInt G 0 (b * x) ^ n)).
      + refine (is_derive_ext _ _ _ _ _ D3). intros t. req. unfold Rdiv. ring.
      + change (b ^ S n) with (b * b ^ n). field. split; [apply pow_nonzero|]; lra.
    - intros x _. apply (continuous_scal_r (INR (S n) / b ^ n) (fun x => G (b * x) * RInt G 0 (b * x) ^ n)).
      apply (continuous_mult (fun x => G (b * x)) (fun x => RInt G 0 (b * x) ^ n)).
      + apply (continuous_comp (fun x => b * x) G); [|apply HG]. apply (ex_derive_continuous (fun x => b * x)). auto_derive. exact Logic.I.
      + apply (ex_derive_continuous (fun x => RInt G 0 (b * x) ^ n)).
        apply ex_derive_pow. exists (b * G (b * x)).
        apply (is_derive_comp (fun y => RInt G 0 y) (fun x => b * x)); [apply DJ|]. auto_derive; [exact Logic.I|ring]. }
  refine (is_RInt_ext _ _ _ _ _ _ D). rewrite Rmin_left, Rmax_right by lra. intros x Hx. req.
  unfold beta_density. rewrite Nat.add_0_r, Nat.add_1_r, fact_simpl, mult_INR. cbn [fact pow]. change (INR 1) with 1.
  rewrite pow_div, Rpow_mult_distr.
  pose proof (INR_fact_neq_0 n). pose proof (pow_nonzero x n ltac:(lra)). pose proof (pow_nonzero b n ltac:(lra)). field. auto.
Qed.

(** what one batch of n points contributes *)
Lemma batch_law : forall T b (g : R -> R -> R) G n, 0 < T -> 0 < b -> (forall h, 0 <= h <= b -> is_RInt (g h) 0 T (T * G h)) ->
  (forall h, continuous G h) ->
  average (ppp_next [b; T] (mk_ppp (S n) [S n] 0))
    (fun r => match r with Some (batch, _) => product (fun r => g (nth 0 r 0) (nth 1 r 0)) batch | None => 0 end)
    ((RInt G 0 b / b) ^ S n).
Proof.
  intros T b g G n HT Hb Hg HG.
  assert (EJ : forall y, ex_RInt G 0 y) by (intros y; apply (ex_RInt_continuous (V := R_CompleteNormedModule)); intros; apply HG).
  unfold ppp_next. cbn [pp_sizes pp_n pp_ub hd tl].
  apply (average_r _ _ _ _ (fun x => G (b * x) * (RInt G 0 (b * x) / (b * x)) ^ n)).
  - cbn [expect_r]. exists n, 0%nat. split; [rewrite S_INR; ring|]. split; [rewrite S_INR; cbn; ring|].
    apply largest_integral; assumption.
  - intros x Hx. cbn [rsupport] in Hx. specialize (Hx ltac:(rewrite S_INR; pose proof (pos_INR n); lra) ltac:(rewrite S_INR; lra)).
    rewrite Rplus_0_l. set (y := b * x).
    assert (Hy : 0 < y < b). { unfold y. split; [apply Rmult_lt_0_compat; lra|]. assert (b * x < b * 1) by (apply Rmult_lt_compat_l; lra). lra. }
    apply (average_bind _ _ _ _ _ (prod1 G) (fun u0 => length u0 = S n /\ Forall (fun h => 0 <= h <= b) u0)).
    + destruct (Nat.eqb_spec (S n) 1) as [E|E].
      * replace n with 0%nat by lia. refine (average_eq _ _ _ _ _ _ (average_ret _ _ _)). unfold prod1; cbn. ring.
      * apply (average_map _ _ (draw_rs (repeat (DUniform 0 y) (S n - 1))) (fun us => np_sort us ++ [y])).
        replace (S n - 1)%nat with n by lia.
        apply (average_ext _ _ (fun us => G y * prod1 G us)).
        { intros us. rewrite prod1_app. rewrite (prod1_perm G (np_sort us) us) by (apply np_sort_perm). unfold prod1 at 3; cbn. ring. }
        apply average_scal. apply average_iid. split; [lra|].
        assert (EE : forall J : R, (y - 0) * (J / y) = J) by (intros J; field; lra). rewrite EE. apply (RInt_correct (V := R_CompleteNormedModule)). apply EJ.
    + destruct (Nat.eqb_spec (S n) 1) as [E|E].
      * intros o k _. cbn [ret fst]. split; [cbn; lia|]. repeat constructor; lra.
      * intros o k Ho. unfold bind. rewrite draw_rs_repeat. cbn [ret fst].
        assert (P : Permutation (np_sort (map (fun j => ora_r o j (DUniform 0 y)) (seq k (S n - 1))) ++ [y]) (map (fun j => ora_r o j (DUniform 0 y)) (seq k (S n - 1)) ++ [y]))
          by (apply Permutation_app_tail, np_sort_perm).
        split; [rewrite (Permutation_length P), app_length, map_length, seq_length; cbn; lia|].
        apply (Permutation_Forall (Permutation_sym P)). apply Forall_app. split; [|repeat constructor; lra].
        apply Forall_forall. intros z Hz. apply in_map_iff in Hz as (j & <- & _).
        destruct (proj1 Ho j (DUniform 0 y)) as (u & Hu & ->). split; [apply Rplus_le_le_0_compat; [lra|apply Rmult_le_pos; lra]|].
        assert (y * u <= y * 1) by (apply Rmult_le_compat_l; lra). lra.
    + intros u0 [HL HF]. rewrite <- HL.
      apply (average_map _ _ (draw_rows (length u0) (map (DUniform 0) [T])) (fun u => Some (map (fun p => fst p :: snd p) (combine u0 u), mk_ppp (length u0) [] y))).
      apply average_times; [exact HT|]. apply (Forall_impl _ (fun h => Hg h) HF).
Qed.

Lemma ret_bind : forall A B (m : M A) (f : A -> M B) Q P, returns m Q -> (forall a, Q a -> returns (f a) P) -> returns (bind m f) P.
Proof.
  intros A B m f Q P Hm Hf o k Ho. specialize (Hm o k Ho). unfold bind. destruct (m o k) as [[a|e|] k']; cbn in *; auto.
  apply (Hf a Hm o k' Ho).
Qed.
Lemma returns_weaken' : forall A (m : M A) (Q P : A -> Prop), returns m Q -> (forall a, Q a -> P a) -> returns m P.
Proof. intros A m Q P H HQ o k Ho. specialize (H o k Ho). destruct (fst (m o k)); cbn in *; auto. Qed.
Lemma next_returns : forall bounds m i rest u, returns (ppp_next bounds (mk_ppp m (i :: rest) u))
  (fun r => exists batch x, r = Some (batch, mk_ppp m rest (u + hd 0 bounds * x)) /\ rsupport (DBeta (INR i) (INR m + 1 - INR i)) x).
Proof.
  intros bounds m i rest u. unfold ppp_next. cbn [pp_sizes pp_n pp_ub].
  apply (ret_bind _ _ _ _ (rsupport (DBeta (INR i) (INR m + 1 - INR i)))); [intros o k Ho; apply (proj1 Ho)|]. intros x Hx.
  apply (ret_bind _ _ _ _ (fun _ => True)); [apply returns_true|]. intros u0 _.
  apply (ret_bind _ _ _ _ (fun _ => True)); [apply returns_true|]. intros us _.
  intros o k _. cbn. eexists _, x. split; [reflexivity|exact Hx].
Qed.
(** ** the coin *)
Lemma col1_ins_perm : forall a l, Permutation (col1_ins a l) (a :: l).
Proof. intros a l. induction l as [|b l IH]; cbn; [reflexivity|]. destruct (Rleb _ _); [reflexivity|]. rewrite IH. apply perm_swap. Qed.
Lemma col1_sort_perm' : forall l, Permutation (col1_sort l) l.
Proof. induction l as [|a l IH]; cbn; [reflexivity|]. rewrite col1_ins_perm. constructor. exact IH. Qed.

Lemma forallb_perm : forall (f : list R -> bool) a b, Permutation a b -> forallb f a = forallb f b.
Proof.
  intros f a b H. induction H; cbn; [reflexivity|rewrite IHPermutation; reflexivity| |congruence].
  rewrite !andb_assoc. f_equal. apply andb_comm.
Qed.
Lemma exists_below : forall (disc w : R -> R) cent rows,
  existsb (fun c => Rltb (snd c) (disc (fst c) - cent)) (combine (map w (map (fun r => nth 1 r 0) rows)) (map (fun r => nth 0 r 0) rows))
  = negb (forallb (above (fun u => disc (w u) - cent)) rows).
Proof.
  intros disc w cent. induction rows as [|r rows IH]; [reflexivity|]. cbn [map combine existsb forallb fst snd].
  rewrite IH. unfold above at 2. destruct (Rltb _ _), (forallb _ rows); reflexivity.
Qed.
(** one round of the coin on a known path *)
Lemma coin_round : forall w disc bounds cent n p f g v (P : ppp_state -> Prop),
  average (ppp_next bounds p) (fun r => match r with None => f (true, tt) | Some (batch, p') => if forallb (above (fun u => disc (w u) - cent)) batch then g p' else f (false, tt) end) v ->
  returns (ppp_next bounds p) (fun r => match r with Some (_, p') => P p' | None => True end) ->
  (forall p', P p' -> average (coin_with (frozen w) n disc bounds cent p' tt) f (g p')) ->
  average (coin_with (frozen w) (S n) disc bounds cent p tt) f v.
Proof.
  intros w disc bounds cent n p f g v P H HP Hn. cbn [coin_with].
  refine (average_bind _ _ _ _ _ _ _ _ H HP _). intros [[batch p']|] Hp.
  - unfold frozen. apply (average_comp _ (if forallb (above (fun u => disc (w u) - cent)) batch then coin_with (frozen w) n disc bounds cent p' tt else ret (false, tt))).
    + intros o k _. unfold bind at 1, ret at 1. cbn [fst snd]. rewrite exists_below, (forallb_perm _ _ _ (col1_sort_perm' batch)).
      destruct (forallb _ batch); reflexivity.
    + destruct (forallb _ batch); [apply Hn; exact Hp|]. apply (average_ret _ (false, tt) f).
  - apply (average_ret _ (true, tt) f).
Qed.
Lemma coin_end : forall w disc bounds cent n m u, chance (coin_with (frozen w) (S n) disc bounds cent (mk_ppp m [] u) tt) fst 1.
Proof. intros. unfold chance. apply (average_comp _ (ret (true, tt))); [reflexivity|]. apply (average_ret _ (true, tt) (fun a => ind (fst a))). Qed.

Lemma coin_one_batch : forall w disc cent T b (G : R -> R) n, 0 < T -> 0 < b ->
  (forall h, 0 <= h <= b -> is_RInt (fun u => ind (negb (Rltb h (disc (w u) - cent)))) 0 T (T * G h)) ->
  (forall h, continuous G h) ->
  chance (coin_with (frozen w) 2 disc [b; T] cent (mk_ppp (S n) [S n] 0) tt) fst ((RInt G 0 b / b) ^ S n) /\
  chance (draw_rows (S n) (map (DUniform 0) [b; T])) (forallb (above (fun u => disc (w u) - cent))) ((RInt G 0 b / b) ^ S n).
Proof.
  intros w disc cent T b G n HT Hb Hg HG. split.
  - pose proof (batch_law T b (fun h u => ind (negb (Rltb h (disc (w u) - cent)))) G n HT Hb Hg HG) as P.
    unfold chance. cbn [coin_with].
    refine (average_bind _ _ _ _ _ _ (fun r => exists batch u, r = Some (batch, mk_ppp (S n) [] u)) _ P _ _).
    + apply (returns_weaken' _ _ _ _ (next_returns [b; T] (S n) (S n) [] 0)). intros r (batch & x & -> & _). eauto.
    + intros r (batch & u & ->).
      unfold frozen. apply (average_comp _ (ret (forallb (above (fun u => disc (w u) - cent)) batch, tt))).
      { intros o k _. unfold bind at 1, ret at 1. cbn [fst snd]. rewrite exists_below, (forallb_perm _ _ _ (col1_sort_perm' batch)).
        destruct (forallb _ batch); reflexivity. }
      refine (average_eq _ _ _ _ _ _ (average_ret _ _ _)). cbn [fst]. rewrite <- product_all. reflexivity.
  - unfold chance. apply (average_ext _ _ (product (fun r => ind (above (fun u => disc (w u) - cent) r)))); [apply product_all|].
    apply average_rows.
    pose proof (average_row2 b T (fun h u => ind (negb (Rltb h (disc (w u) - cent)))) (fun h => T * G h) (T * RInt G 0 b) Hb HT
      (fun h Hh => Hg h ltac:(lra)) (Hg 0 ltac:(lra))) as P.
    refine (average_eq _ _ _ _ _ _ (P _)).
    + assert (EE : forall J : R, T * J / (b * T) = J / b) by (intros J; field; lra). apply EE.
    + apply (is_RInt_scal (V := R_NormedModule)). apply (RInt_correct (V := R_CompleteNormedModule)).
      apply (ex_RInt_continuous (V := R_CompleteNormedModule)). intros; apply HG.
Qed.

(** ** three points in batches of two *)
Lemma rint_split : forall (f : R -> R) a b c u v w, u + v = w -> is_RInt f a b u -> is_RInt f b c v -> is_RInt f a c w.
Proof. intros f a b c u v w <- H1 H2. exact (is_RInt_Chasles (V := R_NormedModule) f a b c u v H1 H2). Qed.
Definition half_step (u : R) : R := if Rltb u (1/2) then 0 else 1.
Lemma half_integral : is_RInt half_step 0 1 (1/2).
Proof.
  apply (rint_split _ 0 (1/2) 1 ((1/2 - 0) * 0) ((1 - 1/2) * 1)); [field| |].
  - refine (is_RInt_ext (fun _ => 0) _ _ _ _ _ (is_RInt_const 0 (1/2) 0)). rewrite Rmin_left, Rmax_right by lra. intros x Hx.
    unfold half_step. destruct (Rltb_dec x (1/2)) as [[_ ->]|[X _]]; [reflexivity|lra].
  - refine (is_RInt_ext (fun _ => 1) _ _ _ _ _ (is_RInt_const (1/2) 1 1)). rewrite Rmin_left, Rmax_right by lra. intros x Hx.
    unfold half_step. destruct (Rltb_dec x (1/2)) as [[X _]|[_ ->]]; [lra|reflexivity].
Qed.
Definition half_pass (h : R) : R := if Rltb h 1 then 1/2 else 1.
Lemma half_above : forall h, 0 <= h -> is_RInt (fun u => ind (negb (Rltb h (half_step u - 0)))) 0 1 (1 * half_pass h).
Proof.
  intros h Hh. unfold half_pass. destruct (Rltb_dec h 1) as [[X ->]|[X ->]].
  - apply (rint_split _ 0 (1/2) 1 ((1/2 - 0) * 1) ((1 - 1/2) * 0)); [field| |].
    + refine (is_RInt_ext (fun _ => 1) _ _ _ _ _ (is_RInt_const 0 (1/2) 1)). rewrite Rmin_left, Rmax_right by lra. intros x Hx.
      unfold half_step. destruct (Rltb_dec x (1/2)) as [[_ ->]|[Y _]]; [|lra]. destruct (Rltb_dec h (0 - 0)) as [[Y _]|[_ ->]]; [lra|reflexivity].
    + refine (is_RInt_ext (fun _ => 0) _ _ _ _ _ (is_RInt_const (1/2) 1 0)). rewrite Rmin_left, Rmax_right by lra. intros x Hx.
      unfold half_step. destruct (Rltb_dec x (1/2)) as [[Y _]|[_ ->]]; [lra|]. destruct (Rltb_dec h (1 - 0)) as [[_ ->]|[Y _]]; [reflexivity|lra].
  - replace (1 * 1) with ((1 - 0) * 1) by ring.
    refine (is_RInt_ext (fun _ => 1) _ _ _ _ _ (is_RInt_const 0 1 1)). intros x _.
    unfold half_step. destruct (Rltb x (1/2)); [destruct (Rltb_dec h (0 - 0)) as [[Y _]|[_ ->]]|destruct (Rltb_dec h (1 - 0)) as [[Y _]|[_ ->]]]; try lra; reflexivity.
Qed.

Lemma third_point : forall x, 0 < x < 1 ->
  chance (coin_with (frozen (fun u => u)) 2 half_step [1; 1] 0 (mk_ppp 3 [1%nat] x) tt) fst (1/2 + x ^ 3 / 2).
Proof.
  intros x Hx. unfold chance.
  apply (coin_round _ _ _ _ _ _ _ (fun _ => 1) _ (fun p => exists u, p = mk_ppp 3 [] u)).
  - unfold ppp_next. cbn [pp_sizes pp_n pp_ub hd tl].
    apply (average_r _ _ _ _ (fun y => half_pass (x + 1 * y))).
    + cbn [expect_r]. exists 0%nat, 2%nat. split; [cbn; ring|]. split; [cbn; ring|].
      assert (I0 : forall a b c, is_RInt (fun y => 3 * c * (1 - y) ^ 2) a b (c * ((1 - a) ^ 3 - (1 - b) ^ 3))).
      { intros a b c. replace (c * ((1 - a) ^ 3 - (1 - b) ^ 3)) with ((fun y => - c * (1 - y) ^ 3) b - (fun y => - c * (1 - y) ^ 3) a) by (cbv beta; ring).
        apply (is_RInt_derive (fun y => - c * (1 - y) ^ 3)).
        - intros y _. auto_derive; [exact Logic.I|]. cbn. req. ring.
        - intros y _. apply (ex_derive_continuous (fun y => 3 * c * (1 - y) ^ 2)). auto_derive. exact Logic.I. }
      apply (rint_split _ 0 (1 - x) 1 (1/2 * ((1 - 0) ^ 3 - (1 - (1 - x)) ^ 3)) (1 * ((1 - (1 - x)) ^ 3 - (1 - 1) ^ 3))); [field| |].
      * refine (is_RInt_ext _ _ _ _ _ _ (I0 0 (1 - x) (1/2))). rewrite Rmin_left, Rmax_right by lra. intros y Hy.
        unfold half_pass, beta_density. destruct (Rltb_dec (x + 1 * y) 1) as [[_ ->]|[Y _]]; [|lra]. cbn. req. field.
      * refine (is_RInt_ext _ _ _ _ _ _ (I0 (1 - x) 1 1)). rewrite Rmin_left, Rmax_right by lra. intros y Hy.
        unfold half_pass, beta_density. destruct (Rltb_dec (x + 1 * y) 1) as [[Y _]|[_ ->]]; [lra|]. cbn. req. field.
    + intros y Hy. cbn [rsupport] in Hy. specialize (Hy ltac:(cbn; lra) ltac:(cbn; lra)).
      set (h := x + 1 * y).
      apply (average_comp _ (do u <- draw_rows (length [h]) (map (DUniform 0) [1]); ret (Some (map (fun p => fst p :: snd p) (combine [h] u), mk_ppp 3 [] h)))); [reflexivity|].
      apply (average_map _ _ (draw_rows (length [h]) (map (DUniform 0) [1])) (fun u => Some (map (fun p => fst p :: snd p) (combine [h] u), mk_ppp 3 [] h))).
      pose proof (average_times 1 (fun h u => ind (negb (Rltb h (half_step u - 0)))) half_pass [h] Rlt_0_1) as P.
      specialize (P ltac:(repeat constructor; apply half_above; unfold h; lra)).
      unfold prod1 in P. cbn [map fold_right] in P. rewrite Rmult_1_r in P.
      refine (average_ext _ _ _ _ _ _ P). intros u.
      change (fun r => ind (negb (Rltb (nth 0 r 0) (half_step (nth 1 r 0) - 0)))) with (fun r => ind (above (fun u => half_step u - 0) r)).
      rewrite product_all. destruct (forallb _ _); reflexivity.
  - apply (returns_weaken' _ _ _ _ (next_returns [1; 1] 3 1 [] x)). intros r (batch & y & -> & _). eauto.
  - intros p (u & ->). apply (coin_end (fun u => u) half_step [1; 1] 0 0 3 u).
Qed.

Lemma average_iid_const : forall d n c, (exists g v, expect_r d g v) -> average (draw_rs (repeat d n)) (fun _ => c) c.
Proof.
  intros d n c (g & v & H). pose proof (average_scal _ _ _ _ c (average_iid d (fun _ => 1) 1 (expect_r_normal _ _ _ 1 H) n)) as P.
  rewrite pow1, Rmult_1_r in P. refine (average_ext _ _ _ _ _ _ P). intros a. replace (prod1 (fun _ => 1) a) with 1; [ring|].
  induction a as [|x a IH]; [reflexivity|]. unfold prod1 in *. cbn. rewrite <- IH. ring.
Qed.

Lemma three_points : chance (coin_with (frozen (fun u => u)) 3 half_step [1; 1] 0 (mk_ppp 3 [2; 1]%nat 0) tt) fst (3/20).
Proof.
  unfold chance.
  apply (coin_round _ _ _ _ _ _ _ (fun p => 1/2 + pp_ub p ^ 3 / 2) _ (fun p => exists x, 0 < x < 1 /\ p = mk_ppp 3 [1%nat] x)).
  - unfold ppp_next. cbn [pp_sizes pp_n pp_ub hd tl].
    apply (average_r _ _ _ _ (fun x => 1/4 * (1/2 + x ^ 3 / 2))).
    + cbn [expect_r]. exists 1%nat, 1%nat. split; [cbn; ring|]. split; [cbn; ring|].
      replace (3/20) with ((fun x => 6/4 * (x ^ 2 / 4 - x ^ 3 / 6 + x ^ 5 / 10 - x ^ 6 / 12)) 1 - (fun x => 6/4 * (x ^ 2 / 4 - x ^ 3 / 6 + x ^ 5 / 10 - x ^ 6 / 12)) 0) by (cbv beta; field).
      apply (is_RInt_derive (fun x => 6/4 * (x ^ 2 / 4 - x ^ 3 / 6 + x ^ 5 / 10 - x ^ 6 / 12))).
      * intros y _. auto_derive; [exact Logic.I|]. unfold beta_density. cbn. req. field.
      * intros y _. apply (ex_derive_continuous (fun x => beta_density 1 1 x * (1/4 * (1/2 + x ^ 3 / 2)))). unfold beta_density. auto_derive. exact Logic.I.
    + intros x Hx. cbn [rsupport] in Hx. specialize (Hx ltac:(cbn; lra) ltac:(cbn; lra)).
      replace (0 + 1 * x) with x by ring.
      apply (average_bind _ _ _ _ _ (fun _ => 1/4 * (1/2 + x ^ 3 / 2)) (fun u0 => length u0 = 2%nat /\ Forall (fun h => 0 <= h < 1) u0)).
      * apply (average_map _ _ (draw_rs (repeat (DUniform 0 x) 1)) (fun us => np_sort us ++ [x])).
        apply average_iid_const. exists (fun _ => 0), 0. split; [lra|]. apply (is_RInt_const (V := R_NormedModule) 0 x 0).
      * intros o k Ho. cbn. destruct (proj1 Ho k (DUniform 0 x)) as (u & Hu & ->).
        assert (0 <= x * u) by (apply Rmult_le_pos; lra). assert (x * u <= x * 1) by (apply Rmult_le_compat_l; lra).
        split; [reflexivity|]. apply Forall_cons; [lra|apply Forall_cons; [lra|apply Forall_nil]].
      * intros u0 [HL HF].
        apply (average_comp _ (do u <- draw_rows (length u0) (map (DUniform 0) [1]); ret (Some (map (fun p => fst p :: snd p) (combine u0 u), mk_ppp 3 [1%nat] x)))); [intros; rewrite HL; reflexivity|].
        apply (average_map _ _ (draw_rows (length u0) (map (DUniform 0) [1])) (fun u => Some (map (fun p => fst p :: snd p) (combine u0 u), mk_ppp 3 [1%nat] x))).
        assert (HA : Forall (fun h => is_RInt (fun u => ind (negb (Rltb h (half_step u - 0)))) 0 1 (1 * half_pass h)) u0)
          by (apply (Forall_impl _ (fun h Hh => half_above h (proj1 Hh)) HF)).
        pose proof (average_times 1 (fun h u => ind (negb (Rltb h (half_step u - 0)))) half_pass u0 Rlt_0_1 HA) as P.
        apply (average_scal _ _ _ _ (1/2 + x ^ 3 / 2)) in P.
        assert (E : prod1 half_pass u0 = 1/4).
        { destruct u0 as [|a [|b [|? ?]]]; try discriminate. inversion HF as [|? ? Ha HF']; subst. inversion HF' as [|? ? Hb' _]; subst.
          unfold prod1, half_pass. cbn. destruct (Rltb_dec a 1) as [[_ ->]|[Y _]]; [|lra]. destruct (Rltb_dec b 1) as [[_ ->]|[Y _]]; [|lra]. field. }
        rewrite E in P. rewrite Rmult_comm.
        refine (average_ext _ _ _ _ _ _ P). intros u. cbn [pp_ub].
        change (fun r => ind (negb (Rltb (nth 0 r 0) (half_step (nth 1 r 0) - 0)))) with (fun r => ind (above (fun u => half_step u - 0) r)).
        rewrite product_all. destruct (forallb _ _); cbn; ring.
  - apply (returns_weaken' _ _ _ _ (next_returns [1; 1] 3 2 [1%nat] 0)). intros r (batch & y & -> & Hy). cbn [rsupport] in Hy.
    specialize (Hy ltac:(cbn; lra) ltac:(cbn; lra)). cbn [hd]. exists (0 + 1 * y). split; [lra|reflexivity].
  - intros p (x & Hx & ->). apply third_point. exact Hx.
Qed.
Lemma three_iid : chance (draw_rows 3 (map (DUniform 0) [1; 1])) (forallb (above (fun u => half_step u - 0))) (1/8).
Proof.
  unfold chance. apply (average_ext _ _ (product (fun r => ind (above (fun u => half_step u - 0) r)))); [apply product_all|].
  refine (average_eq _ _ _ ((1/2) ^ 3) _ _ _); [cbn; field|]. apply average_rows.
  pose proof (average_row2 1 1 (fun h u => ind (negb (Rltb h (half_step u - 0)))) (fun h => 1 * half_pass h) (1/2) Rlt_0_1 Rlt_0_1
    (fun h Hh => half_above h ltac:(lra)) (half_above 0 ltac:(lra))) as P.
  refine (average_eq _ _ _ _ _ _ (P _)); [field|].
  replace (1/2) with ((1 - 0) * (1/2)) by field.
  refine (is_RInt_ext (fun _ => 1/2) _ _ _ _ _ (is_RInt_const 0 1 (1/2))). rewrite Rmin_left, Rmax_right by lra. intros x Hx.
  unfold half_pass. destruct (Rltb_dec x 1) as [[_ ->]|[Y _]]; [req; field|lra].
Qed.
Lemma batched_law_wrong : exists w disc b T n sizes,
  (forall u, 0 <= disc (w u) <= b) /\ is_RInt (fun u => disc (w u)) 0 T (1/2) /\ sizes = batch_sizes n 2 /\
  forall p q, chance (coin_with (frozen w) (S (length sizes)) disc [b; T] 0 (mk_ppp n sizes 0) tt) fst p ->
    chance (draw_rows n (map (DUniform 0) [b; T])) (forallb (above (fun u => disc (w u) - 0))) q -> p <> q.
Proof.
  exists (fun u => u), half_step, 1, 1, 3%nat, [2; 1]%nat. split; [intros u; unfold half_step; destruct (Rltb u (1/2)); lra|].
  split; [exact half_integral|]. split; [reflexivity|]. intros p q Hp Hq.
  rewrite (average_unique _ _ _ _ _ Hp three_points), (average_unique _ _ _ _ _ Hq three_iid). lra.
Qed.
