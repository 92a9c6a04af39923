(** The law of the bridge given its number of transitions, and of that number. *)
From Coquelicot Require Import Hierarchy RInt RInt_analysis.
From Coq Require Import Reals List Bool Arith Lia Lra Sorted Permutation.
From Verif Require Import Base Np Rng L_rng M_mjp SpecMjp SpecLin SpecLaw SpecFdd L_list L_path L_law L_law2 L_law4 L_law5 L_bridge L_unif L_bridge2 L_fdd1 L_fdd2 L_lindemo L_mat Mat.
Import ListNotations.
Local Open Scope R_scope.

(** ** reading a path *)
Lemma seen_late : forall J i u, (forall p, In p J -> u < fst p) -> seen i J u = i.
Proof. intros [|[t x] J] i u H; [reflexivity|]. cbn [seen]. destruct (Rle_dec t u) as [E|E]; [|reflexivity]. pose proof (H (t, x) (or_introl eq_refl)). cbn in *. lra. Qed.
Lemma seen_dv : forall J i u, StronglySorted Rle (map fst J) -> seen i (dv i J) u = seen i J u.
Proof.
  induction J as [|[t x] J IH]; intros i u HS; [reflexivity|]. cbn [map fst] in HS. inversion HS as [|? ? HS' F]; subst.
  cbn [dv]. destruct (Nat.eqb_spec x i) as [E|E].
  - subst x. rewrite IH by exact HS'. cbn [seen]. destruct (Rle_dec t u) as [L|L]; [reflexivity|].
    apply seen_late. intros [b y] Hb. rewrite Forall_forall in F. specialize (F b (in_map fst _ _ Hb)). cbn. lra.
  - cbn [seen]. destruct (Rle_dec t u) as [L|L]; [apply IH; exact HS'|reflexivity].
Qed.
Definition upto (u : R) (us : list R) : nat := length (filter (fun x => Rleb x u) us).
Lemma seen_nth : forall ts xs i u, length xs = length ts -> StronglySorted Rle ts ->
  seen i (combine ts xs) u = nth (upto u ts) (i :: xs) 0%nat.
Proof.
  induction ts as [|t ts IH]; intros xs i u HL HS; destruct xs as [|x xs]; try discriminate; [reflexivity|].
  inversion HS as [|? ? HS' F]; subst. cbn [combine seen]. unfold upto. cbn [filter].
  destruct (Rle_dec t u) as [L|L].
  - assert (E : Rleb t u = true) by (apply Rleb_true; exact L). rewrite E. cbn [length nth]. rewrite IH; [reflexivity|cbn in HL; lia|exact HS'].
  - assert (E : Rleb t u = false) by (apply Rleb_false; lra). rewrite E.
    assert (Z : filter (fun x0 => Rleb x0 u) ts = []).
    { clear -F L. induction F as [|a l Ha F IH]; [reflexivity|]. cbn. assert (E : Rleb a u = false) by (apply Rleb_false; lra). rewrite E. exact IH. }
    rewrite Z. reflexivity.
Qed.
Lemma upto_perm : forall u a b, Permutation a b -> upto u a = upto u b.
Proof.
  intros u a b H. unfold upto. induction H; cbn [filter]; [reflexivity| | |congruence].
  - destruct (Rleb x u); cbn; congruence.
  - destruct (Rleb x u), (Rleb y u); cbn; congruence.
Qed.
Lemma upto_le : forall u us, (upto u us <= length us)%nat.
Proof. intros u us. unfold upto. induction us as [|a us IH]; cbn; [lia|]. destruct (Rleb a u); cbn; lia. Qed.
Lemma upto_more : forall us lo u, lo <= u -> (upto lo us + length (filter (fun x => Rleb x u) (filter (fun x => negb (Rleb x lo)) us)) = upto u us)%nat.
Proof.
  intros us lo u H. unfold upto. induction us as [|a us IH]; cbn [filter]; [reflexivity|].
  destruct (Rleb_dec a lo) as [[L ->]|[L ->]]; destruct (Rleb_dec a u) as [[L2 E]|[L2 E]]; rewrite E; cbn [negb filter length]; try rewrite E; cbn [length]; try lia; lra.
Qed.
Lemma filter_more : forall us lo u, lo <= u -> filter (fun x => negb (Rleb x u)) (filter (fun x => negb (Rleb x lo)) us) = filter (fun x => negb (Rleb x u)) us.
Proof.
  intros us lo u H. induction us as [|a us IH]; cbn [filter]; [reflexivity|].
  destruct (Rleb_dec a lo) as [[L ->]|[L ->]]; destruct (Rleb_dec a u) as [[L2 E]|[L2 E]]; rewrite ?E; cbn [negb filter length]; rewrite ?E; cbn [negb]; rewrite ?IH; try reflexivity; lra.
Qed.
Lemma nth_hd_skipn : forall (x : list nat) k, nth k x 0%nat = hd 0%nat (skipn k x).
Proof. induction x as [|a x IH]; intros [|k]; try reflexivity. apply IH. Qed.
Lemma hits_cells : forall (obs : list (R * nat)) lo us x, 
  (length us < length x)%nat -> (exists hi, in_order lo obs hi) ->
  hits (skipn (upto lo us) x) (combine (cells (map fst obs) (filter (fun x => negb (Rleb x lo)) us)) (map snd obs))
  = forallb (fun p => Nat.eqb (nth (upto (fst p) us) x 0%nat) (snd p)) obs.
Proof.
  intros obs lo us x HL. revert lo. induction obs as [|[u y] r IH]; intros lo [hi HO]; cbn [map fst snd cells combine forallb hits]; [reflexivity|].
  cbn [in_order] in HO. destruct HO as [H1 H2]. rewrite filter_more by exact H1.
  set (c := length (filter _ _)). assert (Ec : (upto lo us + c = upto u us)%nat) by (apply upto_more; exact H1).
  assert (Es : skipn c (skipn (upto lo us) x) = skipn (upto u us) x).
  { rewrite <- Ec. rewrite Nat.add_comm. clear. generalize (upto lo us) as k. intros k. revert x. induction k as [|k IH]; intros x; [rewrite Nat.add_0_r; reflexivity|].
    rewrite Nat.add_succ_r. destruct x as [|a x]; [destruct c; reflexivity|]. cbn [skipn]. apply IH. }
  rewrite Es, (IH u (ex_intro _ hi H2)). pose proof (upto_le u us).
  destruct (skipn (upto u us) x) as [|a l] eqn:E.
  - assert (Z : length (skipn (upto u us) x) = 0%nat) by (rewrite E; reflexivity). rewrite skipn_length in Z. lia.
  - rewrite (nth_hd_skipn x (upto u us)), E. reflexivity.
Qed.

Lemma upto_none : forall us lo, Forall (fun u => lo < u) us -> upto lo us = 0%nat /\ filter (fun x => negb (Rleb x lo)) us = us.
Proof.
  intros us lo H. unfold upto. induction H as [|a l Ha H [I1 I2]]; [split; reflexivity|]. cbn [filter]. assert (E : Rleb a lo = false) by (apply Rleb_false; exact Ha).
  rewrite E. cbn [negb]. rewrite I2. split; [exact I1|reflexivity].
Qed.
Lemma in_order_weaken : forall obs lo lo' hi, lo' <= lo -> in_order lo obs hi -> in_order lo' obs hi.
Proof. intros [|[u y] r] lo lo' hi H; cbn; [lra|]. intros [H1 H2]. split; [lra|exact H2]. Qed.

Lemma average_rsum : forall A (m : M A) n (g : nat -> A -> R) (v : nat -> R),
  (forall k, (k < S n)%nat -> average m (g k) (v k)) -> average m (fun a => rsum (S n) (fun k => g k a)) (rsum (S n) v).
Proof.
  intros A m n g v. induction n as [|n IH]; intros H.
  - cbn [rsum]. refine (average_ext _ _ _ _ _ _ (average_eq _ _ _ _ _ _ (H 0%nat Nat.lt_0_1))); [intros a; ring|ring].
  - change (rsum (S (S n)) v) with (rsum (S n) v + v (S n)).
    exact (average_plus _ _ _ _ _ _ (IH (fun k Hk => H k (Nat.lt_lt_succ_r _ _ Hk))) (H (S n) (Nat.lt_succ_diag_r _))).
Qed.
Lemma cellsum_average : forall T A (m : M A) thr lo (Phi : A -> list nat -> R) Psi n,
  (forall cs, (fold_right Nat.add 0 cs <= n)%nat -> length cs = length thr -> average m (fun a => Phi a cs) (Psi cs)) ->
  average m (fun a => cellsum T lo thr (Phi a) n) (cellsum T lo thr Psi n).
Proof.
  intros T A m. induction thr as [|u r IH]; intros lo Phi Psi n H; cbn [cellsum].
  - apply average_scal. apply H; [cbn; lia|reflexivity].
  - apply (average_rsum A m n (fun k a => ((u - lo) / T) ^ k / INR (fact k) * cellsum T u r (fun cs => Phi a (k :: cs)) (n - k)) (fun k => ((u - lo) / T) ^ k / INR (fact k) * cellsum T u r (fun cs => Psi (k :: cs)) (n - k))).
    intros k Hk. apply average_scal. apply (IH u (fun a cs => Phi a (k :: cs))). intros cs Hs Hl. apply H; cbn; lia.
Qed.

Lemma forallb_ext' : forall A (f g : A -> bool) l, (forall a, f a = g a) -> forallb f l = forallb g l.
Proof. intros A f g l H. induction l as [|a l IH]; cbn; [reflexivity|]. rewrite H, IH. reflexivity. Qed.

Section Bridge.
  Variables (L : linalg) (dim : nat) (gen : mat) (T : R).
  Hypothesis Hgen : generator dim gen.
  Hypothesis Hrb : 0 < rate_bound dim gen.
  Hypothesis HT : 0 < T.
  Hypothesis HL : expm_exact L.
  Notation P := (dtrans dim gen).
  Notation Q := (mpow dim (dtrans dim gen)).
  Notation lam := (rate_bound dim gen * T).
  Notation C := (get_trans L dim T gen).

  Lemma in_order_climbs : forall obs lo, in_order lo obs T -> climbs T lo (map fst obs).
  Proof. induction obs as [|[u y] r IH]; intros lo H; cbn in *; [exact H|]. destruct H as [H1 H2]. split; [exact H1|apply IH; exact H2]. Qed.

  Definition seq_obs (obs : list (R * nat)) (cs : list nat) : list (nat * nat) := combine cs (map snd obs).

  Lemma path_visits : forall obs i f mid us, (i < dim)%nat -> (f < dim)%nat -> Forall (fun j => (j < dim)%nat) mid ->
    length us = S (length mid) -> Forall (fun u => 0 <= u < T) us -> in_order 0 obs T ->
    forall s, s = mk_skel (map fst (devirt (combine (0 :: np_sort us) (i :: mid ++ [f])))) (map snd (devirt (combine (0 :: np_sort us) (i :: mid ++ [f])))) T ->
    visits obs s = hits (i :: mid ++ [f]) (seq_obs obs (cells (map fst obs) us)).
  Proof.
    intros obs i f mid us Hi Hf Hm HLn HU HO s ->. unfold visits. cbn [sk_t sk_x].
    rewrite combine_fst_snd. cbn [combine devirt].
    assert (Hlo : Forall (fun u => -1 < u) us) by (eapply Forall_impl; [|exact HU]; intros; cbn in *; lra).
    destruct (upto_none us (-1) Hlo) as [U1 U2].
    pose proof (hits_cells obs (-1) us (i :: mid ++ [f])) as HC. rewrite U1, U2 in HC. cbn [skipn] in HC.
    unfold seq_obs. rewrite HC.
    - apply forallb_ext'. intros p. rewrite seen_dv.
      2:{ rewrite map_combine_fst; [apply np_sort_sorted|]. rewrite (Permutation_length (np_sort_perm us)), app_length. cbn. lia. }
      rewrite seen_nth; [|rewrite (Permutation_length (np_sort_perm us)), app_length; cbn; lia|apply np_sort_sorted].
      rewrite (upto_perm _ _ _ (np_sort_perm us)). reflexivity.
    - cbn [length]. rewrite app_length. cbn. lia.
    - exists T. apply (in_order_weaken obs 0); [lra|exact HO].
  Qed.

  (** the mean over the chain and the times, given n transitions *)
  Definition given (i f : nat) (obs : list (R * nat)) (n : nat) : R :=
    INR (fact n) * cellsum T 0 (map fst obs) (fun cs => weight dim gen f n i (seq_obs obs cs)) n.
  Definition in_range (obs : list (R * nat)) : Prop := Forall (fun p => (snd p < dim)%nat) obs.
  Lemma range_obs : forall obs cs, in_range obs -> Forall (fun p => (snd p < dim)%nat) (seq_obs obs cs).
  Proof.
    intros obs cs H. unfold seq_obs. unfold in_range in H. rewrite Forall_forall in *. intros [c y] Hp. cbn. apply in_combine_r in Hp.
    apply in_map_iff in Hp as (p & <- & Hp). apply H. exact Hp.
  Qed.

  Lemma rest_law : forall n i f obs, (1 <= n)%nat -> (i < dim)%nat -> (f < dim)%nat -> 0 < Q n i f -> in_order 0 obs T -> in_range obs ->
    chance (bridge_rest dim gen T n i f) (visits obs) (given i f obs n / Q n i f).
  Proof.
    intros n i f obs Hn Hi Hf HQ HO HR. unfold bridge_rest. destruct n as [|m]; [lia|]. cbn [Nat.sub]. rewrite Nat.sub_0_r.
    apply (average_bind _ _ _ _ _ (fun mid => INR (fact (S m)) * cellsum T 0 (map fst obs) (fun cs => ind (hits (i :: mid ++ [f]) (seq_obs obs cs))) (S m))
      (fun mid => length mid = m /\ Forall (fun j => (j < dim)%nat) mid)).
    - refine (average_eq _ _ _ _ _ _ (average_scal _ _ _ _ (INR (fact (S m))) (cellsum_average T _ _ (map fst obs) 0 (fun mid cs => ind (hits (i :: mid ++ [f]) (seq_obs obs cs))) (fun cs => / Q (S m) i f * weight dim gen f (S m) i (seq_obs obs cs)) (S m) _))).
      + rewrite cellsum_scal. unfold given. field. lra.
      + intros cs _ _. refine (average_eq _ _ _ _ _ _ (states_law dim gen f Hgen Hrb Hf m (S m) i (seq_obs obs cs) (le_n _) Hi HQ (range_obs obs cs HR))).
        field. lra.
    - apply returns_any. apply (bridge_states_returns dim gen).
    - intros mid [H1 H2].
      apply (average_bind _ _ _ _ _ (fun us => ind (hits (i :: mid ++ [f]) (seq_obs obs (cells (map fst obs) us)))) (fun us => length us = S m /\ Forall (fun u => 0 <= u < T) us)).
      + apply (cells_law T HT (S m) (map fst obs) (fun cs => ind (hits (i :: mid ++ [f]) (seq_obs obs cs)))). apply in_order_climbs. exact HO.
      + apply returns_any. apply total_returns. apply draw_uniforms. exact HT.
      + intros us [U1 U2].
        destruct (virtual_path dim T HT i f us mid Hi Hf H2 ltac:(lia) U2) as (M1 & M2 & _). rewrite M1, M2.
        rewrite <- (path_visits obs i f mid us Hi Hf H2 ltac:(lia) U2 HO _ eq_refl).
        apply (mean_done (value (fun a => ind (visits obs a))) _ (Ok (mk_skel (map fst (devirt (combine (0 :: np_sort us) (i :: mid ++ [f])))) (map snd (devirt (combine (0 :: np_sort us) (i :: mid ++ [f])))) T))).
        intros o k _. reflexivity.
  Qed.

  (** a single entry *)
  Lemma const_law : forall n i f obs, (n = 0 \/ n = 1 /\ i = f)%nat -> (i < dim)%nat -> (f < dim)%nat -> 0 < Q n i f -> in_order 0 obs T -> in_range obs ->
    ind (visits obs (mk_skel [0] [i] T)) = given i f obs n / Q n i f.
  Proof.
    intros n i f obs Hn Hi Hf HQ HO HR.
    assert (EV : visits obs (mk_skel [0] [i] T) = forallb (fun p => Nat.eqb i (snd p)) obs).
    { unfold visits. cbn. reflexivity. }
    assert (EC : forall cs, length cs = length (map fst obs) -> forallb (fun p => Nat.eqb i (snd p)) (seq_obs obs cs) = forallb (fun p => Nat.eqb i (snd p)) obs).
    { intros cs Hl. unfold seq_obs. rewrite map_length in Hl. revert cs Hl. clear. induction obs as [|[u y] r IH]; intros [|c cs] Hl; try discriminate; [reflexivity|].
      cbn [map snd combine forallb]. rewrite IH; [reflexivity|cbn in Hl; lia]. }
    rewrite EV. unfold given.
    assert (EW : forall cs, (fold_right Nat.add 0 cs <= n)%nat -> length cs = length (map fst obs) -> weight dim gen f n i (seq_obs obs cs) = Q n i f * ind (forallb (fun p => Nat.eqb i (snd p)) obs)).
    { intros cs Hs Hl. rewrite <- (EC cs Hl).
      assert (HF0 : Forall (fun p => (snd p < dim)%nat) (seq_obs obs cs)) by (apply range_obs; exact HR).
      assert (HS0 : fold_right (fun p k => (fst p + k)%nat) 0%nat (seq_obs obs cs) = fold_right Nat.add 0%nat cs).
      { unfold seq_obs. rewrite map_length in Hl. clear -Hl. revert obs Hl. induction cs as [|c cs IH]; intros [|p obs] Hl; try discriminate; [reflexivity|].
        cbn [map combine fold_right fst]. rewrite IH; [reflexivity|cbn in Hl; lia]. }
      destruct Hn as [-> |[-> <-]].
      - assert (Eif : i = f). { destruct (Nat.eq_dec i f) as [E|E]; [exact E|]. cbn [mpow] in HQ. rewrite mident_diff in HQ by exact E. lra. }
        rewrite weight_end, <- Eif, Nat.eqb_refl. cbn [mpow]. rewrite mident_same, Rmult_1_l. f_equal.
        apply hits_const; [apply Forall_cons; [reflexivity|apply Forall_nil]|]. rewrite HS0. cbn. lia.
      - pose proof (states_law dim gen i Hgen Hrb Hi 0 1 i (seq_obs obs cs) (le_n _) Hi HQ HF0) as SL. cbn [bridge_states] in SL.
        pose proof (average_unique _ _ _ _ _ SL (average_ret _ [] _)) as U. cbn beta in U. cbn [app] in U.
        rewrite (hits_const _ [i; i] i) in U; [|apply Forall_cons; [reflexivity|apply Forall_cons; [reflexivity|apply Forall_nil]]|rewrite HS0; cbn; lia].
        rewrite <- U. field. lra. }
    rewrite (cellsum_ext T _ _ _ (fun _ => Q n i f * ind (forallb (fun p => Nat.eqb i (snd p)) obs)) n EW).
    rewrite cellsum_const by exact HT. replace ((T - 0) / T) with 1 by (field; lra). rewrite pow1. field. split; [apply INR_fact_neq_0|lra].
  Qed.
End Bridge.
