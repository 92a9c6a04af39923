(** The loops of MCEM. *)
From Coq Require Import Reals List Bool Arith ZArith Lia Lra Rpower.
From Verif Require Import Base Np Rng Mat M_mjp M_mcem SpecEm L_list L_rng.
Import ListNotations.
Local Open Scope R_scope.

(** ** number of particles *)
Lemma Rpower_ge1 a r : 1 <= a -> 0 <= r -> 1 <= Rpower a r.
Proof. intros Ha Hr. rewrite <- (Rpower_O a) by lra. apply Rle_Rpower; lra. Qed.
Lemma pow_step a r : 1 <= a -> 1 <= r -> Rpower a r + 1 <= Rpower (a + 1) r.
Proof.
  intros Ha Hr. replace r with (1 + (r - 1)) by ring. rewrite !Rpower_plus, !Rpower_1 by lra.
  assert (1 <= Rpower a (r - 1)) by (apply Rpower_ge1; lra).
  assert (Rpower a (r - 1) <= Rpower (a + 1) (r - 1)) by (apply Rle_Rpower_l; lra). nra.
Qed.
Lemma next_strict r n : 1 <= r -> (1 <= n)%nat -> (n < next_particles r n)%nat.
Proof.
  intros Hr Hn. unfold next_particles. set (a := Rpower (INR n) (1 / r)).
  assert (1 <= INR n) by (change 1 with (INR 1); apply le_INR; auto).
  assert (Ha : 1 <= a). { apply Rpower_ge1; auto. unfold Rdiv. rewrite Rmult_1_l. left. apply Rinv_0_lt_compat. lra. }
  assert (Ea : Rpower a r = INR n). { unfold a. rewrite Rpower_mult. replace (1 / r * r) with 1 by (field; lra). apply Rpower_1. lra. }
  pose proof (pow_step a r Ha Hr) as HP. rewrite Ea in HP. set (x := Rpower (a + 1) r) in *.
  pose proof (base_Int_part x) as [B1 B2]. assert (IZR (Z.of_nat n) < IZR (Int_part x)) by (rewrite <- INR_IZR_INZ; lra).
  apply lt_IZR in H0. lia.
Qed.
Lemma next_stuck : next_particles (1 / 2) 1 = 1%nat.
Proof.
  unfold next_particles. replace (Rpower (INR 1) (1 / (1 / 2))) with 1. 2:{ cbn [INR]. unfold Rpower. rewrite ln_1, Rmult_0_r, exp_0. auto. }
  replace (Int_part (Rpower (1 + 1) (1 / 2))) with 1%Z; auto. symmetry. replace (1 / 2) with (/ 2) by lra. replace (1 + 1) with 2 by lra. rewrite Rpower_sqrt by lra.
  assert (1 < sqrt 2 < 2). { split; [rewrite <- sqrt_1; apply sqrt_lt_1; lra|]. rewrite <- (sqrt_square 2) at 2 by lra. apply sqrt_lt_1; lra. }
  destruct (base_Int_part (sqrt 2)) as [B1 B2]. assert (A1 : IZR (Int_part (sqrt 2)) < 2) by lra. assert (A2 : 0 < IZR (Int_part (sqrt 2))) by lra. apply lt_IZR in A1. apply lt_IZR in A2. lia.
Qed.

(** ** particles *)
Lemma bind_ok {A B} (m : M A) (f : A -> M B) o k b : fst (bind m f o k) = Ok b -> exists a k', m o k = (Ok a, k') /\ fst (f a o k') = Ok b.
Proof. unfold bind. destruct (m o k) as [[a|e|] k'] eqn:E; cbn; intros H; try discriminate. exists a, k'. auto. Qed.
Lemma bind_eq {A B} (m : M A) (f : A -> M B) o k a k' : m o k = (Ok a, k') -> bind m f o k = f a o k'.
Proof. intros H. unfold bind. now rewrite H. Qed.
Lemma last_push {A} (xs : list A) a b : last (a :: xs) b = last xs a.
Proof. revert a b; induction xs as [|c xs IH]; intros a b; auto. change (last (c :: xs) b = last (c :: xs) a). now rewrite !IH. Qed.
Section Particles.
Context {P S' : Type} (thin : nat) (upd : P * S' -> M (P * S')).
Definition keep (i : nat) (xs : list (P * S')) : list P := map (fun q => fst (snd q)) (filter (fun q => Nat.eqb (Nat.modulo (fst q) thin) 0) (combine (seq i (length xs)) xs)).
Lemma succ_cons x y xs : may_return (upd x) y -> successive upd y xs -> successive upd x (y :: xs).
Proof. intros H1 H2 [|j] a b Ha Hb; [cbn in Ha, Hb; injection Ha as <-; injection Hb as <-; auto|]. apply (H2 j a b Ha Hb). Qed.
Lemma particles_trace k : forall i x o p l s, fst (particles thin upd k i x o p) = Ok (l, s) ->
  exists xs, length xs = k /\ successive upd x xs /\ l = keep i xs /\ s = snd (last xs x).
Proof.
  induction k as [|k IH]; intros i x o p l s H.
  - cbn in H. injection H as <- <-. exists []. split; auto. split; auto. intros [|j] a b Ha Hb; try discriminate; destruct j; discriminate.
  - cbn [particles] in H. apply bind_ok in H as (x' & k1 & E1 & H). apply bind_ok in H as (r & k2 & E2 & H). cbn in H. injection H as <- <-. destruct r as [l' s'].
    destruct (IH (S i) x' o k1 l' s') as (xs & A & B & C & D); [rewrite E2; auto|]. exists (x' :: xs). split; [cbn; lia|]. split; [apply succ_cons; auto; exists o, p; rewrite E1; auto|].
    cbn [fst snd]. split.
    + unfold keep. cbn [length seq combine filter fst]. destruct (Nat.eqb _ 0); cbn [map snd]; rewrite C; reflexivity.
    + rewrite D. f_equal. symmetry. apply last_push.
Qed.
Lemma keep_none i xs : (forall j, (j < length xs)%nat -> ((i + j) mod thin <> 0)%nat) -> keep i xs = [].
Proof.
  revert i; induction xs as [|x xs IH]; intros i H; auto. unfold keep in *. cbn [length seq combine filter fst].
  destruct (Nat.eqb_spec (i mod thin) 0) as [E|E].
  - exfalso. apply (H 0%nat); [cbn; lia|]. now rewrite Nat.add_0_r.
  - apply IH. intros j Hj. replace (S i + j)%nat with (i + S j)%nat by lia. apply H. cbn. lia.
Qed.
Lemma keep_app i xs ys : keep i (xs ++ ys) = keep i xs ++ keep (i + length xs) ys.
Proof.
  revert i; induction xs as [|x xs IH]; intros i; [cbn [app length]; now rewrite Nat.add_0_r|].
  unfold keep in *. cbn [app length seq combine filter fst]. replace (i + S (length xs))%nat with (S i + length xs)%nat by lia.
  destruct (Nat.eqb _ 0); cbn [map app]; rewrite IH; reflexivity.
Qed.
Lemma keep_nth n : forall c xs, (1 <= thin)%nat -> length xs = (n * thin)%nat -> length (keep (c * thin) xs) = n /\ forall m, nth_error (keep (c * thin) xs) m = option_map fst (nth_error xs (m * thin)).
Proof.
  induction n as [|n IH]; intros c xs Ht Hl.
  - destruct xs; [|discriminate]. split; auto. intros m. unfold keep. cbn [length seq combine filter map]. destruct (m * thin)%nat, m; reflexivity.
  - cbn in Hl. destruct xs as [|x xs]; [cbn in Hl; lia|]. assert (exists th, thin = S th) as (th & ET) by (exists (thin - 1)%nat; lia).
    set (b := firstn th xs). set (ys := skipn th xs). assert (EX : x :: xs = (x :: b) ++ ys) by (cbn; unfold b, ys; now rewrite firstn_skipn).
    assert (Lb : length b = th) by (unfold b; rewrite firstn_length; cbn in Hl; lia). assert (Ly : length ys = (n * thin)%nat) by (unfold ys; rewrite skipn_length; cbn in Hl; lia).
    assert (EK : keep (c * thin) (x :: xs) = fst x :: keep (S c * thin) ys).
    { rewrite EX, keep_app. cbn [length]. rewrite Lb. replace (c * thin + S th)%nat with (S c * thin)%nat by (cbn; lia).
      replace (keep (c * thin) (x :: b)) with [fst x]; auto. change (x :: b) with ([x] ++ b). rewrite keep_app.
      rewrite (keep_none _ b). 2:{ cbn [length]. intros j Hj. rewrite Lb in Hj. rewrite <- Nat.add_assoc, Nat.add_comm, Nat.mod_add by lia. rewrite Nat.mod_small by lia. lia. }
      unfold keep. cbn [length seq combine filter fst]. rewrite Nat.mod_mul by lia. reflexivity. }
    rewrite EK. destruct (IH (S c) ys Ht Ly) as [I1 I2]. split; [cbn [length]; now rewrite I1|]. intros [|m]; [reflexivity|]. cbn [nth_error]. rewrite I2. rewrite EX. cbn [Nat.mul].
    rewrite nth_error_app2 by (cbn [length]; lia). f_equal. f_equal. cbn [length]. lia.
Qed.
(** the states of the chain; every thin-th particle is kept, the other part of the last state is returned *)
Lemma update_trace n x o p l s : (1 <= thin)%nat -> fst (update_particles thin upd n x o p) = Ok (l, s) ->
  exists xs, length xs = (n * thin)%nat /\ successive upd x xs /\ length l = n /\ (forall m, nth_error l m = option_map fst (nth_error xs (m * thin))) /\ s = snd (last xs x).
Proof.
  intros Ht H. apply particles_trace in H as (xs & A & B & -> & D). exists xs. destruct (keep_nth n 0 xs Ht A) as [K1 K2]. auto.
Qed.
Lemma last_kept n (x : P * S') xs (l : list P) : (1 <= thin)%nat -> (1 <= n)%nat -> length xs = (n * thin)%nat -> length l = n -> (forall m, nth_error l m = option_map fst (nth_error xs (m * thin))) ->
  last_opt l = option_map fst (nth_error (x :: xs) ((n - 1) * thin + 1)).
Proof.
  intros Ht Hn Hx Hl H. specialize (H (n - 1)%nat). replace ((n - 1) * thin + 1)%nat with (S ((n - 1) * thin)) by lia. cbn [nth_error]. rewrite <- H.
  clear -Hl Hn. destruct l as [|a l]; [cbn in Hl; lia|]. destruct (exists_last (l := a :: l)) as (q & b & E); [discriminate|]. rewrite E in *. rewrite last_opt_app. rewrite app_length in Hl. cbn in Hl.
  rewrite nth_error_app2 by lia. now replace (n - 1 - length q)%nat with 0%nat by lia.
Qed.
End Particles.

(** ** the loops *)
Definition head_ok (ftol : R) (prev : option R) (objs : list R) (fin : bool) : Prop :=
  match prev, objs with Some a, b :: _ => Rabs (b - a) < ftol <-> fin = true /\ length objs = 1%nat | _, _ => True end.
Definition stops_from (ftol : R) (prev : option R) (objs : list R) (fin : bool) (k : nat) : Prop :=
  head_ok ftol prev objs fin /\
  (forall j a b, nth_error objs j = Some a -> nth_error objs (S j) = Some b -> (Rabs (b - a) < ftol <-> fin = true /\ S (S j) = length objs)) /\
  (fin = true -> ((match prev with None => 2 | Some _ => 1 end) <= length objs <= k)%nat) /\ (fin = false -> length objs = k).
Lemma stops_one ftol prev obj k : converged ftol prev obj = true -> stops_from ftol prev [obj] true (S k).
Proof.
  intros H. destruct prev as [a|]; [|discriminate]. cbn in H. apply Rltb_true in H. split; [|split; [|split]].
  - cbn. split; auto.
  - intros [|j] a' b Ha Hb; [discriminate|destruct j; discriminate].
  - cbn. lia.
  - discriminate.
Qed.
Lemma stops_more ftol prev obj objs fin k : converged ftol prev obj = false -> stops_from ftol (Some obj) objs fin k -> stops_from ftol prev (obj :: objs) fin (S k).
Proof.
  intros HC (H1 & H2 & H3 & H4). assert (NE : fin = true -> objs <> []) by (intros Hf ->; apply H3 in Hf; cbn in Hf; lia). split; [|split; [|split]].
  - destruct prev as [a|]; [|exact I]. cbn in HC. apply Rltb_false in HC. cbn. split; [lra|]. intros [Hf Hl]. exfalso. apply (NE Hf). destruct objs; auto. cbn in Hl. lia.
  - intros [|j] a b Ha Hb.
    + cbn in Ha, Hb. injection Ha as <-. destruct objs as [|o r]; [discriminate|]. cbn in Hb. injection Hb as <-. cbn in H1. rewrite H1. cbn [length]. intuition lia.
    + cbn [nth_error] in Ha. change (nth_error objs (S j) = Some b) in Hb. rewrite (H2 _ _ _ Ha Hb). cbn [length]. intuition lia.
  - intros Hf. specialize (H3 Hf). cbn [length]. destruct prev; lia.
  - intros Hf. cbn [length]. rewrite H4; auto.
Qed.
Lemma stops_nil ftol prev : stops_from ftol prev [] false 0.
Proof. split; [destruct prev; exact I|]. split; [intros [|j]; discriminate|]. split; [discriminate|auto]. Qed.
Lemma stops_weaken ftol objs fin k : stops_from ftol None objs fin k -> stops_first ftol objs fin k.
Proof. intros (_ & A & B & C). exact (conj A (conj B C)). Qed.

Section Ito.
Context {Th Z : Type} (rate ftol : R) (thin : nat) (sample_aug : Th -> M Z) (update_sde : Th -> Z -> M Z) (update_param : Th -> list Z -> M (Th * R)) (init : Th).
Notation obj_of y := (fst (fst y)).
Definition sizes (n : nat) (j : nat) : nat := Nat.iter j (next_particles rate) n.
Lemma iter_shift n j : sizes (next_particles rate n) j = sizes n (S j).
Proof. unfold sizes. induction j; [auto|]. change (next_particles rate (Nat.iter j (next_particles rate) (next_particles rate n)) = next_particles rate (Nat.iter (S j) (next_particles rate) n)). now rewrite IHj. Qed.
Lemma ito_iterate_len thi z n o p r : (1 <= thin)%nat -> fst (ito_iterate_em thin update_sde update_param thi z n o p) = Ok r -> length (snd r) = n.
Proof.
  intros Ht H. unfold ito_iterate_em in H. apply bind_ok in H as (q & k1 & E1 & H). apply bind_ok in H as (w & k2 & E2 & H). cbn in H. injection H as <-. cbn [snd].
  destruct q as [l s]. destruct (update_trace thin (fun x : Z * unit => do z' <- update_sde thi (fst x); ret (z', tt)) n (z, tt) o p l s Ht) as (xs & _ & _ & Hl & _); [rewrite E1; auto|]. exact Hl.
Qed.
Lemma ito_loop k : forall prev n zz o p l fin, (1 <= thin)%nat -> fst (ito_em_loop rate ftol thin update_sde update_param init k prev n zz o p) = Ok (l, fin) ->
  stops_from ftol prev (map (fun y => obj_of y) l) fin k /\ (forall j y, nth_error l j = Some y -> length (snd y) = sizes n j) /\
  (forall j y, nth_error l j = Some y -> exists z, (match j with O => last_opt zz | S i => match nth_error l i with Some y' => last_opt (snd y') | None => None end end) = Some z /\
     may_return (ito_iterate_em thin update_sde update_param init z (sizes n j)) y).
Proof.
  induction k as [|k IH]; intros prev n zz o p l fin Ht H.
  - cbn in H. injection H as <- <-. split; [apply stops_nil|]. split; intros [|j] y Hy; discriminate.
  - cbn [ito_em_loop] in H. apply bind_ok in H as (z & k1 & E1 & H). assert (Ez : last_opt zz = Some z). { destruct (last_opt zz); cbn in E1; [inversion E1; auto|discriminate]. }
    apply bind_ok in H as (r & k2 & E2 & H). assert (HR : fst (ito_iterate_em thin update_sde update_param init z n o k1) = Ok r) by (rewrite E2; auto).
    pose proof (ito_iterate_len _ _ _ _ _ _ Ht HR) as HLr. destruct r as [[obj thi] zz']. cbn [snd] in HLr. destruct (converged ftol prev obj) eqn:EC.
    + cbn in H. injection H as <- <-. split; [apply stops_one; auto|]. split.
      * intros [|[|j]] y Hy; try discriminate. cbn in Hy. injection Hy as <-. auto.
      * intros [|[|j]] y Hy; try discriminate. cbn in Hy. injection Hy as <-. exists z. split; auto. exists o, k1. auto.
    + apply bind_ok in H as (q & k3 & E3 & H). cbn in H. injection H as <- <-. destruct q as [l' f']. cbn [fst snd].
      destruct (IH (Some obj) (next_particles rate n) zz' o k2 l' f' Ht) as (I1 & I2 & I3); [rewrite E3; auto|]. split; [apply stops_more; auto|]. split.
      * intros [|j] y Hy; cbn [nth_error] in Hy; [injection Hy as <-; auto|]. rewrite <- iter_shift. apply I2; auto.
      * intros [|j] y Hy; cbn [nth_error] in Hy.
        { injection Hy as <-. exists z. split; auto. exists o, k1. auto. }
        destruct (I3 j y Hy) as (z' & Z1 & Z2). exists z'. rewrite <- iter_shift. split; auto. cbn [nth_error]. destruct j; auto.
Qed.
End Ito.

Section ItoAll.
Context {Th Z : Type} (rate ftol : R) (thin : nat) (sample_aug : Th -> M Z) (update_sde : Th -> Z -> M Z) (update_param : Th -> list Z -> M (Th * R)).
Lemma ito_all init k o p l fin : (1 <= thin)%nat -> fst (ito_maximize rate ftol thin sample_aug update_sde update_param init k o p) = Ok (l, fin) ->
  stops_first ftol (map (fun y => fst (fst y)) l) fin k /\ (forall j y, nth_error l j = Some y -> length (snd y) = Nat.iter j (next_particles rate) 1%nat) /\
  (forall j y y', nth_error l j = Some y -> nth_error l (S j) = Some y' -> exists z, last_opt (snd y) = Some z /\
  may_return (ito_iterate_em thin update_sde update_param init z (Nat.iter (S j) (next_particles rate) 1%nat)) y').
Proof.
  intros Ht H. unfold ito_maximize in H. apply bind_ok in H as (z & k1 & E1 & H). destruct (ito_loop rate ftol thin update_sde update_param init k _ _ _ _ _ _ _ Ht H) as (A & B & C).
  split; [apply stops_weaken; auto|]. split; [auto|]. intros j y y' Hy Hy'. destruct (C (S j) y' Hy') as (z' & Z1 & Z2). rewrite Hy in Z1. exists z'. auto.
Qed.
End ItoAll.
Lemma sizes_grow rate : 1 <= rate -> forall j, (1 <= Nat.iter j (next_particles rate) 1)%nat /\ (Nat.iter j (next_particles rate) 1 < Nat.iter (S j) (next_particles rate) 1)%nat.
Proof.
  intros Hr. assert (P : forall j, (1 <= Nat.iter j (next_particles rate) 1)%nat).
  { induction j; [cbn; lia|]. change (Nat.iter (S j) (next_particles rate) 1%nat) with (next_particles rate (Nat.iter j (next_particles rate) 1%nat)). pose proof (next_strict rate _ Hr IHj). lia. }
  intros j. split; auto. change (Nat.iter (S j) (next_particles rate) 1%nat) with (next_particles rate (Nat.iter j (next_particles rate) 1%nat)). apply next_strict; auto.
Qed.

Section Switching.
Context {Th P S' : Type} (rate ftol : R) (thin : nat) (update_hidden : Th -> mat -> P * S' -> M (P * S')) (update_param : Th -> list P -> M (Th * R)) (update_generator : list P -> res (mat * R)).
Notation yield := (R * Th * mat * list P * S')%type.
Lemma sw_iterate_len thi lam x n o p r : (1 <= thin)%nat -> fst (sw_iterate_em thin update_hidden update_param update_generator thi lam x n o p) = Ok r -> length (y_pp r) = n.
Proof.
  intros Ht H. unfold sw_iterate_em in H. apply bind_ok in H as (q & k1 & E1 & H). apply bind_ok in H as (w & k2 & E2 & H). apply bind_ok in H as (g & k3 & E3 & H). cbn in H. injection H as <-. unfold y_pp. cbn [fst snd].
  destruct q as [l s]. destruct (update_trace thin (update_hidden thi lam) n x o p l s Ht) as (xs & _ & _ & Hl & _); [rewrite E1; auto|]. exact Hl.
Qed.
Lemma sw_loop k : forall prev n thi lam pp sp o p l fin, (1 <= thin)%nat -> fst (sw_em_loop rate ftol thin update_hidden update_param update_generator k prev n thi lam pp sp o p) = Ok (l, fin) ->
  stops_from ftol prev (map y_obj l) fin k /\ (forall j y, nth_error l j = Some y -> length (y_pp y) = sizes rate n j) /\
  (forall j y, nth_error l j = Some y -> exists q thi0 lam0 sp0,
     (match j with O => Some (last_opt pp, thi, lam, sp) | S i => option_map (fun y' => (last_opt (y_pp y'), y_thi y', y_lam y', y_sp y')) (nth_error l i) end) = Some (Some q, thi0, lam0, sp0) /\
  may_return (sw_iterate_em thin update_hidden update_param update_generator thi0 lam0 (q, sp0) (sizes rate n j)) y).
Proof.
  induction k as [|k IH]; intros prev n thi lam pp sp o p l fin Ht H.
  - cbn in H. injection H as <- <-. split; [apply stops_nil|]. split; intros [|j] y Hy; discriminate.
  - cbn [sw_em_loop] in H. apply bind_ok in H as (z & k1 & E1 & H). assert (Ez : last_opt pp = Some z). { destruct (last_opt pp); cbn in E1; [inversion E1; auto|discriminate]. }
    apply bind_ok in H as (r & k2 & E2 & H). assert (HR : fst (sw_iterate_em thin update_hidden update_param update_generator thi lam (z, sp) n o k1) = Ok r) by (rewrite E2; auto).
    pose proof (sw_iterate_len _ _ _ _ _ _ _ Ht HR) as HLr. destruct r as [[[[obj thi'] lam'] pp'] sp']. unfold y_pp in HLr. cbn [fst snd] in HLr. destruct (converged ftol prev obj) eqn:EC.
    + cbn in H. injection H as <- <-. split; [apply stops_one; auto|]. split.
      * intros [|[|j]] y Hy; try discriminate. cbn in Hy. injection Hy as <-. auto.
      * intros [|[|j]] y Hy; try discriminate. cbn in Hy. injection Hy as <-. exists z, thi, lam, sp. rewrite Ez. split; auto. exists o, k1. auto.
    + apply bind_ok in H as (q & k3 & E3 & H). cbn in H. injection H as <- <-. destruct q as [l' f']. cbn [fst snd].
      destruct (IH (Some obj) (next_particles rate n) thi' lam' pp' sp' o k2 l' f' Ht) as (I1 & I2 & I3); [rewrite E3; auto|]. split; [cbn [map]; unfold y_obj at 1; cbn [fst]; apply stops_more; auto|]. split.
      * intros [|j] y Hy; cbn [nth_error] in Hy; [injection Hy as <-; auto|]. rewrite <- iter_shift. apply I2; auto.
      * intros [|j] y Hy; cbn [nth_error] in Hy.
        { injection Hy as <-. exists z, thi, lam, sp. rewrite Ez. split; auto. exists o, k1. auto. }
        destruct (I3 j y Hy) as (z' & t0 & l0 & s0 & Z1 & Z2). exists z', t0, l0, s0. rewrite <- iter_shift. split; auto. cbn [nth_error]. destruct j; auto.
Qed.
Lemma sw_all k thi lam pp sp o p l fin : (1 <= thin)%nat -> fst (sw_em_loop rate ftol thin update_hidden update_param update_generator k None 1 thi lam pp sp o p) = Ok (l, fin) ->
  stops_first ftol (map y_obj l) fin k /\ (forall j y, nth_error l j = Some y -> length (y_pp y) = Nat.iter j (next_particles rate) 1%nat) /\
  (forall j y y', nth_error l j = Some y -> nth_error l (S j) = Some y' -> exists q, last_opt (y_pp y) = Some q /\
  may_return (sw_iterate_em thin update_hidden update_param update_generator (y_thi y) (y_lam y) (q, y_sp y) (Nat.iter (S j) (next_particles rate) 1%nat)) y').
Proof.
  intros Ht H. destruct (sw_loop _ _ _ _ _ _ _ _ _ _ _ Ht H) as (A & B & C). split; [apply stops_weaken; auto|]. split; [auto|].
  intros j y y' Hy Hy'. destruct (C (S j) y' Hy') as (q & t0 & l0 & s0 & Z1 & Z2). rewrite Hy in Z1. cbn [option_map] in Z1. injection Z1 as Zq Zt Zl Zs. subst t0 l0 s0. exists q. auto.
Qed.
(** what an iteration starts from and hands on *)
Lemma sw_iterate_states thi lam x n o p y : (1 <= thin)%nat -> fst (sw_iterate_em thin update_hidden update_param update_generator thi lam x n o p) = Ok y ->
  exists xs, length xs = (n * thin)%nat /\ successive (update_hidden thi lam) x xs /\ (forall m, nth_error (y_pp y) m = option_map fst (nth_error xs (m * thin))) /\ y_sp y = snd (last xs x) /\
  ((1 <= n)%nat -> last_opt (y_pp y) = option_map fst (nth_error (x :: xs) ((n - 1) * thin + 1))).
Proof.
  intros Ht H. unfold sw_iterate_em in H. apply bind_ok in H as (q & k1 & E1 & H). apply bind_ok in H as (w & k2 & E2 & H). apply bind_ok in H as (g & k3 & E3 & H). cbn in H. injection H as <-. unfold y_pp, y_sp. cbn [fst snd].
  destruct q as [l s]. destruct (update_trace thin (update_hidden thi lam) n x o p l s Ht) as (xs & A & B & C & D & E); [rewrite E1; auto|]. exists xs. cbn [fst snd]. repeat split; auto.
  intros Hn. eapply last_kept; eauto.
Qed.
End Switching.

(** ** restart of ito.maximize_posterior *)
Lemma ito_restart : exists (thin : nat) (aug : R -> M nat) (upd : R -> nat -> M nat) (par : R -> list nat -> M (R * R)) o l fin y y',
  fst (ito_maximize (3 / 2) 0 thin aug upd par 0 2 o 0%nat) = Ok (l, fin) /\ nth_error l 0 = Some y /\ nth_error l 1 = Some y' /\ snd (fst y) <> 0 /\
  forall z n, ~ may_return (ito_iterate_em thin upd par (snd (fst y)) z n) y'.
Proof.
  exists 1%nat, (fun _ => ret 0%nat), (fun _ z => ret z), (fun th _ => ret (th + 1, th)).
  assert (N : next_particles (3 / 2) 1 = S (S (next_particles (3 / 2) 1 - 2))). { pose proof (next_strict (3/2) 1 ltac:(lra) ltac:(lia)). lia. }
  assert (UP : forall n z o p, exists zz, update_particles 1 (fun x : nat * unit => do z' <- ret (fst x); ret (z', tt)) n (z, tt) o p = (Ok (zz, tt), p) /\ length zz = n /\ Forall (eq z) zz).
  { intros n z o p. unfold update_particles. rewrite Nat.mul_1_r. set (f := fun x : nat * unit => do z' <- ret (fst x); ret (z', tt)).
    enough (X : forall n i, exists zz, particles 1 f n i (z, tt) o p = (Ok (zz, tt), p) /\ length zz = n /\ Forall (eq z) zz) by apply X.
    clear n. induction n as [|n IH]; intros i; [exists []; cbn; auto|].
    destruct (IH (S i)) as (zz & E & Hl & Hf). exists (z :: zz). cbn [particles]. unfold bind at 1. change (f (z, tt) o p) with (Ok (z, tt), p). unfold bind at 1. rewrite E. cbn. auto. }
  assert (IT : forall th n z o p, exists zz, ito_iterate_em 1 (fun (_ : R) z => ret z) (fun th (_ : list nat) => ret (th + 1, th)) th z n o p = (Ok (th, th + 1, zz), p) /\ length zz = n /\ Forall (eq z) zz).
  { intros th n z o p. destruct (UP n z o p) as (zz & E & Hl & Hf). exists zz. unfold ito_iterate_em, bind at 1. rewrite E. cbn. auto. }
  set (o := {| ora_r := fun _ _ => 0; ora_n := fun _ _ => 0%nat |}).
  destruct (IT 0 1%nat 0%nat o 0%nat) as (z1 & E1 & L1 & F1). destruct z1 as [|a [|]]; try discriminate. inversion F1; subst.
  destruct (IT 0 (next_particles (3 / 2) 1) 0%nat o 0%nat) as (z2 & E2 & L2 & F2). destruct (last_opt z2) as [b|] eqn:EB.
  2:{ exfalso. destruct z2 as [|c z2]; [cbn in L2; lia|]. destruct (exists_last (l := c :: z2)) as (q & b & E); [discriminate|]. rewrite E, last_opt_app in EB. discriminate. }
  exists o, [(0, 0 + 1, [0%nat]); (0, 0 + 1, z2)], false, (0, 0 + 1, [0%nat]), (0, 0 + 1, z2). split; [|split; [reflexivity|split; [reflexivity|split; [cbn; lra|]]]].
  - set (I0 := ito_iterate_em 1 (fun (_ : R) (z : nat) => ret z) (fun th (_ : list nat) => ret (th + 1, th))) in *.
    unfold ito_maximize. rewrite (bind_eq (ret 0%nat) _ _ _ 0%nat 0%nat eq_refl). cbn [ito_em_loop]. fold I0. rewrite (bind_eq (lift_opt IndexError (last_opt [0%nat])) _ _ _ 0%nat 0%nat eq_refl).
    rewrite (bind_eq _ _ _ _ _ _ E1). cbn [converged]. rewrite (bind_eq _ _ o 0%nat ([(0, 0 + 1, z2)], false) 0%nat); [reflexivity|].
    rewrite (bind_eq (lift_opt IndexError (last_opt [0%nat])) _ _ _ 0%nat 0%nat eq_refl). rewrite (bind_eq _ _ _ _ _ _ E2).
    unfold converged. replace (Rltb (Rabs (0 - 0)) 0) with false; [reflexivity|symmetry; rewrite Rminus_0_r, Rabs_R0; unfold Rltb; destruct (Rlt_dec 0 0); [lra|reflexivity]].
  - intros z n (o' & k' & H). cbn [fst snd] in H. destruct (IT (0 + 1) n z o' k') as (zz & E & _). rewrite E in H. cbn in H. inversion H. lra.
Qed.

(** one iteration: the particles are those of C61_particles, and both M-steps use all of them *)
Lemma sw_step : forall {Th P S'} (thin : nat) (update_hidden : Th -> mat -> P * S' -> M (P * S')) (update_param : Th -> list P -> M (Th * R)) (update_generator : list P -> res (mat * R)) thi lam x n y,
  may_return (sw_iterate_em thin update_hidden update_param update_generator thi lam x n) y ->
  exists v w, may_return (update_particles thin (update_hidden thi lam) n x) (y_pp y, snd y) /\
    may_return (update_param thi (y_pp y)) (y_thi y, v) /\ update_generator (y_pp y) = Ok (y_lam y, w) /\ y_obj y = v + w.
Proof.
  intros Th P S' thin uh up ug thi lam x n y (o & k & E). unfold sw_iterate_em in E. unfold bind at 1 in E.
  destruct (update_particles thin (uh thi lam) n x o k) as [[r|e|] k1] eqn:E1; try discriminate. unfold bind at 1 in E.
  destruct (up thi (fst r) o k1) as [[p|e|] k2] eqn:E2; try discriminate. unfold bind, lift in E. destruct (ug (fst r)) as [g|e|] eqn:E3; try discriminate.
  cbn in E. injection E as <-. unfold y_pp, y_thi, y_lam, y_obj. cbn [fst snd]. exists (snd p), (snd g). split; [exists o, k; rewrite E1; destruct r; reflexivity|].
  split; [exists o, k1; rewrite E2; destruct p; reflexivity|]. split; [rewrite E3; destruct g; reflexivity|reflexivity].
Qed.
Lemma ito_step_em : forall {Th Z} (thin : nat) (update_sde : Th -> Z -> M Z) (update_param : Th -> list Z -> M (Th * R)) thi z n y,
  may_return (ito_iterate_em thin update_sde update_param thi z n) y ->
  may_return (update_particles thin (fun x : Z * unit => do z' <- update_sde thi (fst x); ret (z', tt)) n (z, tt)) (snd y, tt) /\
  may_return (update_param thi (snd y)) (snd (fst y), fst (fst y)).
Proof.
  intros Th Z thin us up thi z n y (o & k & E). unfold ito_iterate_em in E. unfold bind at 1 in E.
  destruct (update_particles thin (fun x : Z * unit => do z' <- us thi (fst x); ret (z', tt)) n (z, tt) o k) as [[r|e|] k1] eqn:E1; try discriminate. unfold bind in E.
  destruct (up thi (fst r) o k1) as [[p|e|] k2] eqn:E2; try discriminate. cbn in E. injection E as <-. cbn [fst snd].
  split; [exists o, k; rewrite E1; destruct r as [? []]; reflexivity|exists o, k1; rewrite E2; destruct p; reflexivity].
Qed.
