(** Cutting and pasting anchorages: structure of break_r, split_hidden and paste_hidden. *)
From Coq Require Import Reals List Bool Arith ZArith Lia Lra.
From Verif Require Import Base Np M_mjp M_skel M_sw L_list L_adapt2.
Import ListNotations.
Local Open Scope R_scope.

(** ** blocks of a list, ended by marked elements *)
Section Blocks.
Context {A : Type}.
Definition flat (segs : list (list A * A)) : list A := concat (map (fun s => fst s ++ [snd s]) segs).
Lemma flat_cons B m r : flat ((B, m) :: r) = B ++ m :: flat r.
Proof. unfold flat. simpl. rewrite <- app_assoc. reflexivity. Qed.
Fixpoint idx (i : nat) (segs : list (list A * A)) : list nat :=
  match segs with [] => [] | s :: r => (i + length (fst s) + 1)%nat :: idx (i + length (fst s) + 1) r end.
Fixpoint parts (e : A) (segs : list (list A * A)) : list (list A) :=
  match segs with [] => [] | s :: r => (e :: fst s ++ [snd s]) :: parts (snd s) r end.
Definition marked (P : A -> bool) (segs : list (list A * A)) : Prop :=
  (forall s a, In s segs -> In a (fst s) -> P a = false) /\ (forall s, In s (removelast segs) -> P (snd s) = true).
Lemma marked_tl P s r : r <> [] -> marked P (s :: r) -> marked P r /\ P (snd s) = true /\ (forall a, In a (fst s) -> P a = false).
Proof.
  intros Hr [H1 H2]. repeat split.
  - intros; apply (H1 s0); auto. right; auto.
  - intros; apply H2. simpl. destruct r; [congruence|]. right; auto.
  - apply H2. simpl. destruct r; [congruence|]. left; auto.
  - intros; apply (H1 s); auto. left; auto.
Qed.
Lemma blocks_exist (P : A -> bool) (l : list A) : l <> [] -> exists segs, segs <> [] /\ l = flat segs /\ marked P segs.
Proof.
  induction l as [|a l IH]; [congruence|]. intros _. destruct l as [|b l].
  { exists [([], a)]. split; [discriminate|]. split; [reflexivity|]. split; [intros s c [<-|[]] []|intros s []]. }
  destruct IH as (segs & Hn & E & [M1 M2]); [discriminate|]. destruct (P a) eqn:Ea.
  - exists (([], a) :: segs). repeat split; try discriminate.
    + rewrite flat_cons. simpl. f_equal. exact E.
    + intros s c [<-|Hs] Hc; [destruct Hc|eauto].
    + intros s Hs. destruct segs as [|s' r]; [congruence|]. destruct Hs as [<-|Hs]; auto.
  - destruct segs as [|[B m] r]; [congruence|]. exists ((a :: B, m) :: r). repeat split; try discriminate.
    + rewrite E, !flat_cons. reflexivity.
    + intros s c [<-|Hs] Hc; [destruct Hc as [<-|Hc]; [auto|]|].
      * apply (M1 (B, m)); [left; auto|exact Hc].
      * apply (M1 s); [right; auto|exact Hc].
    + intros s Hs. destruct r as [|s' r]; [destruct Hs|]. destruct Hs as [<-|Hs].
      * apply (M2 (B, m)). left; auto.
      * apply M2. right; auto.
Qed.
Lemma idx_len i segs : length (idx i segs) = length segs.
Proof. revert i; induction segs; intros; simpl; auto. Qed.
Lemma parts_len e segs : length (parts e segs) = length segs.
Proof. revert e; induction segs; intros; simpl; auto. Qed.
Lemma flat_nonempty segs : segs <> [] -> flat segs <> [].
Proof. destruct segs as [|[B m] r]; [congruence|]. intros _. rewrite flat_cons. destruct B; discriminate. Qed.
Lemma last_flat s segs d : last (flat (s :: segs)) d = snd (last (s :: segs) s).
Proof.
  revert s; induction segs as [|s' r IH]; intros [B m].
  - unfold flat. simpl. rewrite app_nil_r, last_last. reflexivity.
  - rewrite flat_cons. assert (N : flat (s' :: r) <> []) by (apply flat_nonempty; discriminate).
    specialize (IH s'). destruct (flat (s' :: r)) as [|a l] eqn:E; [congruence|].
    transitivity (last (a :: l) d).
    + clear. induction B as [|b B IHB]; [reflexivity|]. change (last (b :: (B ++ m :: a :: l)) d = last (a :: l) d). rewrite <- IHB. destruct B; reflexivity.
    + rewrite IH. clear. assert (G : forall (l : list (list A * A)) s d d', last (s :: l) d = last (s :: l) d'). { induction l as [|x l IHl]; intros; [reflexivity|]. change (last (x :: l) d = last (x :: l) d'). apply IHl. } change (last ((B, m) :: s' :: r) (B, m)) with (last (s' :: r) (B, m)). f_equal. apply G.
Qed.
Lemma filter_none (f : nat * A -> bool) i (B : list A) : (forall k a, In a B -> f (k, a) = false) -> filter f (combine (seq i (length B)) B) = [].
Proof. revert i; induction B as [|b B IH]; intros i H; simpl; auto. rewrite H by (left; auto). apply IH. intros; apply H; right; auto. Qed.
Lemma removelast_flat_cons B m r : r <> [] -> removelast (flat ((B, m) :: r)) = B ++ m :: removelast (flat r).
Proof.
  intros Hr. rewrite flat_cons. pose proof (flat_nonempty r Hr) as N. destruct (flat r) as [|a l] eqn:E; [congruence|].
  rewrite removelast_app by discriminate. reflexivity.
Qed.
Lemma idx_filter (P : A -> bool) segs : segs <> [] -> marked P segs -> forall i,
  map fst (filter (fun p => P (snd p)) (combine (seq (S i) (length (removelast (flat segs)))) (removelast (flat segs)))) ++ [(i + length (flat segs))%nat] = idx i segs.
Proof.
  induction segs as [|[B m] r IH]; [congruence|]. intros _ HM i. destruct r as [|s r].
  - unfold flat. simpl. rewrite app_nil_r, removelast_last, filter_none.
    + simpl. rewrite app_length. simpl. f_equal. lia.
    + intros k a Ha. simpl. apply (proj1 HM (B, m)); [left; auto|exact Ha].
  - assert (NQ : s :: r <> []) by discriminate. remember (s :: r) as q eqn:Q. clear Q.
    destruct (marked_tl P (B, m) q NQ HM) as (H1 & H2 & H3).
    rewrite removelast_flat_cons by auto. rewrite app_length. cbn [length].
    rewrite seq_app. rewrite combine_app' by apply seq_length. rewrite filter_app, filter_none by (intros; apply H3; auto).
    cbn [app seq combine filter snd]. simpl in H2. rewrite H2. cbn [map fst app]. rewrite flat_cons, app_length. cbn [length idx fst].
    f_equal; [lia|]. rewrite <- (IH NQ H1). replace (S (S (i + length B))) with (S (i + length B + 1)) by lia.
    replace (S i + length B)%nat with (i + length B + 1)%nat by lia. f_equal. f_equal. lia.
Qed.
Lemma cut_nat {B} (l : list B) i j : (i <= length l)%nat -> (j <= length l)%nat -> cut l i j = firstn (j - i) (skipn i l).
Proof. apply pyslice_nat. Qed.
Lemma cut_mid {B} (p m r : list B) i j : i = length p -> j = (length p + length m)%nat -> cut (p ++ m ++ r) i j = m.
Proof.
  intros -> ->. rewrite cut_nat by (rewrite !app_length; lia). rewrite skipn_app, skipn_all, Nat.sub_diag. cbn [skipn app].
  replace (length p + length m - length p)%nat with (length m) by lia. rewrite firstn_app, firstn_all, Nat.sub_diag. simpl. apply app_nil_r.
Qed.
Lemma cut_parts segs : forall (p : list A) e,
  map (fun q => cut (p ++ e :: flat segs) (fst q) (snd q + 1)) (combine (length p :: idx (length p) segs) (idx (length p) segs)) = parts e segs.
Proof.
  induction segs as [|[B m] r IH]; intros p e; [reflexivity|]. cbn [idx combine map fst snd parts]. f_equal.
  - rewrite flat_cons. replace (p ++ e :: B ++ m :: flat r) with (p ++ (e :: B ++ [m]) ++ flat r) by (simpl; rewrite <- app_assoc; reflexivity).
    apply cut_mid; [reflexivity|]. cbn [length]. rewrite app_length. simpl. lia.
  - specialize (IH (p ++ e :: B) m). rewrite app_length in IH. cbn [length] in IH.
    replace (length p + S (length B))%nat with (length p + length B + 1)%nat in IH by lia. rewrite <- IH.
    rewrite flat_cons. replace ((p ++ e :: B) ++ m :: flat r) with (p ++ e :: B ++ m :: flat r) by (rewrite <- app_assoc; reflexivity). reflexivity.
Qed.
End Blocks.

(** ** splitting *)
Definition sized {A} (n : nat) (l : list A) := length l = n.
Fixpoint zparts {A Z} (z : list Z) (segs : list (list A * A)) : list (list Z) :=
  match segs with [] => [] | s :: r => firstn (length (fst s) + 1) z :: zparts (skipn (length (fst s) + 1) z) r end.
Lemma zparts_cut {A Z} (segs : list (list A * A)) : forall (p z : list Z), length z = length (flat segs) ->
  map (fun q => cut (p ++ z) (fst q) (snd q)) (combine (length p :: idx (length p) segs) (idx (length p) segs)) = zparts z segs.
Proof.
  induction segs as [|[B m] r IH]; intros p z HL; [reflexivity|]. rewrite flat_cons, app_length in HL. cbn [length] in HL.
  cbn [idx combine map fst snd zparts]. set (z1 := firstn (length B + 1) z) in *. set (z2 := skipn (length B + 1) z).
  replace (p ++ z) with (p ++ z1 ++ z2) by (unfold z1, z2; rewrite firstn_skipn; reflexivity).
  assert (L1 : length z1 = (length B + 1)%nat) by (unfold z1; rewrite firstn_length; lia).
  f_equal.
  - apply cut_mid; [reflexivity|]. rewrite L1. lia.
  - assert (L2 : length z2 = length (flat r)) by (unfold z2; rewrite skipn_length; lia).
    specialize (IH (p ++ z1) z2 L2). rewrite app_length, L1 in IH. rewrite Nat.add_assoc in IH. rewrite <- IH, <- app_assoc. reflexivity.
Qed.
Lemma zparts_concat {A Z} (segs : list (list A * A)) : forall z : list Z, length z = length (flat segs) -> concat (zparts z segs) = z.
Proof.
  induction segs as [|[B m] r IH]; intros z HL.
  - destruct z; [reflexivity|discriminate].
  - rewrite flat_cons, app_length in HL. cbn [length] in HL. cbn [zparts concat fst]. rewrite IH.
    + apply firstn_skipn.
    + rewrite skipn_length. lia.
Qed.
Lemma zparts_sizes {A Z} (segs : list (list A * A)) : forall z : list Z, length z = length (flat segs) ->
  Forall2 (fun zz s => length zz = (length (fst s) + 1)%nat) (zparts z segs) segs.
Proof.
  induction segs as [|[B m] r IH]; intros z HL; [constructor|]. rewrite flat_cons, app_length in HL. cbn [length] in HL. cbn [zparts fst]. constructor.
  - rewrite firstn_length. simpl. lia.
  - apply IH. rewrite skipn_length. lia.
Qed.

(** entries of an anchorage *)
Notation ent := (R * nat * R)%type.
Definition tm (e : ent) : R := fst (fst e).
Definition st (e : ent) : nat := snd (fst e).
Definition vl (e : ent) : R := snd e.
Definition anch_of (K : list ent) : anch R := mk_anch (map tm K) (map st K) (map vl K).
Definition shift_by (c : R) (K : list ent) : anch R := mk_anch (map (fun e => tm e - c) K) (map st K) (map vl K).
Definition ents (h : anch R) : list ent := combine (combine (a_t h) (a_y h)) (a_v h).
Lemma anch_of_ents h : length (a_y h) = length (a_t h) -> length (a_v h) = length (a_t h) -> anch_of (ents h) = h.
Proof.
  destruct h as [t y v]. simpl. intros H1 H2. unfold anch_of, ents. simpl. f_equal; revert y v H1 H2; induction t as [|a t IH]; intros [|b y] [|c v] H1 H2; simpl in *; try discriminate; auto; f_equal; auto.
Qed.
Lemma ents_anch_of K : ents (anch_of K) = K.
Proof. unfold ents, anch_of. simpl. induction K as [|[[a b] c] K IH]; simpl; [reflexivity|]. rewrite IH. reflexivity. Qed.
Lemma cut_map {A B} (f : A -> B) l i j : cut (map f l) i j = map f (cut l i j).
Proof. unfold cut, pyslice. rewrite map_length, skipn_map, firstn_map. reflexivity. Qed.
Definition in_cond (new_t : list R) (e : ent) : bool := np_isin (tm e) new_t.
Lemma slice_inner_removelast {A} (a : A) l : pyslice (a :: l) 1 (-1) = removelast l.
Proof.
  destruct l as [|b l] using rev_ind; [reflexivity|]. rewrite inner_slice, removelast_last. reflexivity.
Qed.
Lemma filter_combine_map {A B} (f : A -> B) (g : B -> bool) i (l : list A) :
  map fst (filter (fun p => g (snd p)) (combine (seq i (length l)) (map f l))) = map fst (filter (fun p => g (f (snd p))) (combine (seq i (length l)) l)).
Proof. revert i; induction l as [|a l IH]; intros i; simpl; auto. destruct (g (f a)); simpl; rewrite IH; reflexivity. Qed.
Lemma removelast_len {A} (l : list A) : length (removelast l) = (length l - 1)%nat.
Proof. destruct l as [|a l] using rev_ind; [reflexivity|]. rewrite removelast_last, app_length. simpl. lia. Qed.
Lemma removelast_map {A B} (f : A -> B) l : removelast (map f l) = map f (removelast l).
Proof. induction l as [|a l IH]; [reflexivity|]. destruct l; [reflexivity|]. change (f a :: removelast (map f (a0 :: l)) = f a :: map f (removelast (a0 :: l))). rewrite IH. reflexivity. Qed.
Lemma break_blocks (e : ent) segs new_t : segs <> [] -> marked (in_cond new_t) segs ->
  break_r (map tm (e :: flat segs)) new_t = 0%nat :: idx 0 segs.
Proof.
  intros Hn HM. unfold break_r. f_equal. rewrite <- (idx_filter _ segs Hn HM 0). cbn [map]. rewrite slice_inner_removelast, removelast_map.
  cbn [length]. rewrite map_length.
  replace (S (length (flat segs)) - 2)%nat with (length (removelast (flat segs))) by (rewrite removelast_len; lia).
  rewrite (filter_combine_map tm (fun u => np_isin u new_t)). f_equal. f_equal. simpl. lia.
Qed.
Fixpoint hparts (e : ent) (segs : list (list ent * ent)) : list (anch R) :=
  match segs with [] => [] | s :: r => shift_by (tm e) (e :: fst s ++ [snd s]) :: hparts (snd s) r end.
Lemma hparts_cut segs : forall p e,
  map (fun q => mk_anch (map (fun u => nsub u (nth (fst q) (map tm (p ++ e :: flat segs)) n0)) (cut (map tm (p ++ e :: flat segs)) (fst q) (snd q + 1)))
                  (cut (map st (p ++ e :: flat segs)) (fst q) (snd q + 1)) (cut (map vl (p ++ e :: flat segs)) (fst q) (snd q + 1)))
    (combine (length p :: idx (length p) segs) (idx (length p) segs)) = hparts e segs.
Proof.
  induction segs as [|[B m] r IH]; intros p e; [reflexivity|]. cbn [idx combine map fst snd hparts]. f_equal.
  - rewrite !cut_map.
    assert (E : cut (p ++ e :: flat ((B, m) :: r)) (length p) (length p + length B + 1 + 1) = e :: B ++ [m]).
    { rewrite flat_cons. replace (p ++ e :: B ++ m :: flat r) with (p ++ (e :: B ++ [m]) ++ flat r) by (simpl; rewrite <- app_assoc; reflexivity).
      apply cut_mid; [reflexivity|]. cbn [length]. rewrite app_length. simpl. lia. }
    rewrite E. unfold shift_by. f_equal. rewrite map_map. rewrite map_app. rewrite app_nth2 by (rewrite map_length; lia). rewrite map_length, Nat.sub_diag. reflexivity.
  - specialize (IH (p ++ e :: B) m). rewrite app_length in IH. cbn [length] in IH.
    replace (length p + S (length B))%nat with (length p + length B + 1)%nat in IH by lia. rewrite <- IH.
    rewrite flat_cons. replace ((p ++ e :: B) ++ m :: flat r) with (p ++ e :: B ++ m :: flat r) by (rewrite <- app_assoc; reflexivity). reflexivity.
Qed.
Lemma split_blocks {Z} (z : list Z) (e : ent) segs new_t : segs <> [] -> marked (in_cond new_t) segs -> length z = length (flat segs) ->
  split_hidden z (anch_of (e :: flat segs)) new_t = (zparts z segs, hparts e segs).
Proof.
  intros Hn HM HL. unfold split_hidden, anch_of. cbn [a_t a_y a_v]. rewrite break_blocks by auto. cbn [tl]. f_equal.
  - exact (zparts_cut segs [] z HL).
  - exact (hparts_cut segs [] e).
Qed.
(** ** pasting *)
Lemma last_snoc_map {A B} (f : A -> B) l m d : last (map f (l ++ [m])) d = f m.
Proof. rewrite map_app. simpl. apply last_last. Qed.
Fixpoint chain_segs (e : ent) (parts : list (ent * (list ent * ent))) : Prop :=
  match parts with [] => True | p :: r => tm (fst p) = tm e /\ chain_segs (snd (snd p)) r end.
Lemma paste_fold (ps : list (ent * (list ent * ent))) : forall p m, chain_segs m ps ->
  fold_left paste_step (map (fun q => shift_by (tm (fst q)) (fst q :: fst (snd q) ++ [snd (snd q)])) ps) (anch_of (p ++ [m])) = anch_of (p ++ [m] ++ flat (map snd ps)).
Proof.
  induction ps as [|[e [B x]] r IH]; intros p m HC.
  - reflexivity.
  - destruct HC as [H1 H2]. cbn [fst snd] in *. cbn [map fold_left fst snd].
    assert (E : paste_step (anch_of (p ++ [m])) (shift_by (tm e) (e :: B ++ [x])) = anch_of ((p ++ [m] ++ B) ++ [x])).
    { unfold paste_step, anch_of, shift_by. cbn [a_t a_y a_v map tl]. rewrite last_snoc_map.
      f_equal; rewrite <- !app_assoc, !map_app; cbn [map]; rewrite <- ?app_assoc; [|reflexivity..].
      do 2 f_equal. rewrite map_map. simpl. rewrite H1. f_equal; [apply map_ext|f_equal]; intros; simpl; lra. }
    rewrite E, IH by auto. f_equal. rewrite flat_cons. rewrite <- !app_assoc. reflexivity.
Qed.
Lemma paste_blocks {Z} (zs : list (list Z)) e s ps : tm e = 0 -> chain_segs (snd s) ps ->
  paste_hidden zs (shift_by (tm e) (e :: fst s ++ [snd s]) :: map (fun q => shift_by (tm (fst q)) (fst q :: fst (snd q) ++ [snd (snd q)])) ps)
  = Ok (concat zs, anch_of (e :: flat (s :: map snd ps))).
Proof.
  intros H0 HC. unfold paste_hidden. f_equal. f_equal. destruct s as [B m]. cbn [fst snd] in *.
  replace (shift_by (tm e) (e :: B ++ [m])) with (anch_of ((e :: B) ++ [m])).
  - rewrite paste_fold by auto. f_equal. rewrite flat_cons. cbn [app]. rewrite <- ?app_assoc. reflexivity.
  - unfold anch_of, shift_by. f_equal. rewrite H0. apply map_ext. intros. lra.
Qed.
Fixpoint starts (e : ent) (segs : list (list ent * ent)) : list (ent * (list ent * ent)) :=
  match segs with [] => [] | s :: r => (e, s) :: starts (snd s) r end.
Lemma hparts_starts e segs : hparts e segs = map (fun q => shift_by (tm (fst q)) (fst q :: fst (snd q) ++ [snd (snd q)])) (starts e segs).
Proof. revert e; induction segs as [|s r IH]; intros e; simpl; [reflexivity|]. rewrite IH. reflexivity. Qed.
Lemma starts_chain e segs : chain_segs e (starts e segs).
Proof. revert e; induction segs as [|s r IH]; intros e; simpl; auto. Qed.
Lemma starts_snd e segs : map snd (starts e segs) = segs.
Proof. revert e; induction segs as [|s r IH]; intros e; simpl; [reflexivity|]. rewrite IH. reflexivity. Qed.
Lemma roundtrip_ents {Z} (z : list Z) e K new_t : tm e = 0 -> length z = length K ->
  let '(zp, hp) := split_hidden z (anch_of (e :: K)) new_t in paste_hidden zp hp = Ok (z, anch_of (e :: K)).
Proof.
  intros H0 HL. destruct K as [|k K].
  - destruct z; [|discriminate]. destruct e as [[u i] x]. unfold tm in H0. simpl in H0. subst u. unfold split_hidden, break_r, paste_hidden, anch_of, cut, pyslice, norm_bound, tm, st, vl. simpl. replace (0 - 0) with 0 by lra. reflexivity.
  - destruct (blocks_exist (in_cond new_t) (k :: K) ltac:(discriminate)) as (segs & Hn & E & HM). rewrite E in *.
    rewrite split_blocks by auto. destruct segs as [|s r]; [congruence|]. cbn [hparts]. rewrite hparts_starts, paste_blocks by (auto using starts_chain).
    rewrite starts_snd, zparts_concat by auto. reflexivity.
Qed.
