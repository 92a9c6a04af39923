(** Lemmas: layered bridges and transforms. *)
From Coq Require Import Reals List Bool Arith Lia Lra Psatz Sorted.
From Verif Require Import Base Np Rng Mat L_list L_rng L_mat L_bridge L_ars L_prop M_hit SpecHit L_hit L_hit2 L_hit3 L_hit4 L_hit5 L_hit6 L_hit7 L_hit8 M_path SpecPath L_sde.
Import ListNotations.
Local Open Scope R_scope.

Definition below (ub : option R) (x : R) : Prop := match ub with Some u => x < u | None => True end.
(** flags of a whole path *)
Fixpoint flags_sound (K : R) (path : list R) (flags : list bool) : Prop :=
  match path with
  | [] => False
  | a :: rest =>
      match rest with
      | [] => flags = []
      | b :: _ => match flags with f :: fs => (f = false -> a < K /\ b < K) /\ flags_sound K rest fs | [] => False end
      end
  end.
Lemma flags_len K p : forall f, flags_sound K p f -> length p = S (length f).
Proof.
  induction p as [|a p IH]; intros f H; [easy|]. destruct p as [|b p]; cbn in H; [subst; auto|].
  destruct f as [|x f]; [easy|]. destruct H as [_ H]. apply IH in H. cbn [length] in *. lia.
Qed.
Lemma flags_nth K p : forall f i, flags_sound K p f -> nth_error f i = Some false -> nth i p 0 < K /\ nth (S i) p 0 < K.
Proof.
  induction p as [|a p IH]; intros f i H E; [easy|]. destruct p as [|b p]; [cbn in H; subst; destruct i; discriminate|].
  destruct f as [|x f]; [easy|]. destruct H as [H1 H2]. destruct i as [|i].
  - injection E as ->. now apply H1.
  - apply (IH f i H2 E).
Qed.
Lemma flags_snoc K p : forall f a b g, flags_sound K (p ++ [a]) f -> (g = false -> a < K /\ b < K) -> flags_sound K (p ++ [a; b]) (f ++ [g]).
Proof.
  induction p as [|c p IH]; intros f a b g H G.
  - cbn in H. subst. cbn. auto.
  - destruct p as [|d p].
    + destruct f as [|x f]; [easy|]. cbn [app] in *. destruct H as [H1 H2]. split; [exact H1|]. apply (IH f a b g H2 G).
    + destruct f as [|x f]; [easy|]. destruct H as [H1 H2]. split; [exact H1|]. apply (IH f a b g H2 G).
Qed.
Lemma flags_rev K p : forall f, flags_sound K p f -> flags_sound K (rev p) (rev f).
Proof.
  induction p as [|a p IH]; intros f H; [easy|]. destruct p as [|b p]; [cbn in H; subst; now cbn|].
  destruct f as [|x f]; [easy|]. destruct H as [H1 H2]. apply IH in H2. cbn [rev] in *. rewrite <- app_assoc. cbn [app].
  apply flags_snoc; auto. intros G. destruct (H1 G). auto.
Qed.
Lemma flags_shift K p c : forall f, flags_sound (K - c) p f -> flags_sound K (map (fun x => x + c) p) f.
Proof.
  induction p as [|a p IH]; intros f H; [easy|]. destruct p as [|b p]; [cbn in *; auto|].
  destruct f as [|x f]; [easy|]. destruct H as [H1 H2]. split; [intros G; destruct (H1 G); lra|]. now apply IH.
Qed.
Lemma flags_merge K p m : forall f0 f1 a q, flags_sound K (a :: p ++ [m]) f0 -> flags_sound K (m :: q) f1 -> q <> [] ->
  flags_sound K (a :: p ++ q) (but_last f0 ++ [last f0 false || hd false f1] ++ tl f1).
Proof.
  induction p as [|b p IH]; intros f0 f1 a q H0 H1 N.
  - destruct f0 as [|x f0]; cbn in H0; [easy|]. destruct H0 as [H0 E]. subst f0.
    destruct q as [|c q]; [easy|]. destruct f1 as [|y f1]; [easy|]. destruct H1 as [H1 H2]. cbn [but_last removelast last app hd tl].
    split; auto. intros G. apply orb_false_iff in G as [-> ->]. destruct (H0 eq_refl), (H1 eq_refl). auto.
  - destruct f0 as [|x f0]; [easy|]. cbn [app] in H0. destruct H0 as [G0 H0].
    destruct f0 as [|y f0]. { destruct p; cbn in H0; easy. }
    change (but_last (x :: y :: f0)) with (x :: but_last (y :: f0)). change (last (x :: y :: f0) false) with (last (y :: f0) false).
    split; auto. apply (IH (y :: f0) f1 b q H0 H1 N).
Qed.

(** ** generic returns for list comprehensions *)
Lemma returns_map_m {A B} G (f : A -> M B) (P : A -> B -> Prop) l : (forall a, In a l -> returns_if G (f a) (P a)) ->
  returns_if G (map_m f l) (fun r => Forall2 P l r).
Proof.
  induction l as [|a l IH]; intros H; cbn [map_m]; [apply returns_ret; constructor|].
  eapply returns_bind; [apply H; now left|]. intros b Hb. eapply returns_bind; [apply IH; intros; apply H; now right|]. intros bs Hbs.
  apply returns_ret. now constructor.
Qed.
Lemma esc_returns G fuel t a b K u : returns_if G (sample_bessel3br_esc fuel t a b K u None) (fun r => r = false -> a < K /\ b < K).
Proof.
  unfold sample_bessel3br_esc. eapply returns_bind with (Q := fun _ => True); [intros o k V g; cbv beta; destruct (fst _); auto|]. intros s _.
  do 4 (eapply returns_bind; [apply (returns_assert G _ (fun _ => True)); auto|]; intros _ _).
  destruct (Rleb_dec K (Rmax a b)) as [[L ->]|[L ->]]; [apply returns_ret; discriminate|].
  assert (X : a < K /\ b < K) by (pose proof (Rmax_l a b); pose proof (Rmax_r a b); lra).
  intros o k V g. cbv beta. destruct (fst _); auto.
Qed.
Lemma seg_flags K t : forall xt fl, length t = length xt -> xt <> [] -> Forall2 (fun (s : R * R * R) b => let '(_, x0, x1) := s in b = false -> x0 < K /\ x1 < K) (segments t xt) fl ->
  flags_sound K xt fl.
Proof.
  induction t as [|s t IH]; intros xt fl L N H; [destruct xt; easy|]. destruct xt as [|x xt]; [easy|]. destruct t as [|s' t].
  - destruct xt; [|simpl in L; lia]. unfold segments, zip3 in H. cbn in H. inversion H. reflexivity.
  - destruct xt as [|x' xt]; [simpl in L; lia|]. change (segments (s :: s' :: t) (x :: x' :: xt)) with ((s' - s, x, x') :: segments (s' :: t) (x' :: xt)) in H.
    inversion H; subst. split; auto. apply (IH (x' :: xt) l'); auto. easy.
Qed.
Lemma flags_none K p : forall f, flags_sound K p f -> (1 < length p)%nat -> existsb (fun b => b) f = false -> Forall (fun x => x < K) p.
Proof.
  induction p as [|a p IH]; intros f H L E; [easy|]. destruct p as [|b p]; [simpl in L; lia|].
  destruct f as [|x f]; [easy|]. destruct H as [H1 H2]. cbn in E. apply orb_false_iff in E as [-> E]. destruct (H1 eq_refl).
  constructor; auto. destruct p as [|c p]; [constructor; auto|]. apply (IH f H2); auto. simpl; lia.
Qed.
Lemma norm_nonneg w i : 0 <= norm_at w i.
Proof. apply sqrt_pos. Qed.
Lemma returns_true {A} G (m : M A) : returns_if G m (fun _ => True).
Proof. intros o k V g. cbv beta. destruct (fst _); auto. Qed.
Lemma besselbr_returns G t T x d : returns_if G (sample_besselbr t T x d) (fun r => length r = length t /\ Forall (fun v => 0 <= v) r).
Proof.
  unfold sample_besselbr. do 5 (eapply returns_bind; [apply returns_true|]; intros ? _). apply returns_ret.
  rewrite map_length, seq_length. split; auto. apply Forall_forall. intros v Hv. apply in_map_iff in Hv as (i & <- & _). apply norm_nonneg.
Qed.

(** outcome of a proposal: values, bounds and flags *)
Definition proposal (a b inf : R) (t : list R) (ub lb : option R) (r : list R * list bool) : Prop :=
  length (fst r) = length t /\ Forall (fun x => inf <= x /\ below ub x) (fst r) /\
  match lb with Some K => flags_sound K (a :: fst r ++ [b]) (snd r) | None => snd r = [] end.
Lemma edge_loop_returns G fuel n t T x ub lb : returns_if G (layerbr_edge_loop fuel n t T x ub lb) (proposal 0 x 0 t ub lb).
Proof.
  induction n as [|n IH]; cbn [layerbr_edge_loop]; [apply returns_raise|].
  eapply returns_bind with (Q := fun xt => length xt = length t /\ Forall (fun v => 0 <= v) xt).
  { destruct t; [apply returns_ret; auto|apply besselbr_returns]. }
  intros xt [LX PX]. set (segs := segments (0 :: t ++ [T]) (0 :: xt ++ [x])).
  assert (LS : length (0 :: t ++ [T]) = length (0 :: xt ++ [x])) by (cbn [length]; rewrite !app_length, LX; auto).
  eapply returns_bind with (Q := fun ok => ok = true -> Forall (below ub) xt).
  { destruct ub as [u|].
    - eapply returns_bind; [apply (returns_map_m G _ (fun (s : R * R * R) r => let '(_, x0, x1) := s in r = false -> x0 < u /\ x1 < u))|].
      + intros [[dt x0] x1] _. apply esc_returns.
      + intros e HE. apply returns_ret. intros E. apply negb_true_iff in E. apply seg_flags in HE; auto; [|easy].
        apply flags_none in HE; auto; [|cbn [length]; rewrite app_length; simpl; lia]. inversion HE; subst. apply Forall_app in H2 as [? _]. auto.
    - apply returns_ret. intros _. apply Forall_forall. intros; exact I. }
  intros ok OK. destruct ok; [|exact IH]. specialize (OK eq_refl).
  assert (PR : Forall (fun v => 0 <= v /\ below ub v) xt). { rewrite Forall_forall in *. auto. }
  destruct lb as [K|].
  - eapply returns_bind; [apply (returns_map_m G _ (fun (s : R * R * R) r => let '(_, x0, x1) := s in r = false -> x0 < K /\ x1 < K))|].
    + intros [[dt x0] x1] _. apply esc_returns.
    + intros h Hh. apply returns_ret. repeat split; auto. cbn [fst snd]. eapply seg_flags; eauto; easy.
  - apply returns_ret. repeat split; auto.
Qed.
Lemma edge_returns G fuel n t T x ub lb : returns_if G (propose_layerbr_edge fuel n t T x ub lb) (proposal 0 x 0 t ub lb).
Proof.
  unfold propose_layerbr_edge. do 2 (eapply returns_bind; [apply returns_true|]; intros ? _). apply edge_loop_returns.
Qed.
Lemma proposal_shift a b inf t ub lb r c : proposal a b inf t (opt_sub ub c) (opt_sub lb c) r ->
  proposal (a + c) (b + c) (inf + c) t ub lb (map (fun x => x + c) (fst r), snd r).
Proof.
  intros (H1 & H2 & H3). split; [cbn [fst]; now rewrite map_length|]. split.
  - cbn [fst]. apply Forall_forall. intros y Hy. apply in_map_iff in Hy as (x & <- & Hx). rewrite Forall_forall in H2. destruct (H2 x Hx) as [G1 G2].
    split; [lra|]. destruct ub; simpl in *; auto; lra.
  - destruct lb as [K|]; simpl opt_sub in H3; cbn [fst snd] in *; auto. apply (flags_shift K (a :: fst r ++ [b]) c) in H3. cbn [map] in H3. now rewrite map_app in H3.
Qed.
Lemma proposal_rev a b inf t t' ub lb r : length t' = length t -> proposal a b inf t ub lb r -> proposal b a inf t' ub lb (rev (fst r), rev (snd r)).
Proof.
  intros E (H1 & H2 & H3). split; [cbn [fst]; rewrite rev_length; lia|]. split; [cbn [fst]; now apply Forall_rev|].
  destruct lb as [K|]; cbn [fst snd] in *; [|now rewrite H3]. apply flags_rev in H3. cbn [rev] in H3. rewrite rev_app_distr in H3. cbn [app rev] in H3. exact H3.
Qed.
Lemma searchsorted_le {A} (f : A -> bool) l : (length (filter f l) <= length l)%nat.
Proof. induction l; simpl; auto. destruct (f a); simpl; lia. Qed.
Lemma proposal_weaken a b inf inf' t t' ub lb r : inf' <= inf -> length t = length t' -> proposal a b inf t ub lb r -> proposal a b inf' t' ub lb r.
Proof. intros L E (H1 & H2 & H3). split; [lia|]. split; auto. eapply Forall_impl; [|exact H2]. simpl. intros x [X Y]. split; auto; lra. Qed.
Definition edge_min (inf a b : R) : Prop := inf = a \/ inf = b.
Lemma body_edge G rec fuel mp t T a b inf ub lb : edge_min inf a b -> returns_if G (propose_layerbr_body rec fuel mp t T a b inf ub lb) (proposal a b inf t ub lb).
Proof.
  intros E. unfold propose_layerbr_body. do 3 (eapply returns_bind; [apply returns_true|]; intros ? _).
  assert (EB : (Reqb inf a || Reqb inf b)%bool = true).
  { destruct E as [->| ->]; [rewrite (proj2 (Reqb_true _ _) eq_refl); auto|]. rewrite (proj2 (Reqb_true b b) eq_refl). apply orb_true_r. }
  rewrite EB. destruct (Reqb_dec inf b) as [[E1 ->]|[E1 ->]].
  - eapply returns_bind with (Q := proposal (a - inf) 0 0 t (opt_sub ub inf) (opt_sub lb inf)).
    + eapply returns_bind; [apply edge_returns|]. intros q Hq. apply returns_ret. eapply proposal_rev; [|exact Hq]. now rewrite map_length, rev_length.
    + intros r Hr. apply returns_ret. apply proposal_shift in Hr. subst b. now replace (a - inf + inf) with a in Hr by ring; replace (0 + inf) with inf in Hr by ring.
  - destruct E as [E|E]; [|contradiction]. eapply returns_bind; [apply edge_returns|]. intros r Hr. apply returns_ret. apply proposal_shift in Hr.
    subst a. now replace (b - inf + inf) with b in Hr by ring; replace (0 + inf) with inf in Hr by ring.
Qed.

Lemma layer_min_returns fuel n T a b ub inf : inf < Rmin a b ->
  returns_if anyo (sample_layerbr_min fuel n T a b ub (Some (Fin inf)) None) (fun m => match m with Some (_, mx) => inf <= mx | None => True end).
Proof.
  intros L. unfold sample_layerbr_min. eapply returns_bind; [apply (returns_assert anyo _ (fun _ => 0 < T)); intros; now apply Rltb_true|]. intros ? HT.
  eapply returns_bind; [apply returns_true|]. intros _ _.
  induction n as [|n IH]; cbn [layerbr_min_loop]; [apply returns_raise|].
  eapply returns_bind; [apply total_returns, (brownbr_min_total anyo T a b (Some (Fin inf)) None); simpl; auto; lra|].
  intros r Hr. destruct ub as [u|].
  - destruct r as [[mt mx]|]; [|apply returns_raise]. do 2 (eapply returns_bind; [apply returns_true|]; intros ? _).
    destruct (_ && _)%bool; [apply returns_ret; simpl in Hr; tauto|exact IH].
  - apply returns_ret. destruct r as [[mt mx]|]; auto. simpl in Hr; tauto.
Qed.
Lemma propose_returns fuel mp t T a b inf ub lb : inf <= Rmin a b -> returns_if anyo (propose_layerbr fuel mp t T a b inf ub lb) (proposal a b inf t ub lb).
Proof.
  intros L. destruct (Req_dec inf a) as [E|NA]; [apply body_edge; now left|]. destruct (Req_dec inf b) as [E|NB]; [apply body_edge; now right|].
  assert (L' : inf < Rmin a b) by (unfold Rmin in *; destruct (Rle_dec a b); lra).
  unfold propose_layerbr, propose_layerbr_body at 1. do 3 (eapply returns_bind; [apply returns_true|]; intros ? _).
  rewrite (proj2 (Reqb_false _ _) NA), (proj2 (Reqb_false _ _) NB). cbn [orb].
  eapply returns_bind; [apply layer_min_returns; auto|]. intros m Hm. destruct m as [[mt mx]|]; [|apply returns_raise].
  cbv zeta. set (ix := searchsorted_left t mt).
  eapply returns_bind; [apply body_edge; now right|]. intros r0 (A1 & A2 & A3).
  eapply returns_bind; [apply body_edge; now left|]. intros r1 (B1 & B2 & B3). rewrite map_length in B1.
  assert (LL : length (fst r0 ++ fst r1) = length t). { rewrite app_length, A1, B1, <- app_length. now rewrite firstn_skipn. }
  assert (FF : Forall (fun x => inf <= x /\ below ub x) (fst r0 ++ fst r1)).
  { apply Forall_app. split; (eapply Forall_impl; [|eassumption]); simpl; intros x [X Y]; split; auto; lra. }
  destruct lb as [K|]; apply returns_ret; (split; [exact LL|split; [exact FF|]]); cbn [fst snd]; auto.
  rewrite <- app_assoc. apply (flags_merge K (fst r0) mx (snd r0) (snd r1) a (fst r1 ++ [b])); auto. destruct (fst r1); easy.
Qed.
Lemma sample_layerbr_returns fuel mp n t T a b inf ub lb : returns (sample_layerbr fuel mp n t T a b inf ub lb) (layered t a b inf ub lb).
Proof.
  apply returns_any. unfold sample_layerbr. do 4 (eapply returns_bind; [apply returns_true|]; intros ? _).
  eapply returns_bind; [apply (returns_assert anyo _ (fun _ => inf <= Rmin a b)); intros; now apply Rleb_true|]. intros ? L.
  eapply returns_bind; [apply returns_true|]; intros ? _.
  induction n as [|n IH]; cbn [layerbr_loop]; [apply returns_raise|].
  eapply returns_bind; [apply propose_returns; auto|]. intros r (H1 & H2 & H3). destruct lb as [K|].
  - destruct (existsb _ _) eqn:EX; [|exact IH]. apply returns_ret. split; [exact H1|]. split; [exact H2|]. exists (snd r). split; [reflexivity|].
    split; [|split].
    + apply flags_len in H3. cbn [length] in H3. rewrite app_length in H3. cbn [length] in H3. lia.
    + apply existsb_exists in EX as (y & Hy & ->). auto.
    + intros i Hi. apply (flags_nth K _ _ i H3 Hi).
  - apply returns_ret. split; [exact H1|]. split; [exact H2|]. reflexivity.
Qed.

(** when both end points equal the infimum and an upper bound is given, every call fails *)

Lemma map_m_never {A B} (f : A -> M B) l a : In a l -> returns_if anyo (f a) (fun _ => False) -> returns_if anyo (map_m f l) (fun _ => False).
Proof.
  intros H F. induction l as [|b l IH]; [easy|]. cbn [map_m]. destruct H as [->|H].
  - eapply returns_bind; [exact F|]. easy.
  - eapply returns_bind; [apply returns_true|]. intros ? _. eapply returns_bind; [apply IH; auto|]. easy.
Qed.
Lemma esc_zero fuel t a K u : returns_if anyo (sample_bessel3br_esc fuel t a 0 K u None) (fun _ => False).
Proof.
  unfold sample_bessel3br_esc. do 3 (eapply returns_bind; [apply returns_true|]; intros ? _).
  eapply returns_bind; [apply (returns_assert anyo _ (fun _ => False))|easy]. intros E. apply Rltb_true in E. lra.
Qed.
Lemma last_segment t T xt x : length t = length xt -> exists dt x0, In (dt, x0, x) (segments (0 :: t ++ [T]) (0 :: xt ++ [x])).
Proof.
  generalize 0 at 1. generalize 0. revert xt. induction t as [|s t IH]; intros xt c d L; destruct xt as [|y xt]; try discriminate.
  - exists (T - d), c. cbn. now left.
  - destruct (IH xt y s) as (dt & x0 & H); [simpl in L; lia|]. exists dt, x0.
    change (segments (d :: (s :: t) ++ [T]) (c :: (y :: xt) ++ [x])) with ((s - d, c, y) :: segments (s :: t ++ [T]) (y :: xt ++ [x])). now right.
Qed.
Lemma edge_never fuel n t T u lb : returns_if anyo (layerbr_edge_loop fuel n t T 0 (Some u) lb) (fun _ => False).
Proof.
  induction n as [|n IH]; cbn [layerbr_edge_loop]; [apply returns_raise|].
  eapply returns_bind with (Q := fun xt => length xt = length t).
  { destruct t; [apply returns_ret; auto|]. eapply returns_weaken; [apply besselbr_returns|]. simpl; tauto. }
  intros xt LX. destruct (last_segment t T xt 0 ltac:(auto)) as (dt & x0 & HI).
  eapply returns_bind with (Q := fun _ => False); [|easy].
  eapply returns_bind; [eapply map_m_never; [exact HI|]; cbv beta iota; apply esc_zero|easy].
Qed.
(** both end points at the infimum and an upper bound: no call returns *)
Lemma degenerate_layer fuel mp n t T a u lb : returns (sample_layerbr fuel mp n t T a a a (Some u) lb) (fun _ => False).
Proof.
  apply returns_any. unfold sample_layerbr. do 6 (eapply returns_bind; [apply returns_true|]; intros ? _).
  induction n as [|n IH]; cbn [layerbr_loop]; [apply returns_raise|].
  eapply returns_bind with (Q := fun _ => False); [|easy].
  unfold propose_layerbr, propose_layerbr_body at 1. do 3 (eapply returns_bind; [apply returns_true|]; intros ? _).
  rewrite (proj2 (Reqb_true a a) eq_refl). cbn [orb]. eapply returns_bind with (Q := fun _ => False); [|easy].
  eapply returns_bind with (Q := fun _ => False); [|easy]. unfold propose_layerbr_edge.
  do 2 (eapply returns_bind; [apply returns_true|]; intros ? _). replace (a - a) with 0 by ring. apply edge_never.
Qed.

(** ** transforms *)
Definition in_range (T : R) (t : list R) : Prop := Forall (fun s => 0 <= s <= T) t.
Lemma reverse_ok t x T : 0 <= T -> in_range T t -> reverse t x T = Ok (map (fun s => T - s) (rev t), rev x).
Proof.
  intros HT F. unfold reverse. destruct t as [|a r]; [now rewrite (proj2 (Rleb_true _ _) HT)|]. inversion F; subst.
  assert (0 <= np_min_from a r). { destruct (np_min_from_mem a r) as [->|H]; [lra|]. unfold in_range in *. rewrite Forall_forall in *. apply F. now right. }
  assert (np_max_from a r <= T). { destruct (np_max_from_mem a r) as [->|H']; [lra|]. unfold in_range in *. rewrite Forall_forall in *. apply F. now right. }
  rewrite (proj2 (Rleb_true 0 _)), (proj2 (Rleb_true _ T)), (proj2 (Rleb_true _ _) HT) by lra. reflexivity.
Qed.
Lemma reverse_range T t : in_range T t -> in_range T (map (fun s => T - s) (rev t)).
Proof. unfold in_range. rewrite !Forall_forall. intros F y Hy. apply in_map_iff in Hy as (s & <- & Hs). apply in_rev in Hs. specialize (F s Hs). lra. Qed.
Lemma reverse_sorted T t : StronglySorted Rlt t -> StronglySorted Rlt (map (fun s => T - s) (rev t)).
Proof.
  induction t as [|a r IH]; intros HS; [constructor|]. inversion HS; subst. cbn [rev]. rewrite map_app. apply StronglySorted_app. repeat split; auto.
  - repeat constructor.
  - intros u v Hu Hv. apply in_map_iff in Hu as (s & <- & Hs). destruct Hv as [<-|[]]. apply in_rev in Hs. rewrite Forall_forall in H2. specialize (H2 s Hs). lra.
Qed.
Lemma reverse_statement t x T : 0 <= T -> in_range T t ->
  exists t' x', reverse t x T = Ok (t', x') /\ length t' = length t /\ length x' = length x /\ in_range T t' /\
    (StronglySorted Rlt t -> StronglySorted Rlt t') /\ (forall i, (i < length t)%nat -> nth i t' 0 = T - nth (length t - S i) t 0) /\
    (forall i, (i < length x)%nat -> nth i x' 0 = nth (length x - S i) x 0) /\ reverse t' x' T = Ok (t, x).
Proof.
  intros HT F. exists (map (fun s => T - s) (rev t)), (rev x). rewrite reverse_ok by auto.
  split; auto. rewrite map_length, !rev_length. split; auto. split; auto. split; [now apply reverse_range|]. split; [apply reverse_sorted|]. split; [|split].
  - intros i Hi. rewrite (nth_map_lt _ (rev t) i 0) by now rewrite rev_length. now rewrite rev_nth.
  - intros i Hi. now rewrite rev_nth.
  - rewrite reverse_ok by (auto; now apply reverse_range). rewrite <- map_rev, !rev_involutive, map_map. f_equal. f_equal.
    rewrite <- (map_id t) at 2. apply map_ext. intros; ring.
Qed.
(** outside the range it raises *)
Lemma reverse_outside t x T s : In s t -> ~ (0 <= s <= T) -> exists e, reverse t x T = Raise e.
Proof.
  intros H N. unfold reverse. destruct t as [|a r]; [easy|]. exists ValueError.
  assert (np_min_from a r <= s) by (destruct H as [->|H]; [apply np_min_from_le|now apply np_min_from_in]).
  assert (s <= np_max_from a r) by (destruct H as [->|H]; [apply np_max_from_ge|now apply np_max_from_in]).
  destruct (Rleb_dec 0 (np_min_from a r)) as [[A ->]|[A ->]]; auto. destruct (Rleb_dec (np_max_from a r) T) as [[B ->]|[B ->]]; auto. exfalso. apply N. lra.
Qed.
Lemma reflect_statement t x c : (forall l, t = Some l -> l <> [] /\ Forall (fun s => 0 <= s) l) ->
  exists x', reflect t x c = Ok (t, x') /\ length x' = length x /\ (forall i, (i < length x)%nat -> nth i x' 0 - c = c - nth i x 0) /\ reflect t x' c = Ok (t, x).
Proof.
  intros F. exists (map (fun v => 2 * c - v) x).
  assert (R1 : forall x, reflect t x c = Ok (t, map (fun v => 2 * c - v) x)).
  { intros y. unfold reflect. destruct t as [[|a r]|]; auto; destruct (F _ eq_refl) as [N P]; [easy|]. inversion P; subst.
    rewrite (proj2 (Rleb_true 0 _)); auto. destruct (np_min_from_mem a r) as [->|H]; auto. rewrite Forall_forall in *; auto. }
  rewrite !R1, map_length. split; auto. split; auto. split.
  - intros i Hi. rewrite (nth_map_lt _ x i 0) by auto. lra.
  - rewrite map_map. f_equal. f_equal. rewrite <- (map_id x) at 2. apply map_ext. intros; ring.
Qed.
Lemma reflect_empty x c : reflect (Some []) x c = Raise ValueError.
Proof. reflexivity. Qed.
Lemma pivot_statement s z T a b f g : 0 < T -> s <> [] -> Forall (fun u => 0 <= u <= 1) s -> length z = length s -> g (f T) = T -> g 0 = 0 ->
  exists t x, pivot_brownbr s z T a b f g = Ok (t, x) /\ length t = length s /\ length x = length s /\
    (forall i, (i < length s)%nat -> nth i s 0 = 0 -> nth i z 0 = 0 -> nth i t 0 = 0 /\ nth i x 0 = a) /\
    (forall i, (i < length s)%nat -> nth i s 0 = 1 -> nth i z 0 = 0 -> nth i t 0 = T /\ nth i x 0 = b).
Proof.
  intros HT N F L G1 G0.
  assert (E : pivot_brownbr s z T a b f g = Ok (map (fun u => g (u * f T)) s, map (fun p => fst p * sqrt (f T) + a + snd p * (b - a)) (combine z s))).
  { unfold pivot_brownbr. destruct s as [|u r]; [easy|]. cbn [arr_min arr_max rbind]. inversion F; subst.
    assert (0 <= np_min_from u r). { destruct (np_min_from_mem u r) as [->|H]; [lra|]. rewrite Forall_forall in *. apply F. now right. }
    assert (np_max_from u r <= 1). { destruct (np_max_from_mem u r) as [->|H']; [lra|]. rewrite Forall_forall in *. apply F. now right. }
    rewrite (proj2 (Rleb_true 0 _)), (proj2 (Rleb_true _ 1)), (proj2 (Rltb_true _ _) HT) by lra. reflexivity. }
  rewrite E. do 2 eexists. split; [reflexivity|]. rewrite !map_length, combine_length. split; auto. split; [lia|].
  assert (X : forall i, (i < length s)%nat -> nth i (map (fun p => fst p * sqrt (f T) + a + snd p * (b - a)) (combine z s)) 0 = nth i z 0 * sqrt (f T) + a + nth i s 0 * (b - a)).
  { intros i Hi. rewrite (combine_seq z s (length s) 0 0) by auto. rewrite map_map, nth_map_seq by auto. reflexivity. }
  split; intros i Hi S1 Z1; rewrite X, (nth_map_lt _ s i 0) by auto; rewrite S1, Z1; split; try ring.
  - now rewrite Rmult_0_l.
  - now rewrite Rmult_1_l.
Qed.
(** a seeded three-dimensional Bessel bridge is the norm of the pivoted Brownian bridge *)
Lemma bessel3_statement s z T x : 0 < T -> s <> [] -> Forall (fun u => 0 < u < 1) s -> length z = length s ->
  exists t y0 y1 y2 r, gen_seeded_bessel3br s z T x = Ok (t, r) /\
    pivot_brownbr s (map (fun v => fst (fst v)) z) T 0 x (fun u => u) (fun u => u) = Ok (t, y0) /\
    pivot_brownbr s (map (fun v => snd (fst v)) z) T 0 0 (fun u => u) (fun u => u) = Ok (t, y1) /\
    pivot_brownbr s (map (fun v => snd v) z) T 0 0 (fun u => u) (fun u => u) = Ok (t, y2) /\
    length r = length s /\ forall i, (i < length s)%nat -> nth i r 0 = sqrt (nth i y0 0 ^ 2 + nth i y1 0 ^ 2 + nth i y2 0 ^ 2).
Proof.
  intros HT N F L. pose proof (sqrt_lt_R0 T HT) as SP. pose proof (sqrt_sqrt T ltac:(lra)) as SS.
  assert (F0 : Forall (fun u => 0 < u) s) by (eapply Forall_impl; [|exact F]; simpl; intros; lra).
  assert (F1 : Forall (fun u => u < 1) s) by (eapply Forall_impl; [|exact F]; simpl; intros; lra).
  destruct (min_pos s N F0) as (m0 & E0 & P0). destruct (max_below s 1 N F1) as (m1 & E1 & P1).
  assert (E : forall w a b, pivot_brownbr s w T a b (fun u => u) (fun u => u) = Ok (map (fun u => u * T) s, map (fun p => fst p * sqrt T + a + snd p * (b - a)) (combine w s))).
  { intros w a b. unfold pivot_brownbr. rewrite E0, E1. cbn [rbind].
    rewrite (proj2 (Rleb_true 0 _)), (proj2 (Rleb_true _ 1)), (proj2 (Rltb_true _ _) HT) by lra. reflexivity. }
  unfold gen_seeded_bessel3br. rewrite E0, E1. cbn [rbind]. rewrite (proj2 (Rltb_true 0 _) P0), (proj2 (Rltb_true _ 1) P1), (proj2 (Rltb_true _ _) HT). cbn [negb andb].
  do 5 eexists. split; [reflexivity|]. split; [apply E|]. split; [apply E|]. split; [apply E|].
  rewrite map_length, combine_length, map_length. split; [lia|]. intros i Hi.
  rewrite (combine_seq z (map (fun u => u * T) s) (length s) ((0, 0), 0) 0) by (rewrite ?map_length; auto). rewrite map_map, nth_map_seq by auto. cbn [fst snd].
  rewrite !combine_map_l. rewrite (combine_seq z s (length s) ((0, 0), 0) 0) by auto. rewrite !map_map, !nth_map_seq by auto. cbn [fst snd].
  rewrite (nth_map_lt _ s i 0) by auto. destruct (nth i z (0, 0, 0)) as [[z0 z1] z2]. cbn [fst snd]. set (u := nth i s 0).
  rewrite <- sqrt_mult_alt by lra. f_equal.
  replace ((z0 + x * (u * T) / (T * sqrt T))) with ((z0 * sqrt T + x * u) / sqrt T) by (field; lra).
  replace ((z0 * sqrt T + 0 + u * (x - 0)) ^ 2) with (T * ((z0 * sqrt T + x * u) / sqrt T) ^ 2).
  2:{ rewrite <- SS at 1. field. lra. }
  replace ((z1 * sqrt T + 0 + u * (0 - 0)) ^ 2) with (T * z1 ^ 2) by (rewrite <- SS at 1; ring).
  replace ((z2 * sqrt T + 0 + u * (0 - 0)) ^ 2) with (T * z2 ^ 2) by (rewrite <- SS at 1; ring). ring.
Qed.
