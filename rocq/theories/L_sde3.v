(** A run of the layered bridge sampler. *)
From Coq Require Import Reals List Bool Arith Lia Lra Psatz Sorted.
From Verif Require Import Base Np Rng Mat L_list L_rng L_mat L_ars M_hit M_path SpecPath L_sde L_sde2.
Import ListNotations.
Local Open Scope R_scope.

Lemma demo_grid : time_grid [1/2] /\ Forall (fun s => s < 1) [1/2].
Proof. repeat split; try easy; repeat constructor; lra. Qed.
Lemma demo_bridge w k : sample_brownbr [1/2] 1 0 w (oracle_of plain_script) k = (Ok [w / 2], (k + 1)%nat).
Proof.
  destruct demo_grid as [G B]. rewrite (bridge_run [1/2] 1 0 w G B). cbn [length].
  destruct (bridge_moments [1/2] 1 0 w G B) as (m & c & E & GA). f_equal. f_equal.
  unfold moments_brownbr in E. cbn [arr_min arr_max rbind np_min_from np_max_from] in E.
  rewrite (proj2 (Rltb_true 0 (1/2))), (proj2 (Rltb_true (1/2) 1)) in E by lra. cbn [negb andb map] in E. injection E as <- <-.
  destruct GA as (_ & _ & _ & A & HA & _). destruct (HA (normals (oracle_of plain_script) k 1)) as [L N]; [apply normals_length|].
  specialize (N 0%nat ltac:(simpl; lia)). cbn [length] in *.
  destruct (bridge_of _ _ _ _ _) as [|x [|]]; simpl in L; try discriminate. f_equal. cbn in N. lra.
Qed.
Lemma run_bind {A B} (m : M A) (f : A -> M B) o k a k' : m o k = (Ok a, k') -> bind m f o k = f a o k'.
Proof. intros E. unfold bind. now rewrite E. Qed.
Lemma run_assert {B} b (f : unit -> M B) o k : b = true -> bind (assert_ b) f o k = f tt o k.
Proof. intros ->. reflexivity. Qed.
Lemma demo_layerbr : sample_layerbr 0%nat 1%nat 1%nat [1/2] 1 0 2 0 None (Some 1) (oracle_of plain_script) 0%nat = (Ok ([1], Some [true; true]), 5%nat).
Proof.
  assert (B1 : Rltb 0 (1/2) = true) by (apply Rltb_true; lra). assert (B2 : Rltb (1/2) 1 = true) by (apply Rltb_true; lra).
  assert (MB : sample_besselbr [1/2] 1 2 3%nat (oracle_of plain_script) 0%nat = (Ok [1], 3%nat)).
  { unfold sample_besselbr. erewrite run_bind by reflexivity. erewrite run_bind by reflexivity. rewrite run_assert. 2:{ cbn [np_min_from np_max_from]. now rewrite B1, B2. }
    rewrite run_assert by reflexivity. cbn [Nat.sub repeat app map_m].
    erewrite run_bind. 2:{ erewrite run_bind by apply demo_bridge. erewrite run_bind. 2:{ erewrite run_bind by apply demo_bridge. erewrite run_bind.
      2:{ erewrite run_bind by apply demo_bridge. reflexivity. } reflexivity. } reflexivity. }
    unfold ret. cbn [length seq map plus Nat.add]. f_equal. f_equal. f_equal. unfold norm_at. cbn [map nth fold_right].
    replace ((0 / 2) ^ 2 + ((0 / 2) ^ 2 + ((2 / 2) ^ 2 + 0))) with 1 by lra. apply sqrt_1. }
  assert (M1 : Rmin 0 2 = 0) by (apply Rmin_left; lra).
  assert (ES : forall k a b, 0 <= a -> 1 <= Rmax a b -> 0 < b -> sample_bessel3br_esc 0%nat (1/2) a b 1 None None (oracle_of plain_script) k = (Ok true, S k)).
  { intros k a b Ha HM Hb. unfold sample_bessel3br_esc. erewrite run_bind by reflexivity. cbn [ora_r oracle_of plain_script sc_u].
    rewrite run_assert by auto. rewrite run_assert by (now apply Rleb_true). rewrite run_assert by (now apply Rltb_true).
    rewrite run_assert. 2:{ rewrite (proj2 (Rleb_true 0 _)), (proj2 (Rleb_true _ 1)) by lra. reflexivity. }
    rewrite (proj2 (Rleb_true 1 _) HM). reflexivity. }
  assert (PE : propose_layerbr_edge 0%nat 1%nat [1/2] 1 2 None (Some 1) (oracle_of plain_script) 0%nat = (Ok ([1], [true; true]), 5%nat)).
  { unfold propose_layerbr_edge. erewrite run_bind.
    2:{ erewrite run_bind by reflexivity. erewrite run_bind by reflexivity. cbn [np_min_from np_max_from]. rewrite B1, B2. reflexivity. }
    rewrite run_assert by reflexivity. cbn [layerbr_edge_loop]. erewrite run_bind by exact MB. erewrite run_bind by reflexivity.
    cbv iota. unfold segments, zip3. cbn [app np_diff but_last removelast tl combine map map_m fst snd].
    change (@nsub R RNum) with Rminus. replace (1 / 2 - 0) with (1 / 2) by lra. replace (1 - 1 / 2) with (1 / 2) by lra.
    erewrite run_bind.
    2:{ erewrite run_bind by (apply ES; try lra; pose proof (Rmax_r 0 1); lra). erewrite run_bind. 2:{ erewrite run_bind by (apply ES; try lra; pose proof (Rmax_l 1 2); lra). reflexivity. } reflexivity. }
    reflexivity. }
  assert (R0 : Rleb 0 (Rmin 0 2) = true) by (rewrite M1; apply Rleb_true; lra).
  unfold sample_layerbr. erewrite run_bind by reflexivity. erewrite run_bind by reflexivity. cbn [np_min_from np_max_from].
  rewrite run_assert by (now rewrite B1, B2). rewrite run_assert by reflexivity. rewrite run_assert by auto. rewrite run_assert by reflexivity.
  cbn [layerbr_loop]. erewrite run_bind.
  2:{ unfold propose_layerbr, propose_layerbr_body. erewrite run_bind.
      2:{ erewrite run_bind by reflexivity. erewrite run_bind by reflexivity. cbn [np_min_from np_max_from]. rewrite B1, B2. reflexivity. }
      rewrite run_assert by auto. erewrite run_bind by reflexivity. rewrite (proj2 (Reqb_true 0 0) eq_refl), (proj2 (Reqb_false 0 2)) by lra. cbn [orb opt_sub].
      replace (2 - 0) with 2 by lra. replace (1 - 0) with 1 by lra. erewrite run_bind by exact PE. reflexivity. }
  cbn [fst snd map existsb orb]. replace (1 + 0) with 1 by lra. reflexivity.
Qed.
Lemma wiener_moment_values t init mu m c : moments_wiener t init mu = Ok (m, c) ->
  forall i j, (i < length t)%nat -> (j < length t)%nat -> nth i m 0 = init + mu * nth i t 0 /\ entry c i j = Rmin (nth i t 0) (nth j t 0).
Proof.
  unfold moments_wiener. destruct (arr_min t); simpl; try discriminate. destruct (negb _); try discriminate. intros E. injection E as <- <-.
  intros i j Hi Hj. rewrite (nth_map_lt _ t i 0), (entry_map Rmin) by auto. split; auto. apply Rmin_comm.
Qed.
Lemma bridge_moment_values t T a b m c : moments_brownbr t T a b = Ok (m, c) ->
  forall i j, (i < length t)%nat -> (j < length t)%nat -> nth i m 0 = a + (b - a) * nth i t 0 / T /\
    entry c i j = Rmin (nth i t 0) (nth j t 0) * (T - Rmax (nth i t 0) (nth j t 0)) / T.
Proof.
  unfold moments_brownbr. destruct (arr_min t); simpl; try discriminate. destruct (arr_max t); simpl; try discriminate. destruct (negb _); try discriminate. intros E. injection E as <- <-.
  intros i j Hi Hj. rewrite (nth_map_lt _ t i 0), (entry_map (fun c r => (T - Rmax c r) * Rmin c r / T)) by auto. split; auto.
  rewrite (Rmin_comm (nth j t 0)), (Rmax_comm (nth j t 0)). unfold Rdiv. ring.
Qed.
Lemma gaussian_example : exists X m c, gaussian 2 X m c /\ 0 < entry c 1 1 /\ moments_wiener [1; 2] 0 0 = Ok (m, c).
Proof.
  assert (G : time_grid [1; 2]) by (repeat split; try easy; repeat constructor; lra).
  destruct (wiener_moments [1; 2] 0 0 G) as (m & c & E & H). exists (fun z => wiener_coord [1; 2] z 0 0), m, c. split; [exact H|]. split; [|exact E].
  destruct (wiener_moment_values _ _ _ _ _ E 1%nat 1%nat) as [_ ->]; try (simpl; lia). cbn [nth]. rewrite Rmin_left; lra.
Qed.
Lemma degenerate_witness : exists t T a u lb, time_grid t /\ Forall (fun s => s < T) t /\ a < u /\
  forall fuel mp n, returns (sample_layerbr fuel mp n t T a a a (Some u) lb) (fun _ => False).
Proof.
  exists [1/2], 1, 0, 1, None. destruct demo_grid. split; auto. split; auto. split; [lra|]. intros. apply degenerate_layer.
Qed.
Lemma reflect_empty_witness : exists x c T, 0 <= T /\ reverse [] x T = Ok ([], rev x) /\ reflect (Some []) x c = Raise ValueError.
Proof. exists [1], 0, 1. split; [lra|]. split; [|reflexivity]. unfold reverse. rewrite (proj2 (Rleb_true 0 1)) by lra. reflexivity. Qed.
Lemma Rmin_mult_pos p x y : 0 <= p -> p * Rmin x y = Rmin (p * x) (p * y).
Proof. intros H. unfold Rmin. destruct (Rle_dec x y), (Rle_dec (p * x) (p * y)); nra. Qed.
Lemma pivot_gaussian s T a b X : 0 < T -> s <> [] -> Forall (fun u => 0 < u < 1) s ->
  (exists m c, moments_brownbr s 1 0 0 = Ok (m, c) /\ gaussian (length s) X m c) ->
  exists Y, (forall z, length z = length s -> exists t, pivot_brownbr s (X z) T a b (fun u => u) (fun u => u) = Ok (t, Y z) /\ t = map (fun u => u * T) s) /\
    exists m c, moments_brownbr (map (fun u => u * T) s) T a b = Ok (m, c) /\ gaussian (length s) Y m c.
Proof.
  intros HT N F (m & c & E & GA). pose proof (sqrt_lt_R0 T HT) as SP. pose proof (sqrt_sqrt T ltac:(lra)) as SS.
  assert (F0 : Forall (fun u => 0 < u) s) by (eapply Forall_impl; [|exact F]; simpl; intros; lra).
  assert (F1 : Forall (fun u => u < 1) s) by (eapply Forall_impl; [|exact F]; simpl; intros; lra).
  destruct (min_pos s N F0) as (m0 & E0 & P0). destruct (max_below s 1 N F1) as (m1 & E1 & P1).
  exists (fun z => map (fun p => fst p * sqrt T + a + snd p * (b - a)) (combine (X z) s)). split.
  - intros z Lz. exists (map (fun u => u * T) s). split; auto. unfold pivot_brownbr. rewrite E0, E1. cbn [rbind].
    rewrite (proj2 (Rleb_true 0 _)), (proj2 (Rleb_true _ 1)), (proj2 (Rltb_true _ _) HT) by lra. reflexivity.
  - set (t := map (fun u => u * T) s). assert (Lt : length t = length s) by apply map_length.
    assert (Nt : t <> []) by (unfold t; destruct s; easy).
    assert (G0 : Forall (fun u => 0 < u) t). { apply Forall_forall. intros y Hy. apply in_map_iff in Hy as (u & <- & Hu). rewrite Forall_forall in F0. specialize (F0 u Hu). nra. }
    assert (G1 : Forall (fun u => u < T) t). { apply Forall_forall. intros y Hy. apply in_map_iff in Hy as (u & <- & Hu). rewrite Forall_forall in F1. specialize (F1 u Hu). nra. }
    destruct (min_pos t Nt G0) as (n0 & D0 & Q0). destruct (max_below t T Nt G1) as (n1 & D1 & Q1).
    assert (EM : exists m' c', moments_brownbr t T a b = Ok (m', c') /\ length m' = length s /\ length c' = length s /\ Forall (fun r => length r = length s) c').
    { unfold moments_brownbr. rewrite D0, D1. cbn [rbind]. rewrite (proj2 (Rltb_true _ _) Q0), (proj2 (Rltb_true _ _) Q1). cbn [negb andb].
      do 2 eexists. split; [reflexivity|]. rewrite !map_length. split; auto. split; auto. rewrite <- Lt. apply (rows_length (fun c r => (T - Rmax c r) * Rmin c r / T)). }
    destruct EM as (m' & c' & EM & L1 & L2 & L3). exists m', c'. split; [exact EM|]. split; auto. split; auto. split; auto.
    destruct GA as (M1 & M2 & M3 & A & HA & HC). exists (fun i k => sqrt T * A i k). split.
    + intros z Lz. destruct (HA z Lz) as [LX HX]. split; [rewrite map_length, combine_length; lia|]. intros i Hi.
      rewrite (combine_seq (X z) s (length s) 0 0) by auto. rewrite map_map, nth_map_seq by auto. cbn [fst snd]. rewrite HX by auto.
      destruct (bridge_moment_values _ _ _ _ _ _ EM i i) as [-> _]; try lia.
      destruct (bridge_moment_values _ _ _ _ _ _ E i i) as [-> _]; auto.
      rewrite (rsum_ext (length s) (fun k => sqrt T * A i k * nth k z 0) (fun k => sqrt T * (A i k * nth k z 0))) by (intros; ring). rewrite rsum_scal_l.
      unfold t. rewrite (nth_map_lt _ s i 0) by auto. set (W := rsum _ _). field. lra.
    + intros i j Hi Hj. destruct (bridge_moment_values _ _ _ _ _ _ EM i j) as [_ ->]; try lia.
      rewrite (rsum_ext (length s) _ (fun k => T * (A i k * A j k))). 2:{ intros k _. transitivity (sqrt T * sqrt T * (A i k * A j k)); [ring|now rewrite SS]. }
      rewrite rsum_scal_l, <- HC by auto. destruct (bridge_moment_values _ _ _ _ _ _ E i j) as [_ ->]; auto.
      unfold t. rewrite !(nth_map_lt _ s _ 0) by auto. rewrite (Rmult_comm (nth i s 0)), (Rmult_comm (nth j s 0)), RmaxRmult, <- (Rmin_mult_pos T) by lra. field. lra.
Qed.
