(** The law of the increments of euler_simulate. *)
From Coq Require Import Reals List Bool Arith Lra Lia.
From Verif Require Import Base Np Rng M_mjp M_models M_euler L_euler M_path SpecPath SpecLaw L_rng L_law L_law2 L_law5 L_gauss L_gauss2 L_gauss3 L_est2 Mat L_mat.
Import ListNotations.
Local Open Scope R_scope.

Lemma euler_law : forall ndraws fin_t init_x d v res n (th : nat -> nat -> R), 0 <= fin_t -> 0 < res -> (forall x, v x <> 0) ->
  INR n * res <= fin_t < (INR n + 1) * res ->
  average (euler_simulate ndraws fin_t init_x d v res)
    (fun r => exp (rsum ndraws (fun i => rsum n (fun j => let x := nth i (snd r) [] in
       th i j * ((nth (S j) x 0 - nth j x 0 - d (nth j x 0) * res) / v (nth j x 0))))))
    (exp (res / 2 * rsum ndraws (fun i => rsum n (fun j => th i j ^ 2)))).
Proof.
  intros m T x0 d v res n th HT HR HV Hn. destruct (Nat.eq_dec m 0) as [->|Hm].
  { cbn [rsum]. rewrite Rmult_0_r. apply (average_comp _ (do _ <- draw_rs (repeat DNormal 0); ret (arange T res, []))).
    { intros o k _. unfold euler_simulate. rewrite (proj2 (Rltb_false T 0) HT). assert (RL : Rleb res 0 = false) by (destruct (Rleb res 0) eqn:E; [apply Rleb_true in E; lra|reflexivity]).
      rewrite RL. cbn [orb]. unfold bind. rewrite draw_rows_normal. cbn. rewrite Nat.mul_0_r, Nat.add_0_r. reflexivity. }
    apply average_map. cbn [repeat draw_rs]. apply (average_ret _ [] (fun _ => exp 0)). }
  set (G := fun z : list R => (arange T res, map (fun i => map (fun row => nth i row 0)
     (euler_rows d v res (repeat x0 m) (map (map (Rmult (sqrt res))) (map (fun j => map (fun i => nth (j * m + i) z 0) (seq 0 m)) (seq 0 n))))) (seq 0 m))).
  assert (FN : floor_nat (T / res) = n).
  { assert (HQ : 0 <= T / res) by (apply Rmult_le_pos; [exact HT|left; apply Rinv_0_lt_compat; exact HR]).
    pose proof (floor_spec _ HQ) as [F1 F2]. destruct Hn as [N1 N2].
    assert (A : INR n <= T / res) by (apply (Rmult_le_reg_r res); [exact HR|]; replace (T / res * res) with T by (field; lra); exact N1).
    assert (B : T / res < INR n + 1) by (apply (Rmult_lt_reg_r res); [exact HR|]; replace (T / res * res) with T by (field; lra); exact N2).
    rewrite <- S_INR in F2, B. assert (X : INR n < INR (S (floor_nat (T / res)))) by lra. assert (Y : INR (floor_nat (T / res)) < INR (S n)) by lra.
    apply INR_lt in X. apply INR_lt in Y. lia. }
  assert (EG : forall o k, valid o -> euler_simulate m T x0 d v res o k = (do z <- draw_rs (repeat DNormal (n * m)); ret (G z)) o k).
  { intros o k _. unfold euler_simulate. rewrite (proj2 (Rltb_false T 0) HT). assert (RL : Rleb res 0 = false) by (destruct (Rleb res 0) eqn:E; [apply Rleb_true in E; lra|reflexivity]).
    rewrite RL, FN. cbn [orb]. unfold bind. rewrite draw_rows_normal, draw_normals. unfold ret, G.
    replace (map (fun j => map (fun i => nth (j * m + i) (normals o k (n * m)) 0) (seq 0 m)) (seq 0 n)) with (map (fun j => map (fun i => ora_r o (k + j * m + i) DNormal) (seq 0 m)) (seq 0 n)); [reflexivity|].
    apply map_ext_in. intros j Hj. apply map_ext_in. intros i Hi. apply in_seq in Hj. apply in_seq in Hi. unfold normals. rewrite nth_map_seq by nia. f_equal. lia. }
  set (c0 := fun r => sqrt res * th (r mod m)%nat (r / m)%nat).
  assert (C0 : forall k j, (j < m)%nat -> c0 (k * m + j)%nat = sqrt res * th j k).
  { intros k j Hj. unfold c0. rewrite Nat.add_comm, Nat.mod_add, Nat.mod_small by lia. rewrite Nat.div_add, Nat.div_small by lia. reflexivity. }
  apply (average_comp _ _ _ _ _ EG). apply average_map.
  apply (average_swap _ _ (fun z => exp (rsum (n * m) (fun r => c0 r * nth r z 0)))).
  - intros o k Ho. rewrite draw_normals. cbn [fst]. f_equal.
    destruct (euler_spec m T x0 d v res o k HT HR) as (ts & xs & n' & E & En & _ & Lx & HX). rewrite (EG o k Ho) in E. unfold bind in E. rewrite draw_normals in E. cbn [ret fst] in E. injection E as _ Ex.
    assert (n' = n) as ->.
    { destruct En as [E1 E2], Hn as [N1 N2]. assert (X : INR n' * res < (INR n + 1) * res) by lra. assert (Y : INR n * res < (INR n' + 1) * res) by lra.
      apply Rmult_lt_reg_r in X; [|exact HR]. apply Rmult_lt_reg_r in Y; [|exact HR]. rewrite <- S_INR in X, Y. apply INR_lt in X. apply INR_lt in Y. lia. }
    rewrite rsum_block, (rsum_swap n m). apply rsum_ext. intros i Hi. apply rsum_ext. intros j Hj. cbn zeta. rewrite C0 by exact Hi.
    change (snd (G (normals o k (n * m)))) with (snd (G (normals o k (n * m)))). unfold G. cbn [snd]. rewrite Ex.
    destruct (nth_error xs i) as [x|] eqn:EX; [|apply nth_error_None in EX; lia]. destruct (HX i x EX) as (_ & _ & HS). rewrite (nth_error_nth _ _ [] EX), (HS j Hj).
    unfold normals. rewrite nth_map_seq by nia. replace (k + (j * m + i))%nat with (k + j * m + i)%nat by lia. field. apply HV.
  - eapply average_eq; [|apply normals_mgf]. f_equal. rewrite rsum_block, (rsum_swap n m). unfold Rdiv. rewrite Rmult_comm, (Rmult_comm res), Rmult_assoc. f_equal.
    rewrite <- rsum_scal_l. apply rsum_ext. intros i Hi. rewrite <- rsum_scal_l. apply rsum_ext. intros j Hj. rewrite C0 by exact Hi.
    rewrite Rpow_mult_distr, pow2_sqrt by lra. reflexivity.
Qed.
