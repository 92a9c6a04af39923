(** Parallel jobs that each move one part between two values. *)
From Coq Require Import Reals List Bool Arith Lra Lia FunctionalExtensionality.
From Verif Require Import Base Rng M_mjp M_path M_skel M_seed M_bf M_sw L_law L_law2 L_law5 SpecLaw SpecJobs.
Import ListNotations.
Local Open Scope R_scope.

Lemma seq_map : forall A (f : nat -> A) n, map f (seq 0 (S n)) = f 0%nat :: map (fun j => f (S j)) (seq 0 n).
Proof. intros A f n. cbn [seq map]. f_equal. rewrite <- seq_shift, map_map. reflexivity. Qed.
Lemma product_S : forall n f, product (S n) f = f 0%nat * product n (fun j => f (S j)).
Proof. intros n f. unfold product. rewrite seq_map. reflexivity. Qed.
Lemma product_mult : forall n f g, product n f * product n g = product n (fun j => f j * g j).
Proof. induction n as [|n IH]; intros f g; [cbn; ring|]. rewrite !product_S, <- IH. ring. Qed.
Lemma product_ext : forall n f g, (forall j, (j < n)%nat -> f j = g j) -> product n f = product n g.
Proof. induction n as [|n IH]; intros f g H; [reflexivity|]. rewrite !product_S, (H 0%nat) by lia. f_equal. apply IH. intros j Hj. apply H. lia. Qed.
Lemma sum_over_app : forall A (l m : list A) f, sum_over (l ++ m) f = sum_over l f + sum_over m f.
Proof. intros A l m f. unfold sum_over. induction l as [|a l IH]; cbn; [ring|]. rewrite IH. ring. Qed.
Lemma sum_over_map : forall A B (g : A -> B) l f, sum_over (map g l) f = sum_over l (fun a => f (g a)).
Proof. intros. unfold sum_over. rewrite map_map. reflexivity. Qed.
Lemma sum_over_scal : forall A (l : list A) c f, sum_over l (fun a => c * f a) = c * sum_over l f.
Proof. intros A l c f. unfold sum_over. induction l as [|a l IH]; cbn; [ring|]. rewrite IH. ring. Qed.
Lemma sum_over_ext : forall A (l : list A) f g, (forall a, In a l -> f a = g a) -> sum_over l f = sum_over l g.
Proof. intros A l f g H. unfold sum_over. f_equal. apply map_ext_in. exact H. Qed.
Lemma independently_ext : forall A (jobs : list (M A)) F G v, (forall l, F l = G l) -> independently jobs F v -> independently jobs G v.
Proof. intros A jobs F G v H. assert (F = G) as -> by (extensionality l; apply H). exact (fun x => x). Qed.
Lemma independently_eq : forall A (jobs : list (M A)) F v v', v = v' -> independently jobs F v -> independently jobs F v'.
Proof. intros A jobs F v v' ->. exact (fun x => x). Qed.
Lemma independently_unique : forall A (jobs : list (M A)) F u v, independently jobs F u -> independently jobs F v -> u = v.
Proof.
  intros A jobs. induction jobs as [|j r IH]; intros F u v; cbn [independently]; [congruence|]. intros [h [H1 H2]] [h' [H3 H4]].
  apply (average_unique _ j h u v H1). refine (average_ext _ _ _ _ _ _ H3). intros a. apply (IH _ _ _ (H4 a) (H2 a)).
Qed.
(** one generator for all jobs, one after the other, gives the same *)
Lemma one_generator : forall A (jobs : list (M A)) F v, independently jobs F v -> average (map_m (fun j => j) jobs) F v.
Proof.
  intros A jobs. induction jobs as [|j r IH]; intros F v H; cbn [map_m independently] in *.
  - subst v. apply (average_ret _ [] F).
  - destruct H as [h [H1 H2]]. apply (average_bind0 _ _ _ _ _ h _ H1). intros a. apply (average_map _ _ _ (fun l => a :: l)). apply IH. apply H2.
Qed.
Lemma joint_law0 : forall A n (job : nat -> M A) (k : nat -> bool -> R) (out : nat -> bool -> A),
  (forall j, (j < n)%nat -> forall f, average (job j) f (k j true * f (out j true) + k j false * f (out j false))) ->
  forall F, independently (map job (seq 0 n)) F (sum_over (patterns n) (fun d => product n (fun j => k j (of_part d j)) * F (map (fun j => out j (of_part d j)) (seq 0 n)))).
Proof.
  intros A n. induction n as [|n IH]; intros job k out H F.
  - cbn. unfold sum_over, product. cbn. ring.
  - rewrite seq_map. cbn [independently].
    set (h := fun a => sum_over (patterns n) (fun d => product n (fun j => k (S j) (of_part d j)) * F (a :: map (fun j => out (S j) (of_part d j)) (seq 0 n)))).
    exists h. split.
    + refine (average_eq _ _ _ _ _ _ (H 0%nat ltac:(lia) h)). cbn [patterns]. rewrite sum_over_app, !sum_over_map. unfold h. rewrite <- !sum_over_scal.
      f_equal; apply sum_over_ext; intros d _; rewrite product_S, seq_map; cbn [of_part nth]; rewrite <- Rmult_assoc; reflexivity.
    + intros a. exact (IH (fun j => job (S j)) (fun j => k (S j)) (fun j => out (S j)) (fun j Hj => H (S j) ltac:(lia)) (fun l => F (a :: l))).
Qed.
Lemma joint_law : forall A n (job : nat -> bool -> M A) (k : nat -> bool -> bool -> R) (out : nat -> bool -> bool -> A),
  (forall j b, (j < n)%nat -> forall f, average (job j b) f (k j b true * f (out j b true) + k j b false * f (out j b false))) ->
  forall c F, independently (map (fun j => job j (of_part c j)) (seq 0 n)) F
    (sum_over (patterns n) (fun d => product n (fun j => k j (of_part c j) (of_part d j)) * F (map (fun j => out j (of_part c j) (of_part d j)) (seq 0 n)))).
Proof.
  intros A n job k out H c F. exact (joint_law0 A n (fun j => job j (of_part c j)) (fun j => k j (of_part c j)) (fun j => out j (of_part c j)) (fun j Hj => H j (of_part c j) Hj) F).
Qed.
Lemma joint_balance : forall n (w : nat -> bool -> R) (k : nat -> bool -> bool -> R), (forall j, (j < n)%nat -> w j false * k j false true = w j true * k j true false) ->
  forall c d, product n (fun j => w j (of_part c j)) * product n (fun j => k j (of_part c j) (of_part d j)) = product n (fun j => w j (of_part d j)) * product n (fun j => k j (of_part d j) (of_part c j)).
Proof.
  intros n w k H c d. rewrite !product_mult. apply product_ext. intros j Hj. specialize (H j Hj). destruct (of_part c j), (of_part d j); auto.
Qed.
Lemma finite_choice : forall A (d : A) n (P : nat -> A -> Prop), (forall j, (j < n)%nat -> exists a, P j a) -> exists f, forall j, (j < n)%nat -> P j (f j).
Proof.
  intros A d n. induction n as [|n IH]; intros P H; [exists (fun _ => d); intros j Hj; lia|].
  destruct (IH (fun j => P (S j)) ltac:(intros j Hj; apply H; lia)) as [f Hf]. destruct (H 0%nat ltac:(lia)) as [a Ha].
  exists (fun j => match j with O => a | S i => f i end). intros [|j] Hj; [exact Ha|]. apply Hf. lia.
Qed.
