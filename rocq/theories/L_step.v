(** The steps of M_bf on the oracle, as nested draws. *)
From Coq Require Import Reals List Bool FunctionalExtensionality.
From Verif Require Import Base Rng M_bf.
Import ListNotations.
Local Open Scope R_scope.

Lemma bind_ext {A B} (m : M A) (f g : A -> M B) : (forall a, f a = g a) -> bind m f = bind m g.
Proof. intros H. f_equal. apply functional_extensionality. exact H. Qed.
Lemma bind_assoc {A B C} (m : M A) (f : A -> M B) (g : B -> M C) : bind (bind m f) g = bind m (fun a => bind (f a) g).
Proof. apply functional_extensionality. intros o. apply functional_extensionality. intros k. unfold bind. destruct (m o k) as [[a|e|] k']; auto. Qed.
Lemma bind_ret {A B} (a : A) (g : A -> M B) : bind (ret a) g = g a.
Proof. reflexivity. Qed.

Section Step.
Context {A St B : Type} (rej : B) (kept : bool -> A -> B) (precoin : bool) (pw1 pw2 w1 w2 : R) (s : St).
Lemma joint_old flip prime pr n (s0 : St) :
  (do r <- barker_step (m := M) (@ret) (@bind) o_ulog_lt (run_twocoin_joint flip prime pr n s0) precoin pw1 pw2 w1 w2 s; after_step rej kept r) =
  (let run w1 w2 := do r <- sample_twocoin_joint flip prime w1 w2 pr n s0; let '((accept, _, z), _) := r in ret (kept accept z) in
   if precoin then do b <- o_ulog_lt (pw1 - logaddexp pw1 pw2); if b then run 0 0 else ret rej else run w1 w2).
Proof.
  cbv zeta. unfold barker_step, run_twocoin_joint, barker.
  destruct precoin; rewrite !bind_assoc; [apply bind_ext; intros [|]|]; rewrite ?bind_assoc; try reflexivity; apply bind_ext; intros [[[x y] a] s']; reflexivity.
Qed.
Lemma plain_old flip pr (p0 : A) n (s0 : St) :
  (do r <- barker_step (m := M) (@ret) (@bind) o_ulog_lt (run_twocoin flip pr p0 n s0) precoin pw1 pw2 w1 w2 s; after_step rej kept r) =
  (let run w1 w2 := do r <- sample_twocoin flip w1 w2 pr p0 n s0; let '((accept, _, z), _) := r in ret (kept accept z) in
   if precoin then do b <- o_ulog_lt (pw1 - logaddexp pw1 pw2); if b then run 0 0 else ret rej else run w1 w2).
Proof.
  cbv zeta. unfold barker_step, run_twocoin, barker.
  destruct precoin; rewrite !bind_assoc; [apply bind_ext; intros [|]|]; rewrite ?bind_assoc; try reflexivity; apply bind_ext; intros [[[x y] a] s']; reflexivity.
Qed.
End Step.
