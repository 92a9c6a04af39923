(** Property theorems C102: the values yielded have density proportional to exp(f). *)
From Coq Require Import Reals List ZArith Bool Arith Lia Lra.
From Verif Require Import Base Np Rng Mat M_ars SpecLaw SpecLay SpecArs L_ars2 L_ars8.
Import ListNotations.
Local Open Scope R_scope.

(** one iteration: a value is yielded with probability A / Z, the mass of the target over that of the hull,
    and a value in (s, r] with probability m / Z, for every window of mass m *)
Theorem C102_iteration : forall lb ub f df maxp h A s r m, strictly_concave_on lb ub f df -> ready lb ub f df h -> target_mass lb ub f A -> window_mass lb ub f s r m ->
  exists Z, envelope_mass lb ub f df (h_x h) Z /\ 0 < A <= Z /\
    chance (ars_step f df lb ub maxp h) gives (A / Z) /\ chance (ars_step f df lb ub maxp h) (gives_in s r) (m / Z).
Proof. exact iteration_law. Qed.
Print Assumptions C102_iteration.
(** the target has a finite mass as soon as there is a hull *)
Theorem C102_target_mass : forall lb ub f df h, strictly_concave_on lb ub f df -> ready lb ub f df h -> exists A, target_mass lb ub f A.
Proof. exact target_exists. Qed.
Print Assumptions C102_target_mass.
(** once the hull has max_points points, the values are independent draws from exp(f) / A: n iterations give the d values asked for,
    with the values in d given windows, with the product of the probabilities of the windows times that of d successes in n trials *)
Theorem C102_full_hull : forall lb ub f df maxp h A, strictly_concave_on lb ub f df -> ready lb ub f df h -> (maxp <= length (h_x h))%nat -> target_mass lb ub f A ->
  exists a, 0 < a <= 1 /\ forall n ws ms, Forall2 (fun w m => window_mass lb ub f (fst w) (snd w) m) ws ms ->
    chance (ars_run n f df lb ub maxp (Some (length ws)) h) (all_in ws) (fold_right Rmult 1 (map (fun m => m / A) ms) * at_least a n (length ws)).
Proof. exact fixed_law. Qed.
Print Assumptions C102_full_hull.
Theorem C102_full_hull_limit : forall lb ub f df maxp h A ws ms, strictly_concave_on lb ub f df -> ready lb ub f df h -> (maxp <= length (h_x h))%nat -> target_mass lb ub f A ->
  Forall2 (fun w m => window_mass lb ub f (fst w) (snd w) m) ws ms ->
  limit_chance (fun n => ars_run n f df lb ub maxp (Some (length ws)) h) (all_in ws) (fold_right Rmult 1 (map (fun m => m / A) ms)).
Proof. exact fixed_limit. Qed.
Print Assumptions C102_full_hull_limit.
(** while the hull adapts: given that n iterations gave d + 1 values, the last of them has the density exp(f) / A
    whatever the first d are: the mean of g(first d) (1[last in (s, r]] - m / A) is zero for every g *)
Theorem C102_adaptive : forall lb ub f df maxp A s r m n d h g, strictly_concave_on lb ub f df -> target_mass lb ub f A -> window_mass lb ub f s r m -> good_hull lb ub f df h ->
  average (off_zero (ars_run n f df lb ub maxp (Some (S d)) h)) (score g s r (m / A) d) 0.
Proof. exact adaptive_law. Qed.
Print Assumptions C102_adaptive.
Example C102_example : strictly_concave_on NegInf PosInf nf ndf /\ ready NegInf PosInf nf ndf (hull_init nf ndf [1; -(1)]) /\
  good_hull NegInf PosInf nf ndf (hull_init nf ndf [1; -(1)]) /\ (exists A, target_mass NegInf PosInf nf A) /\
  (exists m, window_mass NegInf PosInf nf 0 (1/2) m) /\ nf 1 = -(1/2) /\ le 2 (length (h_x (hull_init nf ndf [1; -(1)]))).
Proof.
  pose proof nf_concave as HC. destruct nf_ready as (HR & HG). split; [exact HC|]. split; [exact HR|]. split; [exact HG|].
  split; [exact (C102_target_mass _ _ _ _ _ HC HR)|]. split; [apply (window_exists NegInf PosInf nf ndf); [exact HC|split; exact I|split; exact I|lra]|].
  split; [unfold nf; lra|]. destruct HR as (_ & _ & _ & _ & _ & U). apply U. reflexivity.
Qed.
