(** * C51: heat conductors *)
From Coq Require Import List Reals.
Import ListNotations.
From Verif Require Import StateMgr Conductors.
Local Open Scope R_scope.

(** every isotropic conductor that can be constructed sends heat down the gradient, in any dimension *)
Theorem C51_isotropic : forall d c k m, make_isotropic d c k = Done m -> forall grad, admissible (isotropic_response m grad) grad.
Proof. exact isotropic_admissible. Qed.
Print Assumptions C51_isotropic.
Theorem C51_isotropic_accepts : forall d c k, (exists m, make_isotropic d c k = Done m) <-> 0 <= d /\ 0 <= c /\ 0 <= k.
Proof. exact isotropic_accepts. Qed.
Print Assumptions C51_isotropic_accepts.
(** conductivity depending on temperature: every answer given is admissible *)
Theorem C51_temperature_dependent : forall d c k s m, make_graded d c k s = Done m -> forall temp grad r, graded_response m temp grad = Done r -> admissible r grad.
Proof. exact graded_admissible. Qed.
Print Assumptions C51_temperature_dependent.
Example C51_temperature_dependent_ex : exists m r, make_graded 1 1 1 0 = Done m /\ graded_response m 5 [1] = Done r.
Proof. exact graded_ex. Qed.
(** no symmetric positive definite conductivity is refused *)
Theorem C51_accepts_positive : forall d c k2 k3, 0 <= d -> 0 <= c -> (positive2 k2 -> exists m, make_conductor2 d c k2 = Done m) /\ (positive3 k3 -> exists m, make_conductor3 d c k3 = Done m).
Proof. exact conductor_accepts. Qed.
Print Assumptions C51_accepts_positive.
Example C51_accepts_positive_ex : positive2 good2 /\ positive3 good3.
Proof. exact good_positive. Qed.
(** the full statement is for every accepted tensor; missing: tensors with a vanishing leading minor, and asymmetry up to the tolerance *)
Theorem C51_conductor2_partial : forall d c k m, make_conductor2 d c k = Done m -> symmetric2 k -> 0 < a00 k -> forall x y, admissible (response2 m x y) [x; y].
Proof. exact conductor2_admissible. Qed.
Print Assumptions C51_conductor2_partial.
Theorem C51_conductor3_partial : forall d c k m, make_conductor3 d c k = Done m -> symmetric3 k -> 0 < b00 k -> 0 < det2 (upper_left k) -> forall x y z, admissible (response3 m x y z) [x; y; z].
Proof. exact conductor3_admissible. Qed.
Print Assumptions C51_conductor3_partial.
(** diag(0,-1) and diag(0,0,-1) are accepted as positive definite, and heat then flows up *)
Theorem C51_conductor2_refuted : exists m, make_conductor2 1 1 bad2 = Done m /\ ~ admissible (response2 m 0 1) [0; 1].
Proof. exact bad2_accepted. Qed.
Print Assumptions C51_conductor2_refuted.
Theorem C51_conductor3_refuted : exists m, make_conductor3 1 1 bad3 = Done m /\ ~ admissible (response3 m 0 0 1) [0; 0; 1].
Proof. exact bad3_accepted. Qed.
Print Assumptions C51_conductor3_refuted.
(** Fourier's law for every conductor that can be constructed, symmetric or not: flux i is minus the sum over j of conductivity i j times gradient j *)
Theorem C51_fourier : forall d c,
  (forall k m grad, make_isotropic d c k = Done m -> fst (isotropic_response m grad) = d * c /\ fourier (length grad) (fun i j => if Nat.eqb i j then k else 0) grad (snd (isotropic_response m grad))) /\
  (forall k s m temp grad r, make_graded d c k s = Done m -> graded_response m temp grad = Done r -> fst r = d * c /\ fourier (length grad) (fun i j => if Nat.eqb i j then k + s * temp else 0) grad (snd r)) /\
  (forall k m x y, make_conductor2 d c k = Done m -> fst (response2 m x y) = d * c /\ fourier 2 (entry2 k) [x; y] (snd (response2 m x y))) /\
  (forall k m x y z, make_conductor3 d c k = Done m -> fst (response3 m x y z) = d * c /\ fourier 3 (entry3 k) [x; y; z] (snd (response3 m x y z))).
Proof. exact all_fourier. Qed.
Print Assumptions C51_fourier.
Example C51_fourier_nonvacuous : exists m, make_conductor2 1 1 slanted = Done m /\ entry2 slanted 0 1 <> entry2 slanted 1 0.
Proof. exact slanted_accepted. Qed.
(** ** C41, conductors: parameter and offset act like their sum *)
Theorem C41_conductor_partial : forall d c k p m m' grad, make_param_isotropic d c k = Done m -> make_isotropic d c (k + p) = Done m' -> param_isotropic_response m grad p = isotropic_response m' grad.
Proof. exact param_isotropic_plain. Qed.
Print Assumptions C41_conductor_partial.
Example C41_conductor_nonvacuous : exists m m', make_param_isotropic 1 1 2 = Done m /\ make_isotropic 1 1 (2 + -1) = Done m'.
Proof. exact param_isotropic_case. Qed.
Theorem C41_temperature_dependent_conductor : forall d c k s p m m' temp grad, make_param_graded d c k s = Done m -> make_graded d c (k + p) s = Done m' -> param_graded_response m temp grad p = graded_response m' temp grad.
Proof. exact param_graded_plain. Qed.
Print Assumptions C41_temperature_dependent_conductor.
(** a negative sum, refused by the plain conductor, is accepted: heat flows up the gradient *)
Theorem C41_conductor_refuted : exists m, make_param_isotropic 1 1 0 = Done m /\ make_isotropic 1 1 (0 + -1) = Refused /\ ~ admissible (param_isotropic_response m [1] (-1)) [1].
Proof. exact param_isotropic_negative. Qed.
Print Assumptions C41_conductor_refuted.
