(** * Property C94: every implicit time step of linear elastodynamics has exactly one answer *)
From Coq Require Import NArith ZArith Reals List Lia Lra Bool.
From Verif Require Import Prelude DofCodec Sums Restriction Kernels FunctionalModel Assembly Tensor MatAlg Materials MaterialFacts ShapeAware ShapeDefs WeakForm WeakFormFacts WeakFormPhysics WeakFormWork WeakFormEx Fit Ode Energy EnergySolid EnergyRun EnergyEx StoredEnergy StoredEnergyUse PatchTest PatchMesh PatchGeom PatchEx StiffBody StiffMesh StiffEx HeatUnique MotionUnique MotionUniqueEx.
Import ListNotations.
Local Open Scope R_scope.

(** a body which C90 calls supported: one acceleration for every step length, predicted displacement, time and prescribed motion of the supports *)
Theorem C94_supported : forall St n N (f : functional St) m terms pos jac params, dim23 n -> List.Forall (linear_elastic n) terms -> all_fit f -> two_spaces n f -> solid_elements n f terms jac -> stiff n terms -> heavy terms ->
  (forall t x a, exists L, nodal_forces n N f m terms pos jac params t x a L) -> forall c0 free, 0 < c0 -> supported n N f terms jac free ->
  forall t u g, exists a, motion_answer n N f m terms pos jac params t c0 free u g a /\ forall a', motion_answer n N f m terms pos jac params t c0 free u g a' -> forall i, (i < N)%nat -> a' i = a i.
Proof. exact @supported_step. Qed.
Print Assumptions C94_supported.
(** any body, held or not: an implicit step has exactly one answer if and only if every motion allowed by the supports strains the material or moves a quadrature point in it *)
Theorem C94_implicit : forall St n N (f : functional St) m terms pos jac params, dim23 n -> List.Forall (linear_elastic n) terms -> all_fit f -> two_spaces n f -> solid_elements n f terms jac -> stiff n terms -> heavy terms ->
  (forall t x a, exists L, nodal_forces n N f m terms pos jac params t x a L) -> forall c0 free, 0 < c0 ->
  (forall t u g, exists a, motion_answer n N f m terms pos jac params t c0 free u g a /\ forall a', motion_answer n N f m terms pos jac params t c0 free u g a' -> forall i, (i < N)%nat -> a' i = a i) <->
  (forall v, strain_free n N f terms jac v -> unmoved n N f terms v -> (forall i, (i < N)%nat -> free i = false -> v i = 0) -> forall i, (i < N)%nat -> v i = 0).
Proof. exact @implicit_step. Qed.
Print Assumptions C94_implicit.
(** an explicit step: if and only if every motion allowed by the supports moves a quadrature point in the material *)
Theorem C94_explicit : forall St n N (f : functional St) m terms pos jac params, dim23 n -> List.Forall (linear_elastic n) terms -> all_fit f -> two_spaces n f -> solid_elements n f terms jac -> stiff n terms -> heavy terms ->
  (forall t x a, exists L, nodal_forces n N f m terms pos jac params t x a L) -> forall free,
  (forall t u g, exists a, motion_answer n N f m terms pos jac params t 0 free u g a /\ forall a', motion_answer n N f m terms pos jac params t 0 free u g a' -> forall i, (i < N)%nat -> a' i = a i) <->
  (forall v, unmoved n N f terms v -> (forall i, (i < N)%nat -> free i = false -> v i = 0) -> forall i, (i < N)%nat -> v i = 0).
Proof. exact @explicit_step. Qed.
Print Assumptions C94_explicit.
(** kinetic energy is never negative and vanishes exactly when no quadrature point in the material moves *)
Theorem C94_kinetic : forall St n N (f : functional St) terms jac, solid_elements n f terms jac -> heavy terms ->
  forall v, 0 <= mass_form n N f terms jac v v /\ (mass_form n N f terms jac v v = 0 <-> unmoved n N f terms v).
Proof. exact @mass_definite. Qed.
Print Assumptions C94_kinetic.

(** the square of four triangles clamped at the bottom *)
Example C94_nonvacuous : List.Forall (linear_elastic 2) kterms /\ all_fit kf /\ two_spaces 2 kf /\ solid_elements 2 kf kterms pjac /\ stiff 2 kterms /\ heavy kterms /\
  (forall t x a, exists L, nodal_forces 2 (5 * 2) kf ex_mem kterms ppos pjac kparams t x a L) /\ supported 2 (5 * 2) kf kterms pjac kfree.
Proof.
  split; [exact k_linear|]. split; [exact k_fit|]. split; [exact k_spaces|]. split; [exact k_solid|]. split; [exact k_stiff|]. split; [exact k_heavy|]. split; [exact k_moving|].
  refine (simplices_supported 2 5 byVDIM kf kterms ppos pjac px (or_introl eq_refl) k_fit k_layout k_simplices k_iso k_solid kfree (0, 0, 0)%nat (k_filled 0 ltac:(lia)) _ k_nodes k_pinned).
  intros c H. destruct (k_cells c H) as (le & Hl & ->). now apply k_linked.
Qed.
(** the same square in free flight, where C90 finds no unique equilibrium: every implicit step still has exactly one answer *)
Example C94_free_flight : forall t u g, exists a, motion_answer 2 (5 * 2) kf ex_mem kterms ppos pjac kparams t (/ 4) flying u g a /\
  forall a', motion_answer 2 (5 * 2) kf ex_mem kterms ppos pjac kparams t (/ 4) flying u g a' -> forall i, (i < 10)%nat -> a' i = a i.
Proof.
  apply (proj2 (C94_implicit Datatypes.unit 2 (5 * 2) kf ex_mem kterms ppos pjac kparams (or_introl eq_refl) k_linear k_fit k_spaces k_solid k_stiff k_heavy k_moving (/ 4) flying ltac:(lra))).
  intros v A B _. exact (k_flight v A B).
Qed.
(** its explicit steps have not: one quadrature point in each triangle leaves the mass matrix singular *)
Example C94_hourglass : ~ forall t u g, exists a, motion_answer 2 (5 * 2) kf ex_mem kterms ppos pjac kparams t 0 flying u g a /\
  forall a', motion_answer 2 (5 * 2) kf ex_mem kterms ppos pjac kparams t 0 flying u g a' -> forall i, (i < 10)%nat -> a' i = a i.
Proof.
  intros H. assert (Q := proj1 (C94_explicit Datatypes.unit 2 (5 * 2) kf ex_mem kterms ppos pjac kparams (or_introl eq_refl) k_linear k_fit k_spaces k_solid k_stiff k_heavy k_moving flying) H hourglass k_hourglass ltac:(discriminate) 0%nat ltac:(lia)).
  cbn in Q. lra.
Qed.
