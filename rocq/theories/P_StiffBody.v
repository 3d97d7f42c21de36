(** * Property C90: a supported linear elastic body has exactly one equilibrium *)
From Coq Require Import NArith ZArith Reals List Lia Lra Bool.
From Verif Require Import Prelude DofCodec Sums Restriction Kernels FunctionalModel Assembly Tensor MatAlg Materials MaterialFacts ShapeAware ShapeDefs WeakForm WeakFormFacts WeakFormPhysics WeakFormWork WeakFormEx Fit Ode Energy EnergySolid EnergyRun EnergyEx StoredEnergy StoredEnergyUse PatchTest PatchMesh PatchGeom PatchEx StiffBody StiffMesh StiffEx.
Import ListNotations.
Local Open Scope R_scope.

(** a mesh of triangles or tetrahedra which hangs together across edges or faces, clamped at two nodes in the plane or three in space: any load, any prescribed displacements *)
Theorem C90_mesh : forall St n nn o (f : functional St) m terms pos jac xref params, dim23 n -> List.Forall (linear_elastic n) terms -> all_fit f -> two_spaces n f -> layout f o nn n ->
  simplices n f terms -> isoparametric n f pos jac xref -> solid_elements n f terms jac -> stiff n terms -> (forall t x, exists L, nodal_forces n (nn * n) f m terms pos jac params t x rest L) ->
  forall free c0, filled f terms c0 -> (forall c, filled f terms c -> linked n xref (filled f terms) (corner f) c0 c) -> (forall a, (a < nn)%nat -> exists c, filled f terms c /\ corner f c a) ->
  pins n xref (fun a => (a < nn)%nat /\ clamped n nn o free a) ->
  forall t g, exists x, equilibrium n (nn * n) f m terms pos jac params t free g x /\ forall y, equilibrium n (nn * n) f m terms pos jac params t free g y -> forall i, (i < nn * n)%nat -> y i = x i.
Proof. exact @mesh_equilibrium. Qed.
Print Assumptions C90_mesh.
(** any elements: exactly one equilibrium for every load if and only if the supports leave no displacement without strain *)
Theorem C90_one : forall St n N (f : functional St) m terms pos jac params, dim23 n -> List.Forall (linear_elastic n) terms -> all_fit f -> two_spaces n f -> solid_elements n f terms jac -> stiff n terms ->
  (forall t x, exists L, nodal_forces n N f m terms pos jac params t x rest L) ->
  forall free, supported n N f terms jac free <->
  forall t g, exists x, equilibrium n N f m terms pos jac params t free g x /\ forall y, equilibrium n N f m terms pos jac params t free g y -> forall i, (i < N)%nat -> y i = x i.
Proof. exact @one_equilibrium. Qed.
Print Assumptions C90_one.
(** whatever the supports, two equilibria under the same load and supports differ by a displacement without strain *)
Theorem C90_differ : forall St n N (f : functional St) m terms pos jac params, dim23 n -> List.Forall (linear_elastic n) terms -> all_fit f -> two_spaces n f -> solid_elements n f terms jac -> stiff n terms ->
  (forall t x, exists L, nodal_forces n N f m terms pos jac params t x rest L) -> forall t free g x y, equilibrium n N f m terms pos jac params t free g x -> equilibrium n N f m terms pos jac params t free g y ->
  strain_free n N f terms jac (fun i => x i + (-1) * y i).
Proof. exact @equilibria_differ. Qed.
Print Assumptions C90_differ.
(** the strain energy is never negative and vanishes for displacements without strain only *)
Theorem C90_definite : forall St n N (f : functional St) m terms jac, solid_elements n f terms jac -> stiff n terms ->
  forall v, 0 <= stiffness_form n N f m terms jac v v /\ (stiffness_form n N f m terms jac v v = 0 <-> strain_free n N f terms jac v).
Proof. exact @energy_definite. Qed.
Print Assumptions C90_definite.
(** clamping two nodes of a plane mesh, or three nodes of a mesh in space which are not on a line, leaves no displacement without strain *)
Theorem C90_supported : forall St n nn o (f : functional St) terms pos jac xref, dim23 n -> all_fit f -> layout f o nn n -> simplices n f terms -> isoparametric n f pos jac xref -> solid_elements n f terms jac ->
  forall free c0, filled f terms c0 -> (forall c, filled f terms c -> linked n xref (filled f terms) (corner f) c0 c) -> (forall a, (a < nn)%nat -> exists c, filled f terms c /\ corner f c a) ->
  pins n xref (fun a => (a < nn)%nat /\ clamped n nn o free a) -> supported n (nn * n) f terms jac free.
Proof. exact @simplices_supported. Qed.
Print Assumptions C90_supported.
(** the linear isotropic material with positive moduli resists every strain *)
Theorem C90_isotropic : forall St n K G, dim23 n -> 0 < K -> 0 < G -> stiff_law n (fun (_ : St) H => Some (linear_isotropic n K G H)).
Proof. exact isotropic_stiff. Qed.
Print Assumptions C90_isotropic.

(** a square of four triangles clamped at the bottom and loaded by a traction *)
Example C90_nonvacuous : List.Forall (linear_elastic 2) kterms /\ all_fit kf /\ two_spaces 2 kf /\ layout kf byVDIM 5 2 /\ simplices 2 kf kterms /\ isoparametric 2 kf ppos pjac px /\
  solid_elements 2 kf kterms pjac /\ stiff 2 kterms /\ (forall t x, exists L, nodal_forces 2 (5 * 2) kf ex_mem kterms ppos pjac kparams t x rest L) /\
  filled kf kterms (0, 0, 0)%nat /\ (forall c, filled kf kterms c -> linked 2 px (filled kf kterms) (corner kf) (0, 0, 0)%nat c) /\ (forall a, (a < 5)%nat -> exists c, filled kf kterms c /\ corner kf c a) /\
  pins 2 px (fun a => (a < 5)%nat /\ clamped 2 5 byVDIM kfree a).
Proof.
  split; [exact k_linear|]. split; [exact k_fit|]. split; [exact k_spaces|]. split; [exact k_layout|]. split; [exact k_simplices|]. split; [exact k_iso|]. split; [exact k_solid|]. split; [exact k_stiff|]. split; [exact k_forces|].
  split; [exact (k_filled 0 ltac:(lia))|]. split; [intros c H; destruct (k_cells c H) as (le & Hl & ->); now apply k_linked|]. split; [exact k_nodes|exact k_pinned].
Qed.
(** the same square clamped at one node can turn around it: it has no equilibrium, or more than one, under some load *)
Example C90_turning_square : ~ supported 2 (5 * 2) kf kterms pjac kloose /\
  ~ forall t g, exists x, equilibrium 2 (5 * 2) kf ex_mem kterms ppos pjac kparams t kloose g x /\ forall y, equilibrium 2 (5 * 2) kf ex_mem kterms ppos pjac kparams t kloose g y -> forall i, (i < 10)%nat -> y i = x i.
Proof.
  split; [exact k_unsupported|]. intros H. apply k_unsupported.
  exact (proj2 (C90_one Datatypes.unit 2 (5 * 2) kf ex_mem kterms ppos pjac kparams (or_introl eq_refl) k_linear k_fit k_spaces k_solid k_stiff k_forces kloose) H).
Qed.
