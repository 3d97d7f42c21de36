(** * Property C89: the stiffness of an elastic body is symmetric *)
From Coq Require Import NArith ZArith Reals List Lia Lra Bool.
From Coquelicot Require Import Coquelicot.
From Verif Require Import Prelude DofCodec Sums Restriction Csr Kernels FunctionalModel FunctionalGrad FunctionalTotal Assembly Dual LUDeriv Tensor MatAlg Materials MaterialFacts ShapeAware WeakForm WeakFormFacts WeakFormPhysics WeakFormWork WeakFormEx Fit Ode Energy EnergySolid EnergyRun StoredEnergy StoredEnergyUse SymmetricTangent SymmetricMaterials.
From Verif Require Import BoundaryElim Newton QuasiStatic Traced TracedSolid TracedSolidEx SymmetricAssembled SymmetricEx.
Import ListNotations.
Local Open Scope R_scope.

(** ** the matrix the solid module assembles, with the elastic materials of the library *)
Theorem C89_assembled : forall St n N (f : functional St) terms pos jac c tsize t others m u, dim23 n -> all_fit f -> two_spaces n f -> ready f N c tsize ->
  fitting tsize others -> tsize 1%nat = N -> length u = N -> solid_traced n f terms pos jac -> no_inverted_points n f (inputs others u) terms jac ->
  (forall T, In T terms -> matched T) -> forall A, tangent f N c t others m u A ->
  forall i j, (i < N)%nat -> (j < N)%nat -> A i j = A j i.
Proof. exact @assembled_symmetric. Qed.
Print Assumptions C89_assembled.
(** the matrix after the essential boundary conditions have been eliminated; one load's displacement under another load is the other's under the first *)
Theorem C89_solver : forall St n N (f : functional St) terms pos jac c tsize t others m u (d : dofset), dim23 n -> all_fit f -> two_spaces n f -> ready f N c tsize ->
  fitting tsize others -> tsize 1%nat = N -> length u = N -> solid_traced n f terms pos jac -> no_inverted_points n f (inputs others u) terms jac ->
  (forall T, In T terms -> matched T) -> forall A, tangent f N c t others m u A ->
  (forall i j, (i < N)%nat -> (j < N)%nat -> eliminate d A i j = eliminate d A j i) /\
  (forall p q : vec, sumn N (fun i => q i * sumn N (fun j => A i j * p j)) = sumn N (fun i => p i * sumn N (fun j => A i j * q j))).
Proof. exact solver_matrix_symmetric. Qed.
Print Assumptions C89_solver.
(** a stretched and sheared triangle of a Neo-Hookean material with parameters, body force and traction *)
Example C89_assembled_nonvacuous : exists c A, all_fit sy_f /\ two_spaces 2 sy_f /\ ready sy_f 6 c sy_size /\ fitting sy_size sy_others /\ solid_traced 2 sy_f sy_terms ex_pos ex_jac /\
  no_inverted_points 2 sy_f (inputs sy_others [0; 0; 1; 1; 0; 1]) sy_terms ex_jac /\ (forall T, In T sy_terms -> matched T) /\
  tangent sy_f 6 c 0 sy_others ex_mem [0; 0; 1; 1; 0; 1] A.
Proof. exact sy_case. Qed.

(** ** any material: how the nodal forces change when the displacements and accelerations change *)
Theorem C89_rate : forall St n N (f : functional St) m term pos jac params C, dim23 n -> all_fit f -> two_spaces n f ->
  forall t (y a : R -> vec) v b (L : R -> list R) tau w, has_tangents n f term C -> vderive N y tau v -> vderive N a tau b ->
  locally tau (fun s => point_forces n N f m term pos jac params t (y s) (a s) (L s)) ->
  is_derive (fun s => dotn N w (fun i => nth i (L s) 0)) tau (tangent_form n N f m term jac C (y tau) v b w).
Proof. exact @forces_rate. Qed.
Print Assumptions C89_rate.
(** displacements and accelerations moved together, as an implicit time step moves them: the matrix is symmetric when the material tangents are *)
Theorem C89_stiffness : forall St n N (f : functional St) m term pos jac params C, dim23 n -> all_fit f -> two_spaces n f ->
  forall t x a c (L : nat -> R -> list R) (A : mat), has_tangents n f term C -> (forall k g le q, symmetric_tangent (C k g le q)) ->
  (forall j, (j < N)%nat -> locally 0 (fun s => point_forces n N f m term pos jac params t (fun i => x i + s * unit_dof j i) (fun i => a i + s * (c * unit_dof j i)) (L j s))) ->
  (forall i j, (i < N)%nat -> (j < N)%nat -> is_derive (fun s => nth i (L j s) 0) 0 (A i j)) ->
  forall i j, (i < N)%nat -> (j < N)%nat -> A i j = A j i.
Proof. exact @stiffness_symmetric_at. Qed.
Print Assumptions C89_stiffness.

(** ** the tangents of the materials *)
Theorem C89_linear : forall St n rho lambda G, dim23 n ->
  has_tangent n (SMaterial false rho (fun (_ : St) H => Some (iso_stress n lambda G H))) (tangent_linear n lambda G) /\ symmetric_tangent (St := St) (tangent_linear n lambda G).
Proof. exact (fun St n rho lambda G D => conj (linear_tangent St n rho lambda G D) (linear_symmetric St n lambda G)). Qed.
Print Assumptions C89_linear.
Theorem C89_stvk : forall St n rho K G, dim23 n ->
  has_tangent n (SMaterial true rho (fun (_ : St) H => stvk n K G H)) (tangent_stvk n K G) /\ symmetric_tangent (St := St) (tangent_stvk n K G).
Proof. exact (fun St n rho K G D => conj (stvk_tangent St n rho K G D) (stvk_tangent_symmetric St n K G)). Qed.
Print Assumptions C89_stvk.
Theorem C89_neo : forall St n rho lambda G, dim23 n ->
  has_tangent n (SMaterial true rho (fun (_ : St) H => neo n lambda G H)) (tangent_neo n lambda G) /\ symmetric_tangent (St := St) (tangent_neo n lambda G).
Proof. exact (fun St n rho lambda G D => conj (neo_tangent St n rho lambda G D) (neo_tangent_symmetric St n lambda G)). Qed.
Print Assumptions C89_neo.
(** every material which stores an energy *)
Theorem C89_stored : forall St n on rho sigma psi C (st : St) H D E, stores n (SMaterial on rho sigma) psi -> has_tangent n (SMaterial on rho sigma) C ->
  locally_2d (fun a b => exists s P, sigma st (plane H D E a b) = Some s /\ flux n on s (plane H D E a b) = Some P) 0 0 ->
  continuity_2d_pt (fun a b => C st (plane H D E a b) D E) 0 0 -> continuity_2d_pt (fun a b => C st (plane H D E a b) E D) 0 0 ->
  C st H D E = C st H E D.
Proof. exact stored_symmetric. Qed.
Print Assumptions C89_stored.
Example C89_stored_nonvacuous : forall St n rho K G (st : St) H D E, dim23 n ->
  stores n (SMaterial false rho (fun (_ : St) H => Some (linear_isotropic n K G H))) (fun _ => energy_linear n K G) /\
  has_tangent n (SMaterial false rho (fun (_ : St) H => Some (linear_isotropic n K G H))) (tangent_linear n (lame K G) G) /\
  locally_2d (fun a b => exists s P, Some (linear_isotropic n K G (plane H D E a b)) = Some s /\ flux n false s (plane H D E a b) = Some P) 0 0 /\
  continuity_2d_pt (fun a b => tangent_linear n (lame K G) G st (plane H D E a b) D E) 0 0.
Proof. exact linear_stored_case. Qed.

(** ** the hypothesis on the pairing of law and geometry is needed: the small-strain law in the finite-strain residual has no symmetric tangent *)
Theorem C89_mixed_refuted : exists rho K G, 0 < rho /\ 0 < K /\ 0 < G /\
  ~ exists C : unit -> mat -> mat -> mat -> R, has_tangent 2 (SMaterial true rho (fun _ H => Some (linear_isotropic 2 K G H))) C /\ symmetric_tangent C.
Proof. exact mixed_not_symmetric. Qed.
Print Assumptions C89_mixed_refuted.
