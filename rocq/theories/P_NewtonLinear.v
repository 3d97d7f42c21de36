(** * Property C92: the stiffness matrix of a supported linear elastic body is positive definite, and Newton's method solves it in one step *)
From Coq Require Import NArith ZArith Reals List Lia Lra Bool.
From Verif Require Import Prelude DofCodec Sums Restriction Csr Kernels FunctionalModel FunctionalGrad FunctionalTotal Assembly Dual Tensor MatAlg Materials MaterialFacts ShapeAware WeakForm WeakFormFacts WeakFormPhysics WeakFormWork WeakFormEx Fit Ode Energy EnergySolid EnergyRun StoredEnergy StoredEnergyUse.
From Verif Require Import BoundaryElim Newton QuasiStatic Traced TracedSolid TracedSolidEx StiffBody NewtonLinear NewtonLinearEx.
Import ListNotations.
Local Open Scope R_scope.

(** the matrix assembled at any displacement holds the strain energy of pairs of unit displacements: it does not depend on the displacement, the loads or the time *)
Theorem C92_matrix : forall St n N (f : functional St) terms pos jac c tsize others m, dim23 n -> all_fit f -> two_spaces n f -> ready f N c tsize -> fitting tsize others -> tsize 1%nat = N ->
  (forall i, nth i (others 0%nat) 0 = 0) -> solid_traced n f terms pos jac -> List.Forall linear_integrand terms -> regular_elements n f terms jac ->
  forall t u A, length u = N -> tangent f N c t others m u A -> forall i j, (i < N)%nat -> (j < N)%nat -> A i j = stiffness_form n N f m (as_terms n terms) jac (unit i) (unit j).
Proof. exact @assembled_stiffness. Qed.
Print Assumptions C92_matrix.
(** with the held degrees of freedom eliminated it is positive definite if and only if the supports leave no displacement without strain *)
Theorem C92_definite : forall St n N (f : functional St) terms pos jac c tsize others m, dim23 n -> all_fit f -> two_spaces n f -> ready f N c tsize -> fitting tsize others -> tsize 1%nat = N ->
  (forall i, nth i (others 0%nat) 0 = 0) -> solid_traced n f terms pos jac -> List.Forall linear_integrand terms -> regular_elements n f terms jac ->
  forall t u A d, length u = N -> tangent f N c t others m u A ->
  (supported n N f (as_terms n terms) jac (fun i => negb (d i)) <-> forall v, (exists i, (i < N)%nat /\ v i <> 0) -> 0 < sumn N (fun i => v i * sumn N (fun j => eliminate d A i j * v j))).
Proof. exact @definite_supported. Qed.
Print Assumptions C92_definite.
(** the linear system of a Newton step then has exactly one solution *)
Theorem C92_system : forall St n N (f : functional St) terms pos jac c tsize others m, dim23 n -> all_fit f -> two_spaces n f -> ready f N c tsize -> fitting tsize others -> tsize 1%nat = N ->
  (forall i, nth i (others 0%nat) 0 = 0) -> solid_traced n f terms pos jac -> List.Forall linear_integrand terms -> regular_elements n f terms jac ->
  forall t u L A d, length u = N -> tangent f N c t others m u A -> supported n N f (as_terms n terms) jac (fun i => negb (d i)) ->
  exists delta : vec, (forall i, (i < N)%nat -> mvec N (eliminate d A) delta i = if d i then 0 else nth i L 0) /\
    forall delta' : vec, (forall i, (i < N)%nat -> mvec N (eliminate d A) delta' i = if d i then 0 else nth i L 0) -> forall i, (i < N)%nat -> delta' i = delta i.
Proof. exact @newton_system. Qed.
Print Assumptions C92_system.
(** the Newton solver with any line search and an exact linear solver: from any displacement with the prescribed values which it does not accept as it is, it takes exactly one step, reports convergence and ends in equilibrium *)
Theorem C92_newton : forall St n N (f : functional St) terms pos jac c tsize others m, dim23 n -> all_fit f -> two_spaces n f -> ready f N c tsize -> fitting tsize others -> tsize 1%nat = N ->
  (forall i, nth i (others 0%nat) 0 = 0) -> solid_traced n f terms pos jac -> List.Forall linear_integrand terms -> regular_elements n f terms jac ->
  forall t g d F J sys huge o x r0 n0, of_material f N c d m t others F J -> (forall y, sys_res sys y = Some (F y)) -> (forall r, (forall i, (i < N)%nat -> r i = 0) -> sys_norm sys r = Some 0) ->
  (forall y i, (i < N)%nat -> mvec N (J y) (sys_lin sys y (F y)) i = F y i) -> 0 <= o_abs o -> (o_min o <= 1)%nat -> (1 <= o_max o)%nat ->
  (forall i, (i < N)%nat -> d i = true -> x i = g i) -> sys_norm sys (F x) = Some n0 -> Rmax (o_rel o * n0) (o_abs o) < n0 ->
  let res := newton huge sys o x r0 in
  res_verdict res = Converged /\ res_iters res = 1%nat /\ equilibrium n N f m (as_terms n terms) pos jac (fun w => others (w - 1)%nat) t (fun i => negb (d i)) g (pt_x (res_pt res)).
Proof. exact @newton_once. Qed.
Print Assumptions C92_newton.

(** a triangle with body force and traction, two corners held, stretched and sheared before the step *)
Example C92_nonvacuous : forall t, exists c A L, all_fit nl_f /\ two_spaces 2 nl_f /\ ready nl_f 6 c nl_size /\ fitting nl_size nl_others /\ (forall i, nth i (nl_others 0%nat) 0 = 0) /\
  solid_traced 2 nl_f nl_terms ex_pos ex_jac /\ List.Forall linear_integrand nl_terms /\ regular_elements 2 nl_f nl_terms ex_jac /\ force nl_f 6 t nl_others ex_mem [0; 0; 1; 1; 0; 1] L /\
  tangent nl_f 6 c t nl_others ex_mem [0; 0; 1; 1; 0; 1] A /\ supported 2 6 nl_f (as_terms 2 nl_terms) ex_jac (fun i => negb (nl_held i)).
Proof. exact nl_case. Qed.
(** a Newton system for it, with a linear solver which inverts the block of the free corner *)
Example C92_nonvacuous_newton : forall t, exists c sys F J, ready nl_f 6 c nl_size /\ of_material nl_f 6 c nl_held ex_mem t nl_others F J /\ (forall y, sys_res sys y = Some (F y)) /\
  (forall r, (forall i, (i < 6)%nat -> r i = 0) -> sys_norm sys r = Some 0) /\ (forall y i, (i < 6)%nat -> mvec 6 (J y) (sys_lin sys y (F y)) i = F y i).
Proof. exact nl_newton. Qed.
(** held at one corner only, the triangle can turn *)
Example C92_turning : ~ supported 2 6 nl_f (as_terms 2 nl_terms) ex_jac (fun i => negb (nl_loose i)).
Proof. exact nl_unsupported. Qed.
