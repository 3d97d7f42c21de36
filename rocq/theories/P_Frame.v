(** * C69: a solid carried along by a rigid motion *)
From Coq Require Import NArith ZArith Reals List Lia Lra Bool.
From Verif Require Import Prelude DofCodec Sums Restriction Kernels FunctionalModel Assembly Tensor MatAlg Materials MaterialFacts ShapeAware WeakForm WeakFormFacts WeakFormPhysics WeakFormEx EnergySolid FrameResidual FrameEx.
Import ListNotations.
Local Open Scope R_scope.

(** Let a solid's residual be evaluated for displacements, accelerations and loads, and again after every node was
    carried along by the rigid motion x -> Q x + c, with accelerations and loads turned by Q, pressures acting on the
    deformed surface, and materials whose stress turns with the body.  Then the second evaluation succeeds, and the
    force on every node is the first one turned by Q. *)
Theorem C69_rigid_motion : forall St n (f : functional St) o nn terms pos jac xref Q c t t' Ls Ls' (m m1 m' : mem St) wrt wrt' upd upd' L,
  dim23 n -> wf f (nn * n) (fun w => length (Ls w)) -> all_fit f -> layout f o nn n -> two_spaces n f -> isoparametric n f pos jac xref -> unity f -> implements n f terms pos jac ->
  rotation n Q -> List.Forall (turned n Q t t') terms ->
  evaluate f t wrt upd Ls (nn * n) m = Ok (L, m1) -> solid_residual n f t Ls m terms pos jac ->
  (forall k g le q, m_q m' k g le q = m_q m k g le q) -> (forall w, length (Ls' w) = length (Ls w)) ->
  carried n nn Q c xref (nodal_values o nn n (Ls 0%nat)) (nodal_values o nn n (Ls' 0%nat)) ->
  (forall a i, (a < nn)%nat -> (i < n)%nat -> nodal_values o nn n (Ls' 1%nat) a i = turn n Q (nodal_values o nn n (Ls 1%nat) a) i) ->
  exists L' m1', evaluate f t' wrt' upd' Ls' (nn * n) m' = Ok (L', m1') /\ solid_residual n f t' Ls' m' terms pos jac /\
    forall a i, (a < nn)%nat -> (i < n)%nat -> nodal_values o nn n L' a i = turn n Q (nodal_values o nn n L a) i.
Proof. exact @rigid_motion. Qed.
Print Assumptions C69_rigid_motion.

(** a node is in equilibrium after the motion exactly when it was before *)
Theorem C69_equilibrium : forall St n (f : functional St) o nn terms pos jac xref Q c t t' Ls Ls' (m m1 m' : mem St) wrt wrt' upd upd' L,
  dim23 n -> wf f (nn * n) (fun w => length (Ls w)) -> all_fit f -> layout f o nn n -> two_spaces n f -> isoparametric n f pos jac xref -> unity f -> implements n f terms pos jac ->
  rotation n Q -> List.Forall (turned n Q t t') terms ->
  evaluate f t wrt upd Ls (nn * n) m = Ok (L, m1) -> solid_residual n f t Ls m terms pos jac ->
  (forall k g le q, m_q m' k g le q = m_q m k g le q) -> (forall w, length (Ls' w) = length (Ls w)) ->
  carried n nn Q c xref (nodal_values o nn n (Ls 0%nat)) (nodal_values o nn n (Ls' 0%nat)) ->
  (forall a i, (a < nn)%nat -> (i < n)%nat -> nodal_values o nn n (Ls' 1%nat) a i = turn n Q (nodal_values o nn n (Ls 1%nat) a) i) ->
  exists L' m1', evaluate f t' wrt' upd' Ls' (nn * n) m' = Ok (L', m1') /\
    forall a, (a < nn)%nat -> ((forall i, (i < n)%nat -> nodal_values o nn n L a i = 0) <-> (forall i, (i < n)%nat -> nodal_values o nn n L' a i = 0)).
Proof. exact @equilibrium_kept. Qed.
Print Assumptions C69_equilibrium.

(** the stresses of the St. Venant-Kirchhoff and neo-Hookean materials turn with the body *)
Theorem C69_materials : forall n K G Q t t' rho (St : Type), dim23 n -> rotation n Q ->
  turned n Q t t' (SMaterial true rho (fun _ : St => stvk n K G)) /\ turned n Q t t' (SMaterial true rho (fun _ : St => neo_hookean n K G)).
Proof. exact materials_turn. Qed.
Print Assumptions C69_materials.

(** a stretched, accelerated and loaded triangle, turned by any angle and shifted by any vector *)
Example C69_example : forall s c, dim23 2 /\ wf (ex_terms fr_terms) (3 * 2) (fun w => length (fr_Ls w)) /\ all_fit (ex_terms fr_terms) /\ layout (ex_terms fr_terms) byVDIM 3 2 /\ two_spaces 2 (ex_terms fr_terms) /\
  isoparametric 2 (ex_terms fr_terms) ex_pos ex_jac xref /\ unity (ex_terms fr_terms) /\ implements 2 (ex_terms fr_terms) fr_terms ex_pos ex_jac /\ rotation 2 (spin s) /\ List.Forall (turned 2 (spin s) 0 s) fr_terms /\
  (exists L m1, evaluate (ex_terms fr_terms) 0 None false fr_Ls (3 * 2) ex_mem = Ok (L, m1)) /\ solid_residual 2 (ex_terms fr_terms) 0 fr_Ls ex_mem fr_terms ex_pos ex_jac /\
  (forall w, length (fr_moved s c w) = length (fr_Ls w)) /\
  carried 2 3 (spin s) c xref (nodal_values byVDIM 3 2 (fr_Ls 0)) (nodal_values byVDIM 3 2 (fr_moved s c 0)) /\
  (forall a i, (a < 3)%nat -> (i < 2)%nat -> nodal_values byVDIM 3 2 (fr_moved s c 1) a i = turn 2 (spin s) (nodal_values byVDIM 3 2 (fr_Ls 1) a) i).
Proof. exact fr_all. Qed.

(** with geometric nonlinearities off the same is false: turning a linear elastic triangle at rest by half a turn
    makes forces *)
Theorem C69_needs_nonlinear_geometry : exists (f : functional unit) terms pos jac Q Ls Ls' m L m1 L' m1',
  wf f (3 * 2) (fun w => length (Ls w)) /\ all_fit f /\ layout f byVDIM 3 2 /\ two_spaces 2 f /\ isoparametric 2 f pos jac xref /\ unity f /\ rotation 2 Q /\
  List.Forall (linear_elastic 2) terms /\ solid_residual 2 f 0 Ls m terms pos jac /\ solid_residual 2 f 0 Ls' m terms pos jac /\
  evaluate f 0 None false Ls (3 * 2) m = Ok (L, m1) /\ evaluate f 0 None false Ls' (3 * 2) m = Ok (L', m1') /\
  carried 2 3 Q (fun _ => 0) xref (nodal_values byVDIM 3 2 (Ls 0%nat)) (nodal_values byVDIM 3 2 (Ls' 0%nat)) /\
  (forall a i, (a < 3)%nat -> (i < 2)%nat -> nodal_values byVDIM 3 2 (Ls' 1%nat) a i = turn 2 Q (nodal_values byVDIM 3 2 (Ls 1%nat) a) i) /\
  (forall i, (i < 6)%nat -> nth i L 0 = 0) /\ exists i, (i < 6)%nat /\ nth i L' 0 <> 0.
Proof. exact small_displacements_feel_rotation. Qed.
Print Assumptions C69_needs_nonlinear_geometry.
