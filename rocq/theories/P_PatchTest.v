(** * C72: a uniformly strained mesh carries no force at its inner nodes *)
From Coq Require Import NArith ZArith Reals List Lia Bool Permutation.
From Verif Require Import Prelude DofCodec Sums Restriction Kernels FunctionalModel Assembly Tensor MatAlg Materials ShapeAware ShapeDefs WeakForm WeakFormFacts WeakFormPhysics WeakFormEx EnergySolid FrameResidual PatchTest PatchMesh PatchGeom PatchEx PatchLoad PatchSkin PatchLoadEx.
Import ListNotations.
Local Open Scope R_scope.

(** elements of any shape and order: displacements which are an affine function of the position give at every node the stress
    applied to the integral of the gradient of the shape function of the node *)
Theorem C72_nodal_force : forall St n (f : functional St) o nn terms pos jac xref A c (P : nat -> mat) t wrt upd Ls (m m' : mem St) L,
  dim23 n -> wf f (nn * n) (fun w => length (Ls w)) -> all_fit f -> layout f o nn n -> two_spaces n f -> isoparametric n f pos jac xref -> unity f ->
  evaluate f t wrt upd Ls (nn * n) m = Ok (L, m') -> solid_residual n f t Ls m terms pos jac ->
  affine n n nn A c xref (nodal_values o nn n (Ls 0%nat)) -> (forall a i, (a < nn)%nat -> (i < n)%nat -> nodal_values o nn n (Ls 1%nat) a i = 0) ->
  (forall k T, nth_error terms k = Some T -> responds n A (P k) T) ->
  forall a i, (a < nn)%nat -> (i < n)%nat -> off_surface n f a ->
  nodal_values o nn n L a i = sumn (length (f_integrals f)) (fun k => sumn n (fun j => P k i j * gradient_integral n f jac k a j)).
Proof. exact (fun St n f o nn terms pos jac xref A c P t wrt upd Ls m m' L D => @patch_force St n D f o nn terms pos jac xref A c P t wrt upd Ls m m' L). Qed.
Print Assumptions C72_nodal_force.

(** linear triangles, quads, tetrahedra and hexes, in any combination: the stress applied to the area vectors of the faces
    which meet at the node *)
Theorem C72_area_vectors : forall St n (f : functional St) o nn terms pos jac xref kappa s A c (P : nat -> mat) t wrt upd Ls (m m' : mem St) L,
  dim23 n -> wf f (nn * n) (fun w => length (Ls w)) -> all_fit f -> layout f o nn n -> two_spaces n f -> isoparametric n f pos jac xref -> unity f -> linear_mesh n f jac kappa s ->
  evaluate f t wrt upd Ls (nn * n) m = Ok (L, m') -> solid_residual n f t Ls m terms pos jac ->
  affine n n nn A c xref (nodal_values o nn n (Ls 0%nat)) -> (forall a i, (a < nn)%nat -> (i < n)%nat -> nodal_values o nn n (Ls 1%nat) a i = 0) ->
  (forall k T, nth_error terms k = Some T -> responds n A (P k) T) ->
  forall a i, (a < nn)%nat -> (i < n)%nat -> off_surface n f a ->
  nodal_values o nn n L a i = kappa * sumn (length (f_integrals f)) (fun k => sumn n (fun j => P k i j * suml (faces_at n f k a) (fun p => area_vec xref a p j))).
Proof. exact @reaction. Qed.
Print Assumptions C72_area_vectors.

(** an inner node, every face around it being shared by two elements, is in equilibrium *)
Theorem C72_inner_node : forall St n (f : functional St) o nn terms pos jac xref kappa s A c (P : mat) t wrt upd Ls (m m' : mem St) L,
  dim23 n -> wf f (nn * n) (fun w => length (Ls w)) -> all_fit f -> layout f o nn n -> two_spaces n f -> isoparametric n f pos jac xref -> unity f -> linear_mesh n f jac kappa s ->
  evaluate f t wrt upd Ls (nn * n) m = Ok (L, m') -> solid_residual n f t Ls m terms pos jac ->
  affine n n nn A c xref (nodal_values o nn n (Ls 0%nat)) -> (forall a i, (a < nn)%nat -> (i < n)%nat -> nodal_values o nn n (Ls 1%nat) a i = 0) ->
  List.Forall (responds n A P) terms ->
  forall a, (a < nn)%nat -> off_surface n f a -> Permutation (all_faces n f a) (map flip (all_faces n f a)) ->
  forall i, (i < n)%nat -> nodal_values o nn n L a i = 0.
Proof. exact @patch. Qed.
Print Assumptions C72_inner_node.

(** several materials: a node inside each of the regions it belongs to *)
Theorem C72_regions : forall St n (f : functional St) o nn terms pos jac xref kappa s A c (P : nat -> mat) t wrt upd Ls (m m' : mem St) L,
  dim23 n -> wf f (nn * n) (fun w => length (Ls w)) -> all_fit f -> layout f o nn n -> two_spaces n f -> isoparametric n f pos jac xref -> unity f -> linear_mesh n f jac kappa s ->
  evaluate f t wrt upd Ls (nn * n) m = Ok (L, m') -> solid_residual n f t Ls m terms pos jac ->
  affine n n nn A c xref (nodal_values o nn n (Ls 0%nat)) -> (forall a i, (a < nn)%nat -> (i < n)%nat -> nodal_values o nn n (Ls 1%nat) a i = 0) ->
  (forall k T, nth_error terms k = Some T -> responds n A (P k) T) ->
  forall a, (a < nn)%nat -> off_surface n f a -> (forall k, surrounded n f k a) ->
  forall i, (i < n)%nat -> nodal_values o nn n L a i = 0.
Proof. exact @patch_regions. Qed.
Print Assumptions C72_regions.

(** the same for heat: temperatures which are an affine function of the position *)
Theorem C72_heat : forall St n (f : functional St) o nn terms pos jac grad xref kappa s A c (q : vec) t wrt upd Ls (m m' : mem St) L,
  dim23 n -> wf f (nn * 1) (fun w => length (Ls w)) -> all_fit f -> layout f o nn 1 -> two_spaces 1 f -> isoparametric n f pos jac xref -> unity f -> linear_mesh n f jac kappa s ->
  evaluate f t wrt upd Ls (nn * 1) m = Ok (L, m') -> heat_residual n f t Ls m terms pos jac grad ->
  affine n 1 nn A c xref (nodal_values o nn 1 (Ls 0%nat)) -> (forall a, (a < nn)%nat -> nodal_values o nn 1 (Ls 1%nat) a 0%nat = 0) ->
  List.Forall (conducts n (A 0%nat) q) terms ->
  forall a, (a < nn)%nat -> off_surface n f a ->
  nodal_values o nn 1 L a 0%nat = - kappa * sumn n (fun j => q j * suml (all_faces n f a) (fun p => area_vec xref a p j)) /\
  (Permutation (all_faces n f a) (map flip (all_faces n f a)) -> nodal_values o nn 1 L a 0%nat = 0).
Proof. exact @heat_patch. Qed.
Print Assumptions C72_heat.

(** under the loads of the uniform stress: elements of any shape and order *)
Theorem C72_loaded_force : forall St n (f : functional St) o nn terms pos jac xref A c (P : nat -> mat) t wrt upd Ls (m m' : mem St) L,
  dim23 n -> wf f (nn * n) (fun w => length (Ls w)) -> all_fit f -> layout f o nn n -> two_spaces n f -> isoparametric n f pos jac xref -> unity f ->
  evaluate f t wrt upd Ls (nn * n) m = Ok (L, m') -> solid_residual n f t Ls m terms pos jac ->
  affine n n nn A c xref (nodal_values o nn n (Ls 0%nat)) -> (forall a i, (a < nn)%nat -> (i < n)%nat -> nodal_values o nn n (Ls 1%nat) a i = 0) ->
  (forall k T, nth_error terms k = Some T -> responds n A (P k) T) ->
  forall a i, (a < nn)%nat -> (i < n)%nat -> (forall k T, nth_error terms k = Some T -> touches n f k a -> pulls n t A (P k) T) ->
  nodal_values o nn n L a i = sumn (length (f_integrals f)) (fun k => sumn n (fun j => P k i j * (gradient_integral n f jac k a j - normal_integral n f jac k a j))).
Proof. exact (fun St n f o nn terms pos jac xref A c P t wrt upd Ls m m' L D => @loaded_force St n D f o nn terms pos jac xref A c P t wrt upd Ls m m' L). Qed.
Print Assumptions C72_loaded_force.
(** linear elements: every node is in equilibrium, on the boundary too, when its boundary faces carry the traction or the pressure of the uniform stress *)
Theorem C72_loaded : forall St n (f : functional St) o nn terms pos jac xref kappa s A c (P : mat) t wrt upd Ls (m m' : mem St) L,
  dim23 n -> wf f (nn * n) (fun w => length (Ls w)) -> all_fit f -> layout f o nn n -> two_spaces n f -> isoparametric n f pos jac xref -> unity f ->
  linear_mesh n f jac kappa s -> linear_skin n f kappa s ->
  evaluate f t wrt upd Ls (nn * n) m = Ok (L, m') -> solid_residual n f t Ls m terms pos jac ->
  affine n n nn A c xref (nodal_values o nn n (Ls 0%nat)) -> (forall a i, (a < nn)%nat -> (i < n)%nat -> nodal_values o nn n (Ls 1%nat) a i = 0) ->
  List.Forall (responds n A P) terms ->
  forall a, (a < nn)%nat -> (forall k T, nth_error terms k = Some T -> touches n f k a -> pulls n t A P T) -> enclosed n f a ->
  forall i, (i < n)%nat -> nodal_values o nn n L a i = 0.
Proof. exact @loaded_patch. Qed.
Print Assumptions C72_loaded.
Theorem C72_loaded_heat : forall St n (f : functional St) o nn terms pos jac grad xref kappa s A c (q : vec) t wrt upd Ls (m m' : mem St) L,
  dim23 n -> wf f (nn * 1) (fun w => length (Ls w)) -> all_fit f -> layout f o nn 1 -> two_spaces 1 f -> isoparametric n f pos jac xref -> unity f ->
  linear_mesh n f jac kappa s -> linear_skin n f kappa s ->
  evaluate f t wrt upd Ls (nn * 1) m = Ok (L, m') -> heat_residual n f t Ls m terms pos jac grad ->
  affine n 1 nn A c xref (nodal_values o nn 1 (Ls 0%nat)) -> (forall a, (a < nn)%nat -> nodal_values o nn 1 (Ls 1%nat) a 0%nat = 0) ->
  List.Forall (conducts n (A 0%nat) q) terms ->
  forall a, (a < nn)%nat -> (forall k T, nth_error terms k = Some T -> touches n f k a -> flows n t q T) -> enclosed n f a -> nodal_values o nn 1 L a 0%nat = 0.
Proof. exact @loaded_heat_patch. Qed.
Print Assumptions C72_loaded_heat.
(** a uniform pressure, on the reference surface without and on the deformed surface with geometric nonlinearities, balances a hydrostatic stress *)
Theorem C72_pressure : forall St n on A (sg P : mat) p0 t, dim23 n -> flux n on sg A = Some P -> meq n sg (mscal (- p0) ident) -> pulls (St := St) n t A P (SPressure on (fun _ _ => p0)).
Proof. exact @pressure_pulls. Qed.
Print Assumptions C72_pressure.

(** a material without state answers a uniform gradient with a uniform stress; St. Venant-Kirchhoff and neo-Hookean are such *)
Theorem C72_materials : (forall St n on rho sigma A s P, dim23 n -> respects n sigma -> sigma A = Some s -> flux n on s A = Some P ->
    responds n A P (SMaterial on rho (fun _ : St => sigma))) /\
  forall n K G, dim23 n -> respects n (stvk n K G) /\ respects n (neo_hookean n K G).
Proof. exact (conj (@stateless) materials_respect). Qed.
Print Assumptions C72_materials.

(** a square of four unequal triangles, stretched and sheared, with one loaded edge *)
Example C72_example : dim23 2 /\ wf pf (5 * 2) (fun w => length (pLs w)) /\ all_fit pf /\ layout pf byVDIM 5 2 /\ two_spaces 2 pf /\ isoparametric 2 pf ppos pjac px /\ unity pf /\
  linear_mesh 2 pf pjac 1 (sqrt 5) /\ (exists L m', evaluate pf 0 None false pLs (5 * 2) ex_mem = Ok (L, m')) /\ solid_residual 2 pf 0 pLs ex_mem pterms ppos pjac /\
  affine 2 2 5 pA pc px (nodal_values byVDIM 5 2 (pLs 0%nat)) /\ (forall a i, (a < 5)%nat -> (i < 2)%nat -> nodal_values byVDIM 5 2 (pLs 1%nat) a i = 0) /\
  (exists P, List.Forall (responds 2 pA P) pterms) /\ off_surface 2 pf 4 /\ Permutation (all_faces 2 pf 4) (map flip (all_faces 2 pf 4)).
Proof. exact (conj (or_introl eq_refl) (conj p_wf (conj p_fit (conj p_layout (conj p_spaces (conj p_iso (conj p_unity (conj p_linear (conj p_evaluates (conj p_residual (conj p_affine (conj p_rest (conj p_responds (conj p_off p_closed)))))))))))))). Qed.
(** the middle node of a block of eight hexes is an inner node *)
Example C72_block : length block_faces = 24%nat /\ Permutation block_faces (map flip block_faces).
Proof. exact block_closed. Qed.
(** the square with the traction of the uniform stress on all four edges: every node, four of them loaded *)
Example C72_loaded_example : wf lf (5 * 2) (fun w => length (pLs w)) /\ all_fit lf /\ layout lf byVDIM 5 2 /\ two_spaces 2 lf /\ isoparametric 2 lf lpos ljac px /\ unity lf /\
  linear_mesh 2 lf ljac 1 (sqrt 5) /\ linear_skin 2 lf 1 (sqrt 5) /\ (exists L m', evaluate lf 0 None false pLs (5 * 2) ex_mem = Ok (L, m')) /\ solid_residual 2 lf 0 pLs ex_mem [lT 0; lT 1] lpos ljac /\
  List.Forall (responds 2 pA lP) [lT 0; lT 1] /\ (forall a k T, nth_error [lT 0; lT 1] k = Some T -> touches 2 lf k a -> pulls 2 0 pA lP T) /\ touches 2 lf 1 0 /\ (forall a, (a < 5)%nat -> enclosed 2 lf a).
Proof. exact (conj l_wf (conj l_fit (conj l_layout (conj l_spaces (conj l_iso (conj l_unity (conj l_linear (conj l_skin (conj l_evaluates (conj l_residual (conj l_responds (conj l_pulls (conj l_touched l_enclosed))))))))))))). Qed.
