(** * C57: the residual is the weak form; balance of momentum, angular momentum and heat *)
From Coq Require Import Reals List.
From Verif Require Import Prelude DofCodec Sums Restriction Kernels FunctionalModel Tensor MatAlg Materials ShapeAware WeakForm WeakFormFacts WeakFormPhysics WeakFormWork WeakFormEx.
Import ListNotations.
Local Open Scope R_scope.

(** ** virtual work: the residual tested with any vector is the integral of (q-function output) times (interpolated vector) *)
Theorem C57_virtual_work : forall St (f : functional St) t wrt upd Ls lsize m L' m', wf f lsize (fun w => length (Ls w)) -> all_fit f ->
  evaluate f t wrt upd Ls lsize m = Ok (L', m') -> forall v,
  sumn lsize (fun k => nth k L' 0 * nth k v 0) =
  over_points f (fun n Ig g G r le q => sumn (es_c (gk_test G)) (fun i => sumn (gk_dim1 G) (fun b =>
     qf_out f t Ls m n Ig g G le q i b * test_field G r v le q i b))).
Proof. exact @virtual_work. Qed.
Print Assumptions C57_virtual_work.

(** ** at a point, what the q-function returns does the same work on the physical argument as its pull-back on the parent argument, times
    the volume ratio: for every family of spaces, in 2 and 3 dimensions *)
Theorem C57_conjugate : forall n s J u v pu pv, dim23 n -> parent_to_physical n (fam s) J u = Some pu -> physical_to_parent n (fam s) J v = Some pv ->
  pair_dot n s pv u = detn n J * pair_dot n s v pu.
Proof. exact conjugate. Qed.
Print Assumptions C57_conjugate.

(** ** the total of a residual component is the integral of its source: fluxes cancel *)
Theorem C57_total : forall St (f : functional St) t wrt upd Ls m m' L' o nn nc,
  wf f (nn * nc) (fun w => length (Ls w)) -> all_fit f -> layout f o nn nc -> evaluate f t wrt upd Ls (nn * nc) m = Ok (L', m') ->
  forall i, (i < nc)%nat -> unity f -> total o nn nc L' i = over_points f (fun n Ig g G r le q => qf_out f t Ls m n Ig g G le q i 0%nat).
Proof. exact @balance. Qed.
Print Assumptions C57_total.

(** ** momentum: the total of a solid's residual is inertia, minus body forces, minus tractions, plus pressure times area vector *)
Theorem C57_momentum : forall St n, dim23 n -> forall (f : functional St) t wrt upd Ls m m' L' o nn terms pos jac,
  wf f (nn * n) (fun w => length (Ls w)) -> all_fit f -> layout f o nn n -> evaluate f t wrt upd Ls (nn * n) m = Ok (L', m') ->
  solid_residual n f t Ls m terms pos jac -> forall i, (i < n)%nat -> unity f ->
  total o nn n L' i = over_points f (fun k Ig g G r le q => match nth_error terms k with
    | Some T => solid_force n T t (pos k g le q) (jac k g le q) (qf_inputs G g (Es_of f Ls Ig) le q 0%nat) (qf_inputs G g (Es_of f Ls Ig) le q 1%nat) i
    | None => 0 end).
Proof. exact @momentum. Qed.
Print Assumptions C57_momentum.
Theorem C57_stresses_balance : forall St n (f : functional St) t wrt upd Ls m m' L' o nn terms pos jac, dim23 n ->
  wf f (nn * n) (fun w => length (Ls w)) -> all_fit f -> layout f o nn n -> evaluate f t wrt upd Ls (nn * n) m = Ok (L', m') ->
  solid_residual n f t Ls m terms pos jac -> unity f -> (forall k T, nth_error terms k = Some T -> exists on sigma, T = SMaterial on 0 sigma) ->
  forall i, (i < n)%nat -> total o nn n L' i = 0.
Proof. exact @stresses_balance. Qed.
Print Assumptions C57_stresses_balance.
(** a triangle with a stretched material, a body force, a traction and a pressure on one edge *)
Example C57_triangle : wf solid_f (3 * 2) (fun w => length (solid_Ls w)) /\ all_fit solid_f /\ layout solid_f byVDIM 3 2 /\ unity solid_f /\
  solid_residual 2 solid_f 0 solid_Ls ex_mem solid_terms ex_pos ex_jac /\
  exists L' m', evaluate solid_f 0 None false solid_Ls (3 * 2) ex_mem = Ok (L', m').
Proof. exact ex_solid_all. Qed.

(** ** angular momentum: with a symmetric Cauchy stress only inertia and loads contribute to the moments of the nodal forces, taken at the
    deformed positions with geometric nonlinearity and at the reference positions without *)
Theorem C57_angular_momentum : forall St n, dim23 n -> forall (f : functional St) t wrt upd Ls m m' L' o nn terms pos jac,
  wf f (nn * n) (fun w => length (Ls w)) -> all_fit f -> layout f o nn n -> evaluate f t wrt upd Ls (nn * n) m = Ok (L', m') ->
  solid_residual n f t Ls m terms pos jac -> forall on xref i l, (i < n)%nat -> (l < n)%nat -> same_spaces f -> isoparametric n f pos jac xref ->
  (forall k on' rho sigma, nth_error terms k = Some (SMaterial on' rho sigma) -> on' = on /\ forall st H s, sigma st H = Some s -> symmetric n s) ->
  sumn nn (fun a => node_position n Ls o nn on xref a l * nth (dof_number o nn n a i) L' 0 - node_position n Ls o nn on xref a i * nth (dof_number o nn n a l) L' 0) =
  over_points f (fun k Ig g G r le q => match nth_error terms k with
    | Some T => let F := solid_force n T t (pos k g le q) (jac k g le q) (qf_inputs G g (Es_of f Ls Ig) le q 0%nat) (qf_inputs G g (Es_of f Ls Ig) le q 1%nat) in
        point_position f Ls pos on k g le q G Ig l * F i - point_position f Ls pos on k g le q G Ig i * F l
    | None => 0 end).
Proof. exact @angular_momentum. Qed.
Print Assumptions C57_angular_momentum.
Example C57_triangle_moments : same_spaces solid_f /\ isoparametric 2 solid_f ex_pos ex_jac xref /\
  (forall k on' rho sigma, nth_error solid_terms k = Some (SMaterial on' rho sigma) -> on' = true /\ forall st H s, sigma st H = Some s -> symmetric 2 s).
Proof. exact ex_solid_moments. Qed.

(** ** heat: the total of a heat residual is stored heat, minus sources, plus the boundary fluxes, for any conduction law *)
Theorem C57_heat : forall St n f t wrt upd Ls (m m' : mem St) L' o nn terms pos jac grad, dim23 n ->
  wf f (nn * 1) (fun w => length (Ls w)) -> all_fit f -> layout f o nn 1 -> evaluate f t wrt upd Ls (nn * 1) m = Ok (L', m') ->
  heat_residual n f t Ls m terms pos jac grad -> unity f ->
  total o nn 1 L' 0%nat = over_points f (fun k Ig g G r le q => match nth_error terms k with
    | Some T => heat_rate n T t (pos k g le q) (jac k g le q) (qf_inputs G g (Es_of f Ls Ig) le q 0%nat) (qf_inputs G g (Es_of f Ls Ig) le q 1%nat) (grad k g le q)
    | None => 0 end).
Proof. exact @heat_balance. Qed.
Print Assumptions C57_heat.
Example C57_heated_triangle : wf heat_f (3 * 1) (fun w => length (heat_Ls w)) /\ all_fit heat_f /\ layout heat_f byVDIM 3 1 /\ unity heat_f /\
  heat_residual 2 heat_f 0 heat_Ls ex_mem heat_terms ex_pos ex_jac heat_grad /\
  exists L' m', evaluate heat_f 0 None false heat_Ls (3 * 1) ex_mem = Ok (L', m').
Proof. exact ex_heat_all. Qed.

(** ** the area vector of a boundary point: orthogonal to the tangents, as long as they span area, and right-handed *)
Theorem C57_area_vector : forall n D, dim23 n ->
  (forall v, sumn n (fun i => crossn n D i * v i) = detn n (bordered v D)) /\
  (forall c, (c < n - 1)%nat -> sumn n (fun i => crossn n D i * D i c) = 0) /\
  sumn n (fun i => crossn n D i * crossn n D i) = (if Nat.eqb n 2 then gram n D 0 0 else gram n D 0 0 * gram n D 1 1 - gram n D 0 1 * gram n D 0 1).
Proof. exact area_vector. Qed.
Print Assumptions C57_area_vector.

(** ** virtual power of a solid: the residual tested with any nodal field [h] is inertia plus stress power minus the power of the loads *)
Theorem C57_solid_power : forall St n (f : functional St) t wrt upd Ls m m' L' o nn terms pos jac, dim23 n ->
  wf f (nn * n) (fun w => length (Ls w)) -> all_fit f -> layout f o nn n -> evaluate f t wrt upd Ls (nn * n) m = Ok (L', m') ->
  solid_residual n f t Ls m terms pos jac -> forall h grad gradw stress,
  (forall k Ig g G r le q T, nth_error (f_integrals f) k = Some Ig -> nth_error (i_geoms Ig) g = Some G -> nth_error (f_test f (i_type Ig)) g = Some r ->
     (le < length (gk_elems G))%nat -> (q < gk_nq G)%nat -> nth_error terms k = Some T ->
     (is_volume T = true -> grad_phys n (jac k g le q) (qf_inputs G g (Es_of f Ls Ig) le q 0%nat) = Some (grad k g le q) /\
                            grad_phys n (jac k g le q) (field_at G r h le q) = Some (gradw k g le q)) /\
     is_piola n T (m_q m k g le q) (grad k g le q) (stress k g le q)) ->
  sumn nn (fun a => sumn n (fun c => nth (dof_number o nn n a c) L' 0 * h a c)) =
  over_points f (fun k Ig g G r le q => match nth_error terms k with Some T =>
     solid_power n T t (pos k g le q) (jac k g le q) (qf_inputs G g (Es_of f Ls Ig) le q 0%nat) (qf_inputs G g (Es_of f Ls Ig) le q 1%nat)
        (field_at G r h le q) (stress k g le q) (gradw k g le q) | None => 0 end).
Proof. exact @solid_work. Qed.
Print Assumptions C57_solid_power.
(** such gradients and stresses exist for every test field wherever the residual is defined *)
Theorem C57_solid_power_defined : forall St n (f : functional St) t Ls m terms pos jac, dim23 n -> solid_residual n f t Ls m terms pos jac -> forall h, exists grad gradw stress,
  forall k Ig g G r le q T, nth_error (f_integrals f) k = Some Ig -> nth_error (i_geoms Ig) g = Some G -> nth_error (f_test f (i_type Ig)) g = Some r ->
     (le < length (gk_elems G))%nat -> (q < gk_nq G)%nat -> nth_error terms k = Some T ->
     (is_volume T = true -> grad_phys n (jac k g le q) (qf_inputs G g (Es_of f Ls Ig) le q 0%nat) = Some (grad k g le q) /\
                            grad_phys n (jac k g le q) (field_at G r h le q) = Some (gradw k g le q)) /\
     is_piola n T (m_q m k g le q) (grad k g le q) (stress k g le q).
Proof. exact @solid_work_gradients. Qed.
Print Assumptions C57_solid_power_defined.

(** ** heat: the residual tested with any nodal field is stored heat minus the flux along its gradient minus sources plus boundary fluxes *)
Theorem C57_heat_power : forall St n (f : functional St) t wrt upd Ls m m' L' o nn terms pos jac grad, dim23 n ->
  wf f (nn * 1) (fun w => length (Ls w)) -> all_fit f -> layout f o nn 1 -> evaluate f t wrt upd Ls (nn * 1) m = Ok (L', m') ->
  heat_residual n f t Ls m terms pos jac grad -> forall h gradw,
  (forall k Ig g G r le q T, nth_error (f_integrals f) k = Some Ig -> nth_error (i_geoms Ig) g = Some G -> nth_error (f_test f (i_type Ig)) g = Some r ->
     (le < length (gk_elems G))%nat -> (q < gk_nq G)%nat -> nth_error terms k = Some T -> is_volume_h T = true ->
     grad_phys n (jac k g le q) (field_at G r (fun a _ => h a) le q) = Some (gradw k g le q)) ->
  sumn nn (fun a => nth (dof_number o nn 1 a 0) L' 0 * h a) =
  over_points f (fun k Ig g G r le q => match nth_error terms k with Some T =>
     heat_power n T t (pos k g le q) (jac k g le q) (qf_inputs G g (Es_of f Ls Ig) le q 0%nat) (qf_inputs G g (Es_of f Ls Ig) le q 1%nat)
        (field_at G r (fun a _ => h a) le q) (grad k g le q) (gradw k g le q) | None => 0 end).
Proof. exact @heat_work. Qed.
Print Assumptions C57_heat_power.
Theorem C57_heat_power_defined : forall St n (f : functional St) t Ls m terms pos jac grad, dim23 n -> heat_residual n f t Ls m terms pos jac grad -> forall h, exists gradw,
  forall k Ig g G r le q T, nth_error (f_integrals f) k = Some Ig -> nth_error (i_geoms Ig) g = Some G -> nth_error (f_test f (i_type Ig)) g = Some r ->
     (le < length (gk_elems G))%nat -> (q < gk_nq G)%nat -> nth_error terms k = Some T -> is_volume_h T = true ->
     grad_phys n (jac k g le q) (field_at G r (fun a _ => h a) le q) = Some (gradw k g le q).
Proof. exact @heat_work_gradients. Qed.
Print Assumptions C57_heat_power_defined.
(** in particular, heat conducted down the temperature gradient can only be dissipated *)
Theorem C57_conduction_dissipates : forall St n (f : functional St) t wrt upd Ls m m' L' o nn terms pos jac grad, dim23 n ->
  wf f (nn * 1) (fun w => length (Ls w)) -> all_fit f -> layout f o nn 1 -> evaluate f t wrt upd Ls (nn * 1) m = Ok (L', m') ->
  heat_residual n f t Ls m terms pos jac grad -> same_spaces f ->
  (forall k T, nth_error terms k = Some T -> exists mat, T = HMaterial mat /\ forall X u g, sumn n (fun j => snd (mat X u g) j * g j) <= 0) ->
  (forall k Ig g G le q, nth_error (f_integrals f) k = Some Ig -> nth_error (i_geoms Ig) g = Some G -> (le < length (gk_elems G))%nat -> (q < gk_nq G)%nat ->
     0 <= gk_w G q /\ 0 <= detn n (jac k g le q) /\ qf_inputs G g (Es_of f Ls Ig) le q 1%nat 0%nat 0%nat = 0) ->
  0 <= sumn nn (fun a => nth (dof_number o nn 1 a 0) L' 0 * nth (dof_number o nn 1 a 0) (Ls 0%nat) 0).
Proof. exact @conduction_dissipates. Qed.
Print Assumptions C57_conduction_dissipates.
Example C57_conducting_triangle : wf cond_f (3 * 1) (fun w => length (cond_Ls w)) /\ all_fit cond_f /\ layout cond_f byVDIM 3 1 /\
  heat_residual 2 cond_f 0 cond_Ls ex_mem cond_terms ex_pos ex_jac cond_grad /\ same_spaces cond_f /\
  (forall k T, nth_error cond_terms k = Some T -> exists m, T = HMaterial m /\ forall X u g, sumn 2 (fun j => snd (m X u g) j * g j) <= 0) /\
  (forall k Ig g G le q, nth_error (f_integrals cond_f) k = Some Ig -> nth_error (i_geoms Ig) g = Some G -> (le < length (gk_elems G))%nat -> (q < gk_nq G)%nat ->
     0 <= gk_w G q /\ 0 <= detn 2 (ex_jac k g le q) /\ qf_inputs G g (Es_of cond_f cond_Ls Ig) le q 1%nat 0%nat 0%nat = 0) /\
  exists L' m', evaluate cond_f 0 None false cond_Ls (3 * 1) ex_mem = Ok (L', m').
Proof. exact ex_cond_all. Qed.
