(** * C85: a uniform pressure on a closed surface *)
From Coq Require Import NArith ZArith Reals List Lia Bool Permutation.
From Coquelicot Require Import Coquelicot.
From Verif Require Import Prelude DofCodec Sums Restriction Kernels FunctionalModel Assembly Tensor MatAlg Materials ShapeAware ShapeDefs WeakForm WeakFormFacts WeakFormPhysics WeakFormEx EnergySolid FrameResidual PatchTest PatchMesh PatchGeom PatchEx PatchLoad PatchSkin PatchLoadEx Pressure PressureRun PressureBody PressureEx.
Import ListNotations.
Local Open Scope R_scope.

(** ** resultant: raising the pressure on a closed surface, however deformed, changes the nodal forces by forces whose sum is zero *)
Theorem C85_resultant : forall St n (f : functional St) o nn terms pos jac xref kappa s on t1 t2 p1 p2 wrt upd Ls (m m1 m2 : mem St) L1 L2,
  dim23 n -> wf f (nn * n) (fun w => length (Ls w)) -> all_fit f -> layout f o nn n -> two_spaces n f -> isoparametric n f pos jac xref -> linear_skin n f kappa s ->
  evaluate f t1 wrt upd Ls (nn * n) m = Ok (L1, m1) -> solid_residual n f t1 Ls m terms pos jac ->
  evaluate f t2 wrt upd Ls (nn * n) m = Ok (L2, m2) -> solid_residual n f t2 Ls m terms pos jac ->
  List.Forall (raised n on t1 t2 p1 p2) terms -> closed n (pressed n f terms) ->
  forall i, (i < n)%nat -> sumn nn (fun a => nodal_values o nn n L2 a i - nodal_values o nn n L1 a i) = 0.
Proof.
  exact (fun St n f o nn terms pos jac xref kappa s on t1 t2 p1 p2 wrt upd Ls m m1 m2 L1 L2 D =>
    @pressure_resultant St n D f o nn terms pos jac xref kappa s on t1 t2 p1 p2 wrt upd Ls m m1 m2 L1 L2).
Qed.
Print Assumptions C85_resultant.

(** ** moments: nor do they turn the body about any point; the nodes are where the pressure acts *)
Theorem C85_moment : forall St n (f : functional St) o nn terms pos jac xref kappa s on t1 t2 p1 p2 wrt upd Ls (m m1 m2 : mem St) L1 L2,
  dim23 n -> wf f (nn * n) (fun w => length (Ls w)) -> all_fit f -> layout f o nn n -> two_spaces n f -> isoparametric n f pos jac xref -> linear_skin n f kappa s ->
  evaluate f t1 wrt upd Ls (nn * n) m = Ok (L1, m1) -> solid_residual n f t1 Ls m terms pos jac ->
  evaluate f t2 wrt upd Ls (nn * n) m = Ok (L2, m2) -> solid_residual n f t2 Ls m terms pos jac ->
  List.Forall (raised n on t1 t2 p1 p2) terms -> closed n (pressed n f terms) ->
  let x := fun a c => xref a c + if on then nodal_values o nn n (Ls 0%nat) a c else 0 in let force := fun a c => nodal_values o nn n L2 a c - nodal_values o nn n L1 a c in
  forall i l, (i < n)%nat -> (l < n)%nat -> sumn nn (fun a => x a l * force a i - x a i * force a l) = 0.
Proof.
  exact (fun St n f o nn terms pos jac xref kappa s on t1 t2 p1 p2 wrt upd Ls m m1 m2 L1 L2 D =>
    @pressure_moment St n D f o nn terms pos jac xref kappa s on t1 t2 p1 p2 wrt upd Ls m m1 m2 L1 L2).
Qed.
Print Assumptions C85_moment.

(** ** work: on any nodal field their work is the rise of the pressure times the rate of change of the enclosed volume, so a uniform
    pressure has a potential *)
Theorem C85_work : forall St n (f : functional St) o nn terms pos jac xref kappa s on t1 t2 p1 p2 wrt upd Ls (m m1 m2 : mem St) L1 L2,
  dim23 n -> wf f (nn * n) (fun w => length (Ls w)) -> all_fit f -> layout f o nn n -> two_spaces n f -> isoparametric n f pos jac xref -> linear_skin n f kappa s ->
  evaluate f t1 wrt upd Ls (nn * n) m = Ok (L1, m1) -> solid_residual n f t1 Ls m terms pos jac ->
  evaluate f t2 wrt upd Ls (nn * n) m = Ok (L2, m2) -> solid_residual n f t2 Ls m terms pos jac ->
  List.Forall (raised n on t1 t2 p1 p2) terms -> closed n (pressed n f terms) ->
  let x := fun a c => xref a c + if on then nodal_values o nn n (Ls 0%nat) a c else 0 in
  forall h : nat -> nat -> R, exists slope : R, is_derive (fun tau => volume_in n (fun a i => x a i + tau * h a i) (pressed n f terms)) 0 slope /\
  sumn nn (fun a => sumn n (fun i => (nodal_values o nn n L2 a i - nodal_values o nn n L1 a i) * h a i)) = (p2 - p1) * kappa * slope.
Proof.
  exact (fun St n f o nn terms pos jac xref kappa s on t1 t2 p1 p2 wrt upd Ls m m1 m2 L1 L2 D =>
    @pressure_work St n D f o nn terms pos jac xref kappa s on t1 t2 p1 p2 wrt upd Ls m m1 m2 L1 L2).
Qed.
Print Assumptions C85_work.

(** ** the volume inside a pressed surface which bounds elements of the mesh is the volume of these elements, by the quadrature rule of
    the functional, wherever the nodes are *)
Theorem C85_volume : forall St n (f : functional St) o nn terms kappa s jac (x : nat -> nat -> R), dim23 n -> all_fit f -> layout f o nn n -> linear_mesh n f jac kappa s ->
  forall body, (forall a, (a < nn)%nat -> fills n f terms body a) -> body_volume n f body x = kappa * volume_in n x (pressed n f terms).
Proof. exact (fun St n f o nn terms kappa s jac x D => @body_inside St n D f o nn terms kappa s jac x). Qed.
Print Assumptions C85_volume.

(** a stretched and sheared square of four triangles whose outer edges all carry the pressure, raised from 0 to 5 *)
Example C85_nonvacuous : wf bf (5 * 2) (fun w => length (pLs w)) /\ all_fit bf /\ layout bf byVDIM 5 2 /\ two_spaces 2 bf /\ isoparametric 2 bf lpos ljac px /\ linear_skin 2 bf 1 (sqrt 5) /\
  (forall t, exists L m', evaluate bf t None false pLs (5 * 2) ex_mem = Ok (L, m')) /\ (forall t, solid_residual 2 bf t pLs ex_mem [bT 0; bT 1] lpos ljac) /\
  List.Forall (raised 2 true 0 5 0 5) [bT 0; bT 1] /\ closed 2 (pressed 2 bf [bT 0; bT 1]) /\ linear_mesh 2 bf ljac 1 (sqrt 5) /\ (forall a, (a < 5)%nat -> fills 2 bf [bT 0; bT 1] [0%nat] a) /\
  volume_in 2 (node_position 2 pLs byVDIM 5 true px) (pressed 2 bf [bT 0; bT 1]) = 2.
Proof. exact (conj b_wf (conj b_fit (conj b_layout (conj b_spaces (conj b_iso (conj b_skin (conj b_evaluates (conj b_residual (conj b_raised (conj b_closed (conj b_linear (conj b_fills b_volume)))))))))))). Qed.
Example C85_surfaces : closed 3 cube_faces /\ volume_in 3 cube_corner cube_faces = 1 /\ closed 3 tet_faces /\ volume_in 3 tet_corner tet_faces = 1 / 6 /\ ~ closed 3 (tl cube_faces).
Proof. exact cube_closed. Qed.
