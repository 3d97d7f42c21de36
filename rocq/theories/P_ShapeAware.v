(** * C35: shape displacement equals moving the mesh; C52: mesh geometry *)
From Coq Require Import Reals List.
Import ListNotations.
From Verif Require Import Sums Tensor MatAlg ShapeAware ShapeElem StateMgr.
Local Open Scope R_scope.

(** ** domain integrals: any integrand, any quadrature data, any test family, H1, L2 and (in 2D) H(curl) arguments *)
Theorem C35_point : forall St n test trials (qf : qfunction St) t X J p D X' J' st args, dim23 n -> List.Forall (fun s => fam s = HCURL -> n = 2%nat) trials -> detn n J <> 0 -> detn n J' <> 0 ->
  (forall i, (i < n)%nat -> X' i = X i + p i) -> meq n J' (madd J D) ->
  shape_point n test trials qf t X J st (p, D) args = plain_point n test trials qf t X' J' st args.
Proof. exact @shape_moves. Qed.
Print Assumptions C35_point.
(** the residual of an element, and its quadrature data, from the nodes of the mesh and the nodal shape displacement.  The full statement has H(curl) arguments in 3D too *)
Theorem C35_element_partial : forall St n test V trials (qf : qfunction St) t G nq w X P st args, dim23 n -> List.Forall (fun s => fam s = HCURL -> n = 2%nat) trials ->
  (forall q, (q < nq)%nat -> detn n (jacobian G X q) <> 0 /\ detn n (jacobian G (fun a i => X a i + P a i) q) <> 0) ->
  shape_element n test V trials qf t G nq w X P st args = plain_element n test V trials qf t G nq w (fun a i => X a i + P a i) st args.
Proof. exact @shape_element_ok. Qed.
Print Assumptions C35_element_partial.
Example C35_element_nonvacuous : detn 2 (jacobian triangle corners 0) = 1 /\ detn 2 (jacobian triangle (fun a i => corners a i + pulled a i) 0) = 2.
Proof. exact triangle_ok. Qed.
(** in 3D the curl handed to the integrand lacks the division by the determinant *)
Theorem C35_curl : forall n J D K A B J' K' u, n = 3%nat -> invn n J = Some K -> A = madd ident (mmul n D K) -> invn n A = Some B -> meq n J' (madd J D) -> invn n J' = Some K' ->
  forall i j, (j < n)%nat -> snd (modify_trial n A B HCURL (physical n J K HCURL u)) i j = detn n A * snd (physical n J' K' HCURL u) i j.
Proof. exact shape_curl. Qed.
Print Assumptions C35_curl.
Theorem C35_curl_refuted : detn 3 ident = 1 /\ detn 3 (madd ident pull) = 2 /\
  shape_point 3 qoi [hcurl] curl_only 0 (fun _ => 0) ident tt ((fun _ => 0), pull) curl_args = Some (([4], []), tt) /\
  plain_point 3 qoi [hcurl] curl_only 0 (fun _ => 0) (madd ident pull) tt curl_args = Some (([2], []), tt).
Proof. exact shape_curl_wrong. Qed.
Print Assumptions C35_curl_refuted.

(** ** boundary integrals *)
Theorem C35_boundary : forall n qf t X J p args, area n J <> 0 -> shape_boundary_point n qf t X J p args = boundary_point n qf t (fun i => X i + fst p i) (madd J (snd p)) args.
Proof. exact shape_boundary_ok. Qed.
Print Assumptions C35_boundary.
(** the surface measure used: the normal is orthogonal to the tangents, its length is the root of the Gram determinant of the tangents *)
Theorem C35_surface_measure : forall n J, dim23 n -> (forall b, (b < n - 1)%nat -> sumn n (fun i => nth i (cross n J) 0 * J i b) = 0) /\ area n J = sqrt (gram_det n J).
Proof. exact surface_measure. Qed.
Print Assumptions C35_surface_measure.
Example C35_boundary_nonvacuous : area 2 (fun i _ => match i with 0%nat => 3 | _ => 4 end) <> 0.
Proof. exact edge_ok. Qed.

(** ** C52: positions and Jacobians are computed for every accepted mesh *)
Theorem C52_factors_partial : forall (c : R) g p q, (1 <= p <= 3)%nat -> (1 <= q <= 4)%nat ->
  (In g [SQUARE; CUBE] -> factors domain_orders g p q c = Done c) /\ (p = 1%nat -> In g [TRIANGLE; TETRAHEDRON] -> factors domain_orders g p q c = Done c) /\ (In g [SEGMENT; TRIANGLE; SQUARE] -> factors boundary_orders g p q c = Done c).
Proof. exact (@factors_ok R). Qed.
Print Assumptions C52_factors_partial.
(** curved triangles and tetrahedra are silently given uninitialised geometry *)
Theorem C52_simplex_refuted : forall (c : R) g p q, (2 <= p)%nat -> In g [TRIANGLE; TETRAHEDRON] -> factors domain_orders g p q c = Undef.
Proof. exact (@factors_simplex R). Qed.
Print Assumptions C52_simplex_refuted.
