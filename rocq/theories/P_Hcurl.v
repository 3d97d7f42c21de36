(** * Property C62. Specification: hq_field, hx_field and their curls (Hcurl.v) are the sums of degrees of freedom
    times shape functions; hq_tested, hx_tested (HcurlSum.v) are the weighted sums over quadrature points of source
    times shape function plus flux times curl; nodes, faces and nodal fields in HcurlFacts.v *)
From Coq Require Import Reals List Bool.
From Coquelicot Require Import Coquelicot.
From Verif Require Import Sums Quadrature ShapeDefs ShapeFacts ShapeTensor SumFactor Hcurl HcurlSum HcurlHex HcurlFacts HcurlSegment.
Import ListNotations.
Local Open Scope R_scope.

(** interpolation evaluates the field and its curl at the quadrature points *)
Theorem C62_quad_interpolate : forall s p t u Q, (p <= 3)%nat -> (Q < length t * length t)%nat ->
  let pt := snd (nth Q (square_rule (lift1 t)) (0, [])) in
  hq_interpolate s p t u Q = ([hq_field s p u 0 pt; hq_field s p u 1 pt], hq_field_curl s p u pt).
Proof. exact hq_interp. Qed.
Print Assumptions C62_quad_interpolate.
Theorem C62_hex_interpolate : forall s p t u Q, (p <= 3)%nat -> (Q < length t * length t * length t)%nat ->
  let pt := snd (nth Q (cube_rule (lift1 t)) (0, [])) in
  hx_interpolate s p t u Q = ([hx_field s p u 0 pt; hx_field s p u 1 pt; hx_field s p u 2 pt], [hx_field_curl s p u 0 pt; hx_field_curl s p u 1 pt; hx_field_curl s p u 2 pt]).
Proof. exact hx_interp. Qed.
Print Assumptions C62_hex_interpolate.
(** integration adds exactly the tested sums to the residual *)
Theorem C62_quad_integrate : forall s p t src flx res k, (p <= 3)%nat -> (k < hq_ndof p)%nat ->
  flat_hq p (hq_integrate s p t src flx res) k = flat_hq p res k + hq_tested s p (square_rule (lift1 t)) src flx k.
Proof. exact hq_integ. Qed.
Print Assumptions C62_quad_integrate.
Theorem C62_hex_integrate : forall s p t src flx res k, (p <= 3)%nat -> (k < hx_ndof p)%nat ->
  flat_hx p (hx_integrate s p t src flx res) k = flat_hx p res k + hx_tested s p (cube_rule (lift1 t)) src flx k.
Proof. exact hx_integ. Qed.
Print Assumptions C62_hex_integrate.
(** columns of element matrices: the derivative applied to the j-th shape function *)
Theorem C62_quad_apply : forall s p t j D Q, (p <= 3)%nat -> (j < hq_ndof p)%nat -> (Q < length t * length t)%nat ->
  let pt := snd (nth Q (square_rule (lift1 t)) (0, [])) in let r := hq_chain (D Q) (nth j (hq_shape s p pt) [], nth j (hq_curl s p pt) 0) in
  (forall a, fst (hq_apply s p t j D Q) a = fst r a) /\ (forall a, snd (hq_apply s p t j D Q) a = snd r a).
Proof. exact hq_applied. Qed.
Print Assumptions C62_quad_apply.
Theorem C62_hex_apply : forall s p t j D Q, (p <= 3)%nat -> (j < hx_ndof p)%nat -> (Q < length t * length t * length t)%nat ->
  let pt := snd (nth Q (cube_rule (lift1 t)) (0, [])) in let r := hx_chain (D Q) (nth j (hx_shape s p pt) [], nth j (hx_curl s p pt) []) in
  (forall a, fst (hx_apply s p t j D Q) a = fst r a) /\ (forall a, snd (hx_apply s p t j D Q) a = snd r a).
Proof. exact hx_applied. Qed.
Print Assumptions C62_hex_apply.
(** integration is the weighted transpose of interpolation *)
Theorem C62_quad_transpose : forall s p t src flx v, (p <= 3)%nat ->
  sumn (hq_ndof p) (fun k => flat_hq p v k * flat_hq p (hq_integrate s p t src flx zero2) k) =
  sumn (length t * length t) (fun Q => fst (nth Q (square_rule (lift1 t)) (0, [])) *
    (sumn 2 (fun a => src Q a * nth a (fst (hq_interpolate s p t v Q)) 0) + flx Q * snd (hq_interpolate s p t v Q))).
Proof. exact hq_duality. Qed.
Print Assumptions C62_quad_transpose.
Theorem C62_hex_transpose : forall s p t src flx v, (p <= 3)%nat ->
  sumn (hx_ndof p) (fun k => flat_hx p v k * flat_hx p (hx_integrate s p t src flx zero3) k) =
  sumn (length t * length t * length t) (fun Q => fst (nth Q (cube_rule (lift1 t)) (0, [])) *
    (sumn 3 (fun a => src Q a * nth a (fst (hx_interpolate s p t v Q)) 0) + sumn 3 (fun a => flx Q a * nth a (snd (hx_interpolate s p t v Q)) 0))).
Proof. exact hx_duality. Qed.
Print Assumptions C62_hex_transpose.
(** assembled element matrices agree with the matrix-free action *)
Theorem C62_quad_matrix : forall s p t D u res k, (p <= 3)%nat -> (k < hq_ndof p)%nat ->
  flat_hq p (hq_action s p t D u res) k = flat_hq p res k + sumn (hq_ndof p) (fun J => flat_hq p u J * flat_hq p (hq_row s p t D J) k).
Proof. exact hq_rows. Qed.
Print Assumptions C62_quad_matrix.
Theorem C62_hex_matrix : forall s p t D u res k, (p <= 3)%nat -> (k < hx_ndof p)%nat ->
  flat_hx p (hx_action s p t D u res) k = flat_hx p res k + sumn (hx_ndof p) (fun J => flat_hx p u J * flat_hx p (hx_row s p t D J) k).
Proof. exact hx_rows. Qed.
Print Assumptions C62_hex_matrix.
(** the curl of the shape functions is the curl *)
Theorem C62_quad_curl : forall s p, root5 s -> (1 <= p <= 3)%nat -> forall u (x y : R), exists d10 d01,
  is_derive (fun t => hq_field s p u 1 [t; y]) x d10 /\ is_derive (fun t => hq_field s p u 0 [x; t]) y d01 /\ hq_field_curl s p u [x; y] = d10 - d01.
Proof. exact quad_curl. Qed.
Print Assumptions C62_quad_curl.
Theorem C62_hex_curl : forall s p, root5 s -> (1 <= p <= 3)%nat -> forall u (x y z : R), exists d01 d02 d10 d12 d20 d21,
  is_derive (fun t => hx_field s p u 0 [x; t; z]) y d01 /\ is_derive (fun t => hx_field s p u 0 [x; y; t]) z d02 /\
  is_derive (fun t => hx_field s p u 1 [t; y; z]) x d10 /\ is_derive (fun t => hx_field s p u 1 [x; y; t]) z d12 /\
  is_derive (fun t => hx_field s p u 2 [t; y; z]) x d20 /\ is_derive (fun t => hx_field s p u 2 [x; t; z]) y d21 /\
  hx_field_curl s p u 0 [x; y; z] = d21 - d12 /\ hx_field_curl s p u 1 [x; y; z] = d02 - d20 /\ hx_field_curl s p u 2 [x; y; z] = d10 - d01.
Proof. exact hex_curl. Qed.
Print Assumptions C62_hex_curl.
(** tangential components on a side or face come from its own degrees of freedom only *)
Theorem C62_quad_trace : forall s p, root5 s -> (1 <= p <= 3)%nat -> forall u e t,   hq_field s p u 0 [t; cornerR e] = sumn p (fun i => d2x u (corner p e) i * o p i t) /\
  hq_field s p u 1 [cornerR e; t] = sumn p (fun j => d2y u j (corner p e) * o p j t).
Proof. exact quad_trace. Qed.
Print Assumptions C62_quad_trace.
Theorem C62_hex_trace : forall s p, root5 s -> (1 <= p <= 3)%nat -> forall u axis e a b, (axis < 3)%nat ->
  hx_field s p u (other0 axis) (face_point axis (cornerR e) a b) = hq_field s p (face_dofs axis (corner p e) u) 0 [a; b] /\
  hx_field s p u (other1 axis) (face_point axis (cornerR e) a b) = hq_field s p (face_dofs axis (corner p e) u) 1 [a; b].
Proof. exact hex_trace. Qed.
Print Assumptions C62_hex_trace.
(** gradients of nodal fields are edge fields without curl *)
Theorem C62_quad_gradient : forall s p, root5 s -> (1 <= p <= 3)%nat -> forall X, exists u, forall x y : R,
  is_derive (fun t => q_nodal s p X t y) x (hq_field s p u 0 [x; y]) /\ is_derive (fun t => q_nodal s p X x t) y (hq_field s p u 1 [x; y]) /\ hq_field_curl s p u [x; y] = 0.
Proof. exact quad_gradient. Qed.
Print Assumptions C62_quad_gradient.
Theorem C62_hex_gradient : forall s p, root5 s -> (1 <= p <= 3)%nat -> forall X, exists u, forall x y z : R,
  is_derive (fun t => h_nodal s p X t y z) x (hx_field s p u 0 [x; y; z]) /\ is_derive (fun t => h_nodal s p X x t z) y (hx_field s p u 1 [x; y; z]) /\
  is_derive (fun t => h_nodal s p X x y t) z (hx_field s p u 2 [x; y; z]) /\ forall a, (a < 3)%nat -> hx_field_curl s p u a [x; y; z] = 0.
Proof. exact hex_gradient. Qed.
Print Assumptions C62_hex_gradient.
(** every degree of freedom is the component of the field at its node along its direction, to 2e-15 *)
Theorem C62_quad_nodes : forall s p, root5 s -> (1 <= p <= 3)%nat -> nodal_to tol 2 (hq_ndof p) (hq_nodes s p) (hq_dirs p) (hq_shape s p).
Proof. exact quad_nodes. Qed.
Print Assumptions C62_quad_nodes.
Theorem C62_hex_nodes : forall s p, root5 s -> (1 <= p <= 3)%nat -> nodal_to tol 3 (hx_ndof p) (hx_nodes s p) (hx_dirs p) (hx_shape s p).
Proof. exact hex_nodes. Qed.
Print Assumptions C62_hex_nodes.
(** segments: values and derivatives agree, and the functions are nodal, to rounding *)
Theorem C62_segment_derivative : forall n i (x : R), (1 <= n <= 4)%nat -> (i < n)%nat -> 0 <= x <= 1 ->
  exists d, is_derive (fun t => nth i (leg_list n t) 0) x d /\ Rabs (nth i (leg_d_list n x) 0 - d) <= tol.
Proof. exact segment_derivative. Qed.
Print Assumptions C62_segment_derivative.
Theorem C62_segment_nodes : forall n i l, (1 <= n <= 4)%nat -> (i < n)%nat -> (l < n)%nat ->
  Rabs (nth i (leg_list n (nth l (leg_nodes n) 0)) 0 - (if Nat.eqb i l then 1 else 0)) <= 50 * tol.
Proof. exact segment_nodal. Qed.
Print Assumptions C62_segment_nodes.
(** non-vacuity *)
Example C62_constants : root5 (sqrt 5) /\ (1 <= 3 <= 3)%nat.
Proof. split; [exact sqrt5_root|auto]. Qed.
(** the lowest-order quadrilateral: the degrees of freedom of a unit circulation have curl 4 everywhere, and the
    field is not constant *)
Example C62_circulation : forall s x y, let u := {| d2x := fun j _ => if Nat.eqb j 0 then 1 else -1; d2y := fun _ i => if Nat.eqb i 0 then -1 else 1 |} in
  hq_field_curl s 1 u [x; y] = 4 /\ hq_field s 1 u 0 [x; y] = 1 - 2 * y /\ hq_field s 1 u 1 [x; y] = 2 * x - 1.
Proof. exact unit_circulation. Qed.
Print Assumptions C62_circulation.
