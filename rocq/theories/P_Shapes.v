(** * Property C33. Specifications: ShapeFacts.v (kronecker, sums_to_one, reproduces, exact_gradients); s is the constant sqrt5 of the code *)
From Coq Require Import Reals List.
From Verif Require Import Sums Quadrature ShapeDefs ShapeFacts ShapeGrad ShapeTensor.
Import ListNotations.
Local Open Scope R_scope.

Theorem C33_segment : forall s p, root5 s -> (1 <= p <= 3)%nat ->
  kronecker (seg_pts s p) (seg_fn s p) /\ sums_to_one 1 (seg_fn s p) /\ reproduces (each_degree 1 p) 1 (seg_pts s p) (seg_fn s p) /\ exact_gradients 1 (seg_fn s p) (seg_gr s p).
Proof. exact seg_facts. Qed.
Print Assumptions C33_segment.
Theorem C33_quad : forall s p, root5 s -> (1 <= p <= 3)%nat ->
  kronecker (quad_pts s p) (quad_fn s p) /\ sums_to_one 2 (quad_fn s p) /\ reproduces (each_degree 2 p) 2 (quad_pts s p) (quad_fn s p) /\ exact_gradients 2 (quad_fn s p) (quad_gr s p).
Proof. exact quad_facts. Qed.
Print Assumptions C33_quad.
Theorem C33_hex : forall s p, root5 s -> (1 <= p <= 3)%nat ->
  kronecker (hex_pts s p) (hex_fn s p) /\ sums_to_one 3 (hex_fn s p) /\ reproduces (each_degree 3 p) 3 (hex_pts s p) (hex_fn s p) /\ exact_gradients 3 (hex_fn s p) (hex_gr s p).
Proof. exact hex_facts. Qed.
Print Assumptions C33_hex.
Theorem C33_triangle : forall s p, root5 s -> (1 <= p <= 3)%nat ->
  kronecker (tri_nodes s p) (tri_fn s p) /\ sums_to_one 2 (tri_fn s p) /\ reproduces (total_degree 2 p) 2 (tri_nodes s p) (tri_fn s p) /\ exact_gradients 2 (tri_fn s p) (tri_gr s p).
Proof. exact tri_facts. Qed.
Print Assumptions C33_triangle.
Theorem C33_tetrahedron : forall s p, root5 s -> (1 <= p <= 3)%nat ->
  kronecker (tet_nodes s p) (tet_fn s p) /\ sums_to_one 3 (tet_fn s p) /\ reproduces (total_degree 3 p) 3 (tet_nodes s p) (tet_fn s p) /\ exact_gradients 3 (tet_fn s p) (tet_gr s p).
Proof. exact tet_facts. Qed.
Print Assumptions C33_tetrahedron.
(** the constant of the code is (an approximation of) such a number *)
Example C33_constant : root5 (sqrt 5).
Proof. exact sqrt5_root. Qed.
(** outside orders one to three the simplex elements accept the order and their functions vanish everywhere *)
Theorem C33_high_order_vanishes : forall s pt, length pt = 2%nat -> suml (tri_fn s 4 pt) (fun v => v) = 0.
Proof. exact tri_order4. Qed.
Print Assumptions C33_high_order_vanishes.
