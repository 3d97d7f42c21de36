(** * Property C83. Specifications: Traces.v (field_at, corners, side_corners, orient, side_point, face_point), TracesMesh.v
    (traces, place, winding, proper, proper_mesh, proper_vertices, faces_of, right_values); s is the constant sqrt5 of the code *)
From Coq Require Import ZArith Reals List.
From Verif Require Import Prelude Sums LexIds ShapeDefs ShapeFacts ShapeTensor Traces TracesTurn TracesMesh.
Import ListNotations.
Local Open Scope R_scope.

(** the dofs picked for the faces of a mesh, of either kind: at every point of every face they give the value of each
    adjacent element's own field at the point of that element that lies at the same place *)
Theorem C83_values : forall s m D ev fv p fg interior, root5 s -> (p <= 3)%nat -> proper_mesh m D p -> proper_vertices m ev fv interior ->
  exists rows, get_face_dofs m D p fg interior = Ok rows /\
  Forall2 (fun nf row => exists rs, row = concat rs /\ Forall2 (fun e r => length r = ndof fg p /\ right_values s m ev fv p fg (fst nf) e (D e) r) (snd (snd nf)) rs) (faces_of m fg interior) rows.
Proof. exact all_values. Qed.
Print Assumptions C83_values.
Example C83_values_nonvacuous :
  (proper_mesh cut cut_dofs 1 /\ proper_vertices cut cut_ev cut_fv true /\ proper_vertices cut cut_ev cut_fv false) /\
  (get_face_dofs cut cut_dofs 1 Seg true = Ok [[0; 2; 3; 4]]%Z /\ get_face_dofs cut cut_dofs 1 Seg false = Ok [[0; 1]; [1; 2]; [4; 5]; [5; 3]]%Z) /\
  (proper_mesh pair pair_dofs 1 /\ proper_vertices pair pair_ev (fun _ => [1; 2; 3]%Z) true) /\ get_face_dofs pair pair_dofs 1 Tri true = Ok [[1; 2; 3; 6; 5; 7]]%Z.
Proof. exact (conj (conj cut_proper (conj (cut_vertices true) (cut_vertices false))) (conj cut_rows (conj (conj pair_proper pair_vertices) pair_rows))). Qed.
(** one side of one element, in one orientation: which point of the element each point of the face is *)
Theorem C83_side : forall s g p i o D, root5 s -> is_element g -> (p <= 3)%nat -> (i < sides g)%nat -> (o < orientations (face_of g))%nat -> length D = ndof g p ->
  exists r, face_row g (face_of g) p i (Z.of_nat o) D = Ok r /\ length r = ndof (face_of g) p /\ traces s g p i o D r.
Proof. exact face_row_traces. Qed.
Print Assumptions C83_side.
(** ... and that point lies where the face's own coordinates say *)
Theorem C83_place : forall s g i o V F, root5 s -> is_element g -> (i < sides g)%nat -> (o < orientations (face_of g))%nat -> length V = length (corners g) -> length F = length (corners (face_of g)) ->
  winding g i o V F -> forall X xi, length xi = face_dim (face_of g) ->
  exists x, place s (face_of g) X F (face_point (face_of g) o xi) = Some x /\ place s g X V (side_point g i xi) = Some x.
Proof. exact same_place. Qed.
Print Assumptions C83_place.
Theorem C83_all_points : forall fg o eta, (o < orientations fg)%nat -> length eta = face_dim fg -> exists xi, length xi = face_dim fg /\ face_point fg o xi = eta.
Proof. exact face_point_onto. Qed.
Print Assumptions C83_all_points.
(** fields whose dofs on a face are shared by the two elements are continuous across it *)
Theorem C83_continuous : forall s g1 g2 p i1 i2 o1 o2 D1 D2, root5 s -> is_element g1 -> is_element g2 -> face_of g1 = face_of g2 -> (p <= 3)%nat -> (i1 < sides g1)%nat -> (i2 < sides g2)%nat ->
  (o1 < orientations (face_of g1))%nat -> (o2 < orientations (face_of g2))%nat -> length D1 = ndof g1 p -> length D2 = ndof g2 p ->
  face_row g1 (face_of g1) p i1 (Z.of_nat o1) D1 = face_row g2 (face_of g2) p i2 (Z.of_nat o2) D2 ->
  forall (u : Z -> R) xi1 xi2, length xi1 = face_dim (face_of g1) -> length xi2 = face_dim (face_of g2) -> face_point (face_of g1) o1 xi1 = face_point (face_of g2) o2 xi2 ->
  exists x, field_at s g1 p (map u D1) (side_point g1 i1 xi1) = Some x /\ field_at s g2 p (map u D2) (side_point g2 i2 xi2) = Some x.
Proof. exact continuous. Qed.
Print Assumptions C83_continuous.
Example C83_continuous_nonvacuous : face_row Tri Seg 1 2 1 [0; 1; 2]%Z = face_row Tri Seg 1 0 0 [0; 2; 3]%Z.
Proof. exact cut_continuous. Qed.
(** the functions of discontinuous fields, the constants included *)
Theorem C83_functions : forall s g p, root5 s -> (p <= 3)%nat -> sums_to_one (ref_dim g) (l2_shape s g p) /\ exact_gradients (ref_dim g) (l2_shape s g p) (l2_grad s g p).
Proof. exact l2_functions. Qed.
Print Assumptions C83_functions.
(** ... and there are as many of them as dofs, with a gradient entry for each coordinate *)
Theorem C83_sizes : forall s g p pt, (p <= 3)%nat -> length pt = ref_dim g ->
  length (l2_shape s g p pt) = ndof g p /\ length (l2_grad s g p pt) = ndof g p /\ List.Forall (fun v => length v = ref_dim g) (l2_grad s g p pt).
Proof. exact l2_sizes. Qed.
Print Assumptions C83_sizes.
(** an interior face with one element on this process shifts the rows of every face (nothing in the code asks for interior faces) *)
Theorem C83_shared_faces_shift : face_rows shared cut_dofs 1 Seg true 0 (faces shared) = Ok [[0; 2; 3; 4]; [3; 5]]%Z /\ get_face_dofs shared cut_dofs 1 Seg true = Ok [[0; 2; 3]; [4; 3; 5]]%Z.
Proof. exact shared_rows. Qed.
Print Assumptions C83_shared_faces_shift.
