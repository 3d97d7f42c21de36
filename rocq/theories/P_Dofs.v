(** Property theorems C10 (dof records), C11 (lexicographic node numbers), C12 (gather/scatter). *)
From Coq Require Import NArith ZArith Reals List Lia Lra.
From Verif Require Import Prelude DofCodec LexIds Sums Restriction.
Import ListNotations.

(** C10.  Reading back index, orientation and sign, for any index below 2^60: right exactly when the
    sign and orientation arguments are 0.  (The full property asks for every sign and orientation.) *)
Theorem C10_record_round_trip_partial :
  forall i s o : N, (i < N.shiftl 1 60)%N -> (s < 2)%N -> (o < 8)%N ->
  ((dof_index (mk_dof i s o) = i /\ dof_orientation (mk_dof i s o) = o /\
    dof_sign (mk_dof i s o) = (if N.eqb s 0 then 1 else -1)%Z) <-> s = 0%N /\ o = 0%N).
Proof. exact reads_back_iff. Qed.
Print Assumptions C10_record_round_trip_partial.

Theorem C10_sign_refuted : exists i s o, (i < N.shiftl 1 48)%N /\ (s < 2)%N /\ (o < 8)%N /\
  dof_index (mk_dof i s o) = i /\ dof_orientation (mk_dof i s o) = o /\ s = 1%N /\ dof_sign (mk_dof i s o) = 1%Z.
Proof. exact sign_lost. Qed.
Print Assumptions C10_sign_refuted.

Theorem C10_index_with_orientation_refuted :
  exists i o, (i < N.shiftl 1 48)%N /\ (o < 8)%N /\ dof_index (mk_dof i 0 o) <> i.
Proof. exact index_polluted. Qed.
Print Assumptions C10_index_with_orientation_refuted.

(** Vector dofs: a bijection of (node, component) pairs onto [0, nodes*components), both orderings. *)
Theorem C10_vector_dofs_bijection :
  forall (o : ordering) (nn nc : N), (nn * nc <= N.shiftl 1 60)%N ->
  (forall i c, (i < nn)%N -> (c < nc)%N -> (vdof_number o nn nc i c < nn * nc)%N) /\
  (forall i c i' c', (i < nn)%N -> (c < nc)%N -> (i' < nn)%N -> (c' < nc)%N ->
     vdof_number o nn nc i c = vdof_number o nn nc i' c' -> i = i' /\ c = c') /\
  (forall k, (k < nn * nc)%N -> exists i c, (i < nn)%N /\ (c < nc)%N /\ vdof_number o nn nc i c = k).
Proof. exact vdof_bijection. Qed.
Print Assumptions C10_vector_dofs_bijection.

Theorem C10_vector_dof_formula :
  forall (o : ordering) (nn nc i c : N), (i < nn)%N -> (c < nc)%N -> (nn * nc <= N.shiftl 1 60)%N ->
  vdof_number o nn nc i c = match o with byNODES => (c * nn + i)%N | byVDIM => (i * nc + c)%N end.
Proof. exact vdof_number_eq. Qed.
Print Assumptions C10_vector_dof_formula.

(** A reversed edge dof (MFEM's -1-d) comes back as the negative vector index -1-d. *)
Theorem C10_reversed_dof_refuted :
  forall d : Z, (0 <= d < Z.of_N (N.shiftl 1 31))%Z ->
  to_int (dof_index (mk_dof (of_int (-1 - d)) 1 0)) = (-1 - d)%Z.
Proof. exact reversed_dof_index. Qed.
Print Assumptions C10_reversed_dof_refuted.

Example ex_C10 : (vdof_number byNODES 7 3 5 2 = 19 /\ vdof_number byVDIM 7 3 5 2 = 17)%N.
Proof. split; reflexivity. Qed.

(** C11.  Each formula is strictly increasing in lexicographic order on the lattice, stays in
    [0, size), and hits every number. *)
Theorem C11_triangle : forall p : Z, (0 <= p)%Z ->
  (forall x y, in_tri p x y -> (0 <= tri_id p x y < tri_size p)%Z) /\
  (forall x y x' y', in_tri p x y -> in_tri p x' y' ->
     ((tri_id p x y < tri_id p x' y')%Z <-> (y < y')%Z \/ (y = y' /\ (x < x')%Z))) /\
  (forall k, (0 <= k < tri_size p)%Z -> exists x y, in_tri p x y /\ tri_id p x y = k).
Proof. exact (fun p H => conj (tri_range p) (conj (tri_lex p) (fun k => tri_onto p k H))). Qed.
Print Assumptions C11_triangle.

Theorem C11_tetrahedron : forall p : Z, (0 <= p)%Z ->
  (forall x y z, in_tet p x y z -> (0 <= tet_id p x y z < tet_size p)%Z) /\
  (forall x y z x' y' z', in_tet p x y z -> in_tet p x' y' z' ->
     ((tet_id p x y z < tet_id p x' y' z')%Z <-> (z < z')%Z \/ (z = z' /\ ((y < y')%Z \/ (y = y' /\ (x < x')%Z))))) /\
  (forall k, (0 <= k < tet_size p)%Z -> exists x y z, in_tet p x y z /\ tet_id p x y z = k).
Proof. exact (fun p H => conj (tet_range p) (conj (tet_lex p) (fun k => tet_onto p k H))). Qed.
Print Assumptions C11_tetrahedron.

Theorem C11_square : forall p : Z, (0 <= p)%Z ->
  (forall x y, in_quad p x y -> (0 <= quad_id p x y < (p + 1) * (p + 1))%Z) /\
  (forall x y x' y', in_quad p x y -> in_quad p x' y' ->
     ((quad_id p x y < quad_id p x' y')%Z <-> (y < y')%Z \/ (y = y' /\ (x < x')%Z))) /\
  (forall k, (0 <= k < (p + 1) * (p + 1))%Z -> exists x y, in_quad p x y /\ quad_id p x y = k).
Proof. exact (fun p H => conj (quad_range p) (conj (quad_lex p) (fun k => quad_onto p k H))). Qed.
Print Assumptions C11_square.

Theorem C11_cube : forall p : Z, (0 <= p)%Z ->
  (forall x y z, in_hex p x y z -> (0 <= hex_id p x y z < (p + 1) * (p + 1) * (p + 1))%Z) /\
  (forall x y z x' y' z', in_hex p x y z -> in_hex p x' y' z' ->
     ((hex_id p x y z < hex_id p x' y' z')%Z <-> (z < z')%Z \/ (z = z' /\ ((y < y')%Z \/ (y = y' /\ (x < x')%Z))))) /\
  (forall k, (0 <= k < (p + 1) * (p + 1) * (p + 1))%Z -> exists x y z, in_hex p x y z /\ hex_id p x y z = k).
Proof. exact (fun p H => conj (hex_range p) (conj (hex_lex p) (fun k => hex_onto p k H))). Qed.
Print Assumptions C11_cube.

(** The per-side node lists hold, without repetition, exactly the nodes on that side. *)
Theorem C11_triangle_sides : forall (p : Z) (s : nat), (0 <= p)%Z ->
  row_lists (tri_side_row p s) (fun k => exists x y, in_tri p x y /\ on_tri_side p s x y /\ k = tri_id p x y).
Proof. exact tri_side_row_spec. Qed.
Print Assumptions C11_triangle_sides.
Theorem C11_square_sides : forall (p : Z) (s : nat), (0 <= p)%Z ->
  row_lists (quad_side_row p s) (fun k => exists x y, in_quad p x y /\ on_quad_side p s x y /\ k = quad_id p x y).
Proof. exact quad_side_row_spec. Qed.
Print Assumptions C11_square_sides.
Theorem C11_tetrahedron_faces : forall (p : Z) (s : nat), (0 <= p)%Z ->
  row_lists (tet_face_row p s) (fun k => exists x y z, in_tet p x y z /\ on_tet_face p s x y z /\ k = tet_id p x y z).
Proof. exact tet_face_row_spec. Qed.
Print Assumptions C11_tetrahedron_faces.
Theorem C11_cube_faces : forall (p : Z) (s : nat), (0 <= p)%Z ->
  row_lists (hex_face_row p s) (fun k => exists x y z, in_hex p x y z /\ on_hex_face p s x y z /\ k = hex_id p x y z).
Proof. exact hex_face_row_spec. Qed.
Print Assumptions C11_cube_faces.

(** Face orientation tables: each row is a permutation, and it is the one that turns the face as
    MFEM's orientation table says. *)
Theorem C11_segment_permutations : forall (p : Z) (o : nat), (0 <= p)%Z ->
  row_lists (seg_perm_row p o) (fun k => (0 <= k <= p)%Z).
Proof. exact seg_perm_row_spec. Qed.
Print Assumptions C11_segment_permutations.
Theorem C11_triangle_permutations : forall (p : Z) (o : nat), (0 <= p)%Z ->
  row_lists (tri_perm_row p o) (fun k => (0 <= k < tri_size p)%Z).
Proof. exact tri_perm_is_perm. Qed.
Print Assumptions C11_triangle_permutations.
Theorem C11_square_permutations : forall (p : Z) (o : nat), (0 <= p)%Z ->
  row_lists (quad_perm_row p o) (fun k => (0 <= k < quad_size p)%Z).
Proof. exact quad_perm_is_perm. Qed.
Print Assumptions C11_square_permutations.
Theorem C11_triangle_orientation : forall (p : Z) (o : nat), (0 <= p)%Z ->
  exists b, tri_perm_row p o = Ok b /\
  forall i j, in_tri p i j ->
    let '(a, c) := tri_affine p o i j in nth_error b (Z.to_nat (tri_id p a c)) = Some (tri_id p i j).
Proof. exact tri_perm_geometry. Qed.
Print Assumptions C11_triangle_orientation.
Theorem C11_square_orientation : forall (p : Z) (o : nat), (0 <= p)%Z ->
  exists b, quad_perm_row p o = Ok b /\
  forall i j, in_quad p i j ->
    let '(a, c) := quad_affine p o i j in nth_error b (Z.to_nat (quad_id p a c)) = Some (quad_id p i j).
Proof. exact quad_perm_geometry. Qed.
Print Assumptions C11_square_orientation.

Example ex_C11 : (tri_size 2 = 6 /\ tet_size 3 = 20 /\ tri_id 2 0 2 = 5 /\ tet_id 3 0 0 3 = 19)%Z /\
  tri_perm_row 2 2 = Ok [2;4;5;1;3;0]%Z /\ hex_face_row 1 3 = Ok [3;2;7;6]%Z /\ tet_face_row 2 0 = Ok [2;4;5;7;8;9]%Z.
Proof. repeat split. Qed.

(** C12.  Scatter-add puts onto L the transpose of gather applied to E. *)
Theorem C12_scatter_is_transpose_of_gather :
  forall (r : restriction) (u L E : list R),
  length u = length L -> ids_ok r (length L) -> length E = esize r ->
  exists G L', gather r u (repeat 0%R (esize r)) = Ok G /\ scatter r E L = Ok L' /\
    length G = esize r /\ length L' = length L /\
    dot L' u = (dot L u + dot E G)%R.
Proof. exact gather_scatter_adjoint. Qed.
Print Assumptions C12_scatter_is_transpose_of_gather.

Theorem C12_gather_entries :
  forall (r : restriction) (L E : list R), ids_ok r (length L) -> length E = esize r ->
  exists G, gather r L E = Ok G /\ length G = esize r /\
    forall i c j, i < r_num_elements r -> c < r_components r -> j < r_nodes_per_elem r ->
      nth (Z.to_nat (E_id r i c j)) G 0%R = nth (Z.to_nat (L_id r i c j)) L 0%R.
Proof. exact gather_spec. Qed.
Print Assumptions C12_gather_entries.

Theorem C12_scatter_entries :
  forall (r : restriction) (E L : list R), ids_ok r (length L) -> length E = esize r ->
  exists L', scatter r E L = Ok L' /\ length L' = length L /\
    forall k, k < length L ->
      nth k L' 0%R = (nth k L 0 + suml (loop_ids r) (fun p => if Z.eqb (snd p) (Z.of_nat k) then nth (Z.to_nat (fst p)) E 0 else 0))%R.
Proof. exact scatter_entry. Qed.
Print Assumptions C12_scatter_entries.

(** Ids are in range, and are the expected vector dofs, for tables of plain node numbers. *)
Theorem C12_ids_in_range : forall r : restriction, plain r -> ids_ok r (r_num_nodes r * r_components r).
Proof. exact plain_ids_ok. Qed.
Print Assumptions C12_ids_in_range.
Theorem C12_ids_are_vector_dofs : forall (r : restriction) (i c j : nat), plain r ->
  i < r_num_elements r -> c < r_components r -> j < r_nodes_per_elem r ->
  exists n, n < r_num_nodes r /\ dof_at r i j = mk_dof (N.of_nat n) 0 0 /\
    L_id r i c j = Z.of_nat (match r_ordering r with byNODES => c * r_num_nodes r + n | byVDIM => n * r_components r + c end).
Proof. exact plain_L_id. Qed.
Print Assumptions C12_ids_are_vector_dofs.

(** Meshes with several element shapes. *)
Theorem C12_blocks_adjoint :
  forall (bs : list (restriction * list R)) (u L : list R),
  length u = length L ->
  (forall r E, In (r, E) bs -> ids_ok r (length L) /\ length E = esize r) ->
  exists Gs L', gather_blocks (map fst bs) u = Ok Gs /\ scatter_blocks bs L = Ok L' /\ length L' = length L /\
    map (@length R) Gs = map esize (map fst bs) /\
    dot L' u = (dot L u + dots (map snd bs) Gs)%R.
Proof. exact block_adjoint. Qed.
Print Assumptions C12_blocks_adjoint.

Theorem C12_block_offsets :
  forall blocks : list (option restriction),
  nth_error (bOffsets blocks) 0 = Some 0%Z /\ length (bOffsets blocks) = S (length blocks) /\
  forall k b, nth_error blocks k = Some b ->
  exists start stop, nth_error (bOffsets blocks) k = Some start /\ nth_error (bOffsets blocks) (S k) = Some stop /\
    (stop - start = match b with Some r => Z.of_nat (esize r) | None => 0 end)%Z.
Proof. exact bOffsets_spec. Qed.
Print Assumptions C12_block_offsets.

(** The reported size of the whole element vector is that of its first block only. *)
Theorem C12_block_esize_refuted :
  exists blocks, length (bOffsets blocks) = 3 /\
  nth_error (bOffsets blocks) 2 <> Some (Z.of_nat (block_esize blocks)).
Proof. exact block_esize_wrong. Qed.
Print Assumptions C12_block_esize_refuted.

(** An element with a reversed H(curl) edge: undefined behaviour. *)
Theorem C12_hcurl_gather_refuted :
  exists L E, length L = 3 /\ length E = esize hcurl_restriction /\ gather hcurl_restriction L E = UB.
Proof. exact hcurl_gather_ub. Qed.
Print Assumptions C12_hcurl_gather_refuted.

Example ex_C12 : plain (two_segments byVDIM) /\
  map snd (loop_ids (two_segments byVDIM)) = [0;2;1;3;2;4;3;5]%Z /\
  map snd (loop_ids (two_segments byNODES)) = [0;1;3;4;1;2;4;5]%Z.
Proof. split; [apply two_segments_plain|split; reflexivity]. Qed.
