(** * Property C84. Specifications: MeshInput.v (all_elems, all_bdr, depth, doubled, shares), MeshInputEx.v (box_block, box_cell, total,
    ball_block, ball_number, file_block, same_world, same_but_levels, accepted, forgotten_size), MeshRegion.v (region, inside, size, measure) *)
From Coq Require Import String List ZArith Reals Permutation.
From Verif Require Import Mesh MeshInput MeshInputFacts MeshInputEx MeshRegion.
Import ListNotations.
Local Open Scope R_scope.

(** a box: the elements of all processes together are the cells of the described box with the described numbers, doubled by
    every refinement, each cell once *)
Theorem C84_box : forall w b n s, shares w -> box_block b n s -> exists ms, main_mesh w b = Built ms /\
  (forall c, In c (all_elems ms) <-> box_cell (map (doubled (depth b)) n) s c) /\
  Z.of_nat (List.length (all_elems ms)) = (total n * (2 ^ Z.of_nat (List.length n)) ^ Z.of_nat (depth b))%Z.
Proof. exact box_mesh. Qed.
Print Assumptions C84_box.
Example C84_box_nonvacuous : shares desk /\ box_block bar [3; 1]%Z [3; 1].
Proof. exact (conj desk_shares bar_block). Qed.
(** a disk or a ball: the number of elements, all of them inside the disk or ball, and without refinement of the finished mesh
    the corners of the boundary are on the circle or sphere *)
Theorem C84_ball_partial : forall w b n dim, shares w -> ball_block b n dim -> exists ms N, main_mesh w b = Built ms /\ ball_number n dim N /\
  Z.of_nat (List.length (all_elems ms)) = (N * (2 ^ Z.of_nat dim) ^ Z.of_nat (depth b))%Z /\
  (forall c, In c (all_elems ms) -> exists v, c = Simplex v /\ List.length v = S dim /\ forall p, In p v -> n2 p <= 1) /\
  (forall c p, In c (all_bdr ms) -> In p (points c) -> n2 p <= 1 /\ (depth b = O -> n2 p = 1)).
Proof. exact ball_mesh. Qed.
Print Assumptions C84_ball_partial.
Example C84_ball_nonvacuous : ball_block round 100 2.
Proof. exact round_block. Qed.
(** ... but not with it: refining a disk does not make it rounder *)
Theorem C84_refined_disk_refuted : forall w, shares w -> exists ms c p, main_mesh w polygon = Built ms /\ In c (all_bdr ms) /\ In p (points c) /\ n2 p < 1.
Proof. exact polygon_corner. Qed.
Print Assumptions C84_refined_disk_refuted.
(** a file: found as named or next to the input file, and refined as often as asked *)
Theorem C84_file : forall w b m, shares w -> file_block w b m -> exists ms, main_mesh w b = Built ms /\
  Permutation (all_elems ms) (elems (times (depth b) (refine (diagonal w)) m)) /\ Permutation (all_bdr ms) (bdr (times (depth b) (refine (diagonal w)) m)).
Proof. exact file_mesh. Qed.
Print Assumptions C84_file.
Theorem C84_file_number : forall w b m d, file_block w b m -> shares w -> List.Forall (of_dim d) (elems m) ->
  exists ms, main_mesh w b = Built ms /\ List.length (all_elems ms) = (List.length (elems m) * (2 ^ d) ^ depth b)%nat.
Proof. exact refined_number. Qed.
Print Assumptions C84_file_number.
Example C84_file_nonvacuous : file_block desk from_disk square_mesh.
Proof. exact from_disk_block. Qed.
(** ... without gaps and overlaps: the elements of all processes together fill the region of the elements of the file, and their lengths, areas or volumes
    have the same sum *)
Theorem C84_file_region : forall w b m D, shares w -> file_block w b m -> List.Forall (proper D) (elems m) -> exists ms, main_mesh w b = Built ms /\
  (forall p, region (all_elems ms) p <-> region (elems m) p) /\ (List.Forall (of_dim D) (elems m) -> size (all_elems ms) = size (elems m)).
Proof. exact file_region. Qed.
Print Assumptions C84_file_region.
Example C84_file_region_nonvacuous : file_block desk from_disk square_mesh /\ List.Forall (proper 2) (elems square_mesh) /\ List.Forall (of_dim 2) (elems square_mesh) /\ size (elems square_mesh) = 1 /\
  proper 2 (Simplex [[0; 0]; [1; 0]; [0; 1]]) /\ measure (Simplex [[0; 0]; [1; 0]; [0; 1]]) = 1 / 2 /\ inside (Simplex [[0; 0]; [1; 0]; [0; 1]]) [1 / 4; 1 / 2].
Proof. exact square_region. Qed.
(** the same elements on any number of processes, however they are divided, and for any split of the refinements into serial and parallel ones *)
Theorem C84_any_processes : forall w w' b b' ms, shares w -> shares w' -> same_world w w' -> same_but_levels b b' -> depth b' = depth b -> main_mesh w b = Built ms ->
  exists ms', main_mesh w' b' = Built ms' /\ List.length ms' = ranks w' /\ Permutation (all_elems ms') (all_elems ms) /\ Permutation (all_bdr ms') (all_bdr ms).
Proof. exact any_processes. Qed.
Print Assumptions C84_any_processes.
(** which descriptions give a mesh, and which one ends the program by an exception *)
Theorem C84_outcomes : forall w b, ((exists ms, main_mesh w b = Built ms) <-> accepted w b) /\ (main_mesh w b = Thrown <-> forgotten_size b).
Proof. exact outcomes. Qed.
Print Assumptions C84_outcomes.
Theorem C84_forgotten_size_refuted : forgotten_size forgot /\ forall w, main_mesh w forgot = Thrown.
Proof. exact (conj forgot_size (fun w => proj2 (proj2 (outcomes w forgot)) forgot_size)). Qed.
Print Assumptions C84_forgotten_size_refuted.
(** a number of elements that is not positive reaches mfem unchecked *)
Theorem C84_no_elements_refuted : forall w, main_mesh w none_x = Undefined.
Proof. exact none_undefined. Qed.
Print Assumptions C84_no_elements_refuted.
(** entries that contradict the rest are ignored: a size along z of a rectangle, negative numbers of refinements *)
Theorem C84_unused_size_refuted : forall w b z, kind b = Some "box"%string -> ez b = None -> sx b <> None -> sy b <> None ->
  main_mesh w {| kind := kind b; ser := ser b; par := par b; path := path b; ex := ex b; ey := ey b; ez := ez b; sx := sx b; sy := sy b; sz := z; approx := approx b |} = main_mesh w b.
Proof. exact unused_size. Qed.
Print Assumptions C84_unused_size_refuted.
Theorem C84_negative_levels_refuted : forall w b k, (k < 0)%Z ->
  main_mesh w {| kind := kind b; ser := Some k; par := par b; path := path b; ex := ex b; ey := ey b; ez := ez b; sx := sx b; sy := sy b; sz := sz b; approx := approx b |} =
  main_mesh w {| kind := kind b; ser := None; par := par b; path := path b; ex := ex b; ey := ey b; ez := ez b; sx := sx b; sy := sy b; sz := sz b; approx := approx b |}.
Proof. exact negative_levels. Qed.
Print Assumptions C84_negative_levels_refuted.
