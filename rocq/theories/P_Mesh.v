(** * C43: generated meshes *)
From Coq Require Import List ZArith Reals.
Import ListNotations.
From Verif Require Import Mesh Ring.
Local Open Scope R_scope.

(** ** disk and ball: the transformation *)
Theorem C43_squish_norm : forall v, / 10 ^ 6 <= n2 v -> n2 (squish v) = n1 v /\ squish v = scale (n1 v / n2 v) v.
Proof. exact squish_norm. Qed.
Print Assumptions C43_squish_norm.
Theorem C43_squish_into : forall v, n2 (squish v) <= n1 v.
Proof. exact squish_ball. Qed.
Print Assumptions C43_squish_into.
(** onto and one to one away from the centre; the code collapses a ball of radius 1e-6 to the centre *)
Theorem C43_squish_onto_partial : forall w, 0 < n2 w <= 1 -> / 10 ^ 6 * n1 w <= n2 w * n2 w -> exists v, n1 v = n2 w /\ n1 v <= 1 /\ squish v = w.
Proof. exact squish_onto. Qed.
Print Assumptions C43_squish_onto_partial.
Theorem C43_squish_one_to_one_partial : forall v w, / 10 ^ 6 <= n2 v -> / 10 ^ 6 <= n2 w -> squish v = squish w -> v = w.
Proof. exact squish_one_to_one. Qed.
Print Assumptions C43_squish_one_to_one_partial.
Theorem C43_squish_center : forall v, n2 v < / 10 ^ 6 -> squish v = scale 0 v.
Proof. exact squish_center. Qed.
Print Assumptions C43_squish_center.
(** however often the mesh was refined, boundary vertices land on the unit circle or sphere and all others inside *)
Theorem C43_disk : (forall e v, In e disk_segments -> reach (corners disk_vertices e) v -> n2 (squish v) = 1) /\ (forall e v, In e disk_triangles -> reach (corners disk_vertices e) v -> n2 (squish v) <= 1).
Proof. exact disk_ok. Qed.
Print Assumptions C43_disk.
Theorem C43_ball : (forall e v, In e ball_triangles -> reach (corners ball_vertices e) v -> n2 (squish v) = 1) /\ (forall e v, In e ball_tetrahedra -> reach (corners ball_vertices e) v -> n2 (squish v) <= 1).
Proof. exact ball_ok. Qed.
Print Assumptions C43_ball.
Example C43_disk_nonvacuous : reach (corners disk_vertices [1; 2]%nat) (mid [1; 0] [0; 1]).
Proof. apply reach_mid; apply reach_corner; cbn; auto. Qed.
(** boundary elements are the faces opposite the centre; elements have unit parallelepipeds *)
Theorem C43_coarse : map (fun t => removelast t) disk_triangles = disk_segments /\ map (fun t => tl t) ball_tetrahedra = ball_triangles /\
  Forall (fun t => match zcorners disk_vertices t with [a; b; _] => zdet2 a b = 1%Z | _ => False end) disk_triangles /\
  Forall (fun t => match zcorners ball_vertices t with [_; a; b; c] => Z.abs (zdet3 a b c) = 1%Z | _ => False end) ball_tetrahedra.
Proof. exact coarse_ok. Qed.
Print Assumptions C43_coarse.
(** the refinement loops end with a number of elements within a factor of two (disk) or four (ball) below, and two above, of the one asked for *)
Theorem C43_counts : forall approx : Z, (exists k n, disk_count approx = Some n /\ n = (4 * 4 ^ Z.of_nat k)%Z /\ (approx <= 2 * n)%Z /\ (n = 4 \/ n < 2 * approx)%Z) /\
  (exists k n, ball_count approx = Some n /\ n = (8 * 8 ^ Z.of_nat k)%Z /\ (approx <= 4 * n)%Z /\ (n = 8 \/ n < 2 * approx)%Z).
Proof. exact counts_ok. Qed.
Print Assumptions C43_counts.

(** ** ring *)
Theorem C43_full_ring : forall total n i rin rout, full total -> (3 <= n)%nat -> (i < n)%nat -> 0 < rin < rout -> let a := sector_angle total n in
  let at_ := fun j => vertex (ring_count true n) rin rout a j in
  (forall p, preach (map at_ (inner_edge (ring_count true n) i)) p -> norm (ring_vertex a p) = rin) /\
  (forall p, preach (map at_ (outer_edge (ring_count true n) i)) p -> norm (ring_vertex a p) = rout) /\
  (forall p, preach (map at_ (elem (ring_count true n) i)) p -> rin <= norm (ring_vertex a p) <= rout) /\ 0 < area (map at_ (elem (ring_count true n) i)).
Proof. exact full_ring_ok. Qed.
Print Assumptions C43_full_ring.
Example C43_full_ring_nonvacuous : full (2 * PI) /\ (3 <= 8)%nat /\ 0 < 1 < 2.
Proof. unfold full. repeat split; try apply Rle_refl; try apply Rlt_0_1; auto with arith. apply (Rplus_lt_reg_l (-1)). replace (-1 + 1) with 0 by ring. replace (-1 + 2) with 1 by ring. apply Rlt_0_1. Qed.
(** open rings: proved when the sector angle divides the full turn; the full statement allows any total angle *)
Theorem C43_open_ring_partial : forall a (m : nat) k rin rout, (3 <= m)%nat -> 2 * PI = INR m * a -> (k < m)%nat -> 0 < rin < rout ->
  (forall p, preach [circle rin a k; circle rin a (S k)] p -> norm (ring_vertex a p) = rin) /\ (forall p, preach [circle rout a k; circle rout a (S k)] p -> norm (ring_vertex a p) = rout) /\
  (forall p, preach [circle rin a k; circle rout a k; circle rout a (S k); circle rin a (S k)] p -> rin <= norm (ring_vertex a p) <= rout).
Proof. exact ring_ok. Qed.
Print Assumptions C43_open_ring_partial.
(** otherwise even unrefined vertices leave their circle *)
Theorem C43_open_ring_refuted : forall rho, 0 < rho -> 0 < 3 * PI / 4 < 2 * PI /\ rho < norm (ring_vertex (sector_angle (3 * PI / 4) 1) (circle rho (sector_angle (3 * PI / 4) 1) 0)).
Proof. exact open_ring_moves. Qed.
Print Assumptions C43_open_ring_refuted.
(** connectivity *)
Theorem C43_connectivity : forall f n i, (1 <= n)%nat -> (i < n)%nat -> Forall (fun j => (j < 2 * ring_count f n)%nat) (elem (ring_count f n) i).
Proof. exact elem_bounds. Qed.
Print Assumptions C43_connectivity.
Theorem C43_corners : forall f n i rin rout a, (f = true -> 2 * PI = INR n * a) -> (1 <= n)%nat -> (i < n)%nat ->
  map (vertex (ring_count f n) rin rout a) (elem (ring_count f n) i) = [circle rin a i; circle rout a i; circle rout a (S i); circle rin a (S i)].
Proof. exact elem_corners. Qed.
Print Assumptions C43_corners.
Theorem C43_distinct : forall f n i, (2 <= ring_count f n)%nat -> (i < n)%nat -> NoDup (elem (ring_count f n) i).
Proof. exact elem_distinct. Qed.
Print Assumptions C43_distinct.
Theorem C43_neighbours : forall nr i, (2 <= nr)%nat -> (i + 1 < nr)%nat -> nth 2 (elem nr i) 0%nat = nth 1 (elem nr (i + 1)) 0%nat /\ nth 3 (elem nr i) 0%nat = nth 0 (elem nr (i + 1)) 0%nat.
Proof. exact elem_neighbours. Qed.
Print Assumptions C43_neighbours.
Theorem C43_closes : forall n, (1 <= n)%nat -> nth 2 (elem n (n - 1)) 0%nat = nth 1 (elem n 0) 0%nat /\ nth 3 (elem n (n - 1)) 0%nat = nth 0 (elem n 0) 0%nat.
Proof. exact elem_closes. Qed.
Print Assumptions C43_closes.
(** a boundary element runs along an edge of its quadrilateral in the direction of the quadrilateral's own traversal (which has positive area): the material is on its left *)
Theorem C43_boundary_orientation : forall nr i, inner_edge nr i = side (elem nr i) 3 /\ outer_edge nr i = side (elem nr i) 1.
Proof. exact boundary_sides. Qed.
Print Assumptions C43_boundary_orientation.
(** the straight ends of an open ring are exterior edges without a boundary element, and a full ring of one sector is degenerate *)
Theorem C43_open_ends_refuted : forall n, (1 <= n)%nat -> nth 0 (elem (S n) 0) 0%nat = 0%nat /\ nth 1 (elem (S n) 0) 0%nat = S n /\
  (forall i, (i < n)%nat -> i <> 0%nat -> ~ (In 0%nat (elem (S n) i) /\ In (S n) (elem (S n) i))) /\ ~ In [0%nat; S n] (boundary (S n) n) /\ ~ In [S n; 0%nat] (boundary (S n) n).
Proof. exact open_ring_end. Qed.
Print Assumptions C43_open_ends_refuted.
Theorem C43_one_sector_refuted : elem (ring_count true 1) 0 = [0; 1; 1; 0]%nat.
Proof. exact one_sector_degenerate. Qed.
Print Assumptions C43_one_sector_refuted.

(** ** cylinders *)
Theorem C43_cylinder : forall radius k, 0 <= radius -> (k < 8)%nat -> forall p, preach [circle 1 (PI / 4) k; circle 1 (PI / 4) (S k)] p -> norm (cylinder_vertex radius p) = radius.
Proof. exact cylinder_ok. Qed.
Print Assumptions C43_cylinder.
Theorem C43_quarter_cylinder : forall rin rout height x y z, 0 < rin < rout -> 0 <= height -> 0 <= x <= 1 -> 0 <= y <= 1 -> 0 <= z <= 1 -> let '(a, b, c) := quarter_vertex rin rout height x y z in
  0 <= a /\ 0 <= b /\ 0 <= c <= height /\ norm (a, b) = rin + (rout - rin) * x /\ rin <= norm (a, b) <= rout /\ (y = 0 -> b = 0) /\ (y = 1 -> a = 0).
Proof. exact quarter_ok. Qed.
Print Assumptions C43_quarter_cylinder.
