(** * Integrals of shape-function gradients on conforming meshes of linear elements (C72)
    The shape functions are those of detail/triangle_H1.inl, quadrilateral_H1.inl, tetrahedron_H1.inl and hexahedron_H1.inl
    (ShapeDefs.v, ShapeTensor.v) at polynomial order 1.  The integral of the gradient of the shape function of a node is a sum
    of area vectors of the faces (edges in the plane) around the node. *)
From Coq Require Import NArith ZArith Reals List Lia Lra Bool Permutation.
From Verif Require Import Prelude DofCodec Sums Restriction Kernels FunctionalModel Assembly Tensor MatAlg Materials ShapeAware ShapeDefs ShapeTensor WeakForm WeakFormFacts WeakFormPhysics WeakFormWork EnergySolid FrameResidual PatchTest.
Import ListNotations.
Local Open Scope R_scope.

(** ** specification *)
(** an oriented face seen from one of its corners: the other corners, in order.  In the plane an edge leaves the corner or arrives at it. *)
Inductive face := Edge (leaves : bool) (b : nat) | Tri (b d : nat) | Quad (b c d : nat).
(** the same face with the opposite orientation *)
Definition flip (p : face) : face := match p with Edge l b => Edge (negb l) b | Tri b d => Tri d b | Quad b c d => Quad d c b end.
Definition rename (v : nat -> nat) (p : face) : face := match p with Edge l b => Edge l (v b) | Tri b d => Tri (v b) (v d) | Quad b c d => Quad (v b) (v c) (v d) end.
(** corners of an element with N nodes, each with the faces which meet there, seen from outside.  Node numbers of quads and hexes
    are lexicographic. *)
Definition turns (cycle : list nat) : list (nat * face) :=
  match cycle with
  | [a; b] => [(a, Edge true b); (b, Edge false a)]
  | [a; b; d] => [(a, Tri b d); (b, Tri d a); (d, Tri a b)]
  | [a; b; c; d] => [(a, Quad b c d); (b, Quad c d a); (c, Quad d a b); (d, Quad a b c)]
  | _ => [] end.
Definition outside (n N : nat) : list (list nat) :=
  match n, N with
  | 2, 3 => [[0; 1]; [1; 2]; [2; 0]]
  | 2, 4 => [[0; 1]; [1; 3]; [3; 2]; [2; 0]]
  | 3, 4 => [[0; 2; 1]; [0; 1; 3]; [0; 3; 2]; [1; 2; 3]]
  | 3, 8 => [[0; 4; 6; 2]; [1; 3; 7; 5]; [0; 1; 5; 4]; [2; 6; 7; 3]; [0; 2; 3; 1]; [4; 5; 7; 6]]
  | _, _ => [] end%nat.
Definition corner_faces (n N : nat) : list (nat * face) := flat_map turns (outside n N).

Section Mesh.
Context {St : Type} (n : nat) (f : functional St).
(** the faces around node [a] among the elements of integral [k] *)
Definition faces_at (k a : nat) : list face :=
  match nth_error (f_integrals f) k with None => [] | Some Ig =>
    flat_map (fun g => match nth_error (i_geoms Ig) g, nth_error (f_test f (i_type Ig)) g with
      | Some G, Some r => if Nat.eqb (gk_dim1 G) (S n) then
          flat_map (fun le => flat_map (fun p => let v := node_of r (nth le (gk_elems G) 0%nat) in if Nat.eqb (v (fst p)) a then [rename v (snd p)] else [])
                     (corner_faces n (es_n (gk_test G)))) (seq 0 (length (gk_elems G))) else []
      | _, _ => [] end) (seq 0 (length (i_geoms Ig))) end.
(** node [a] is surrounded by the elements of integral [k]: every face around it is met from its other side *)
Definition surrounded (k a : nat) : Prop := Permutation (faces_at k a) (map flip (faces_at k a)).

(** the tables of an element are those of the linear element with N nodes, at the points [pt] *)
Definition linear_gradients (s : R) (N : nat) (pt : nat -> R) : list (list R) :=
  match n, N with
  | 2, 3 => tri_grad s 1 (pt 0) (pt 1)
  | 2, 4 => quad_gr s 1 [pt 0; pt 1]
  | 3, 4 => tet_grad s 1 (pt 0) (pt 1) (pt 2)
  | 3, 8 => hex_gr s 1 [pt 0; pt 1; pt 2]
  | _, _ => [] end%nat.
(** monomials which the rule has to integrate, and their integrals: the constant on triangles and tetrahedra; products of 1, x on
    the square, of 1, x, x^2 on the cube *)
Definition moments (N : nat) : list (nat * nat * nat * R) :=
  match n, N with
  | 2%nat, 3%nat => [((0, 0, 0)%nat, 1 / 2)]
  | 2%nat, 4%nat => flat_map (fun a => map (fun b => ((a, b, 0%nat), 1 / (INR a + 1) / (INR b + 1))) [0; 1]%nat) [0; 1]%nat
  | 3%nat, 4%nat => [((0, 0, 0)%nat, 1 / 6)]
  | 3%nat, 8%nat => flat_map (fun a => flat_map (fun b => map (fun c => ((a, b, c), 1 / (INR a + 1) / (INR b + 1) / (INR c + 1))) [0; 1; 2]%nat) [0; 1; 2]%nat) [0; 1; 2]%nat
  | _, _ => [] end.
(** [kappa] times the reference measure; 1 when the weights are exact *)
Definition linear_kernel (kappa s : R) (G : gkernel St) : Prop :=
  exists pt : nat -> nat -> R, corner_faces n (es_n (gk_test G)) <> [] /\
   (forall l q k, (l < es_n (gk_test G))%nat -> (q < gk_nq G)%nat -> (k < n)%nat ->
      es_B (gk_test G) l q (S k) = nth k (nth l (linear_gradients s (es_n (gk_test G)) (pt q)) []) 0) /\
   (forall a b c I, In (a, b, c, I) (moments (es_n (gk_test G))) ->
      sumn (gk_nq G) (fun q => pt q 0%nat ^ a * pt q 1%nat ^ b * pt q 2%nat ^ c * gk_w G q) = kappa * I).
End Mesh.

(** area vector of a face seen from the corner at [xa], weighted with the shape function of the corner *)
Definition rot (d : vec) : vec := fun j => match j with O => - d 1%nat | _ => d 0%nat end.
Definition cross3 (u v : vec) : vec := fun j => match j with
  | O => u 1%nat * v 2%nat - u 2%nat * v 1%nat | S O => u 2%nat * v 0%nat - u 0%nat * v 2%nat | _ => u 0%nat * v 1%nat - u 1%nat * v 0%nat end.
Definition vsub (u v : vec) : vec := fun j => u j - v j.
Definition area_vec (x : nat -> vec) (a : nat) (p : face) : vec := fun j =>
  match p with
  | Edge l b => (if l then - 1 / 2 else 1 / 2) * rot (vsub (x b) (x a)) j
  | Tri b d => 1 / 6 * cross3 (vsub (x b) (x a)) (vsub (x d) (x a)) j
  | Quad b c d => 1 / 9 * cross3 (vsub (x b) (x a)) (vsub (x d) (x a)) j + 1 / 18 * cross3 (vsub (x b) (x a)) (vsub (x c) (x b)) j
      + 1 / 18 * cross3 (vsub (x c) (x d)) (vsub (x d) (x a)) j + 1 / 36 * cross3 (vsub (x c) (x d)) (vsub (x c) (x b)) j
  end.
Lemma area_flip x a p j : area_vec x a (flip p) j = - area_vec x a p j.
Proof.
  destruct p as [[|] b|b d|b c d]; cbn [flip negb area_vec]; unfold rot, cross3, vsub; destruct j as [|[|j]]; field.
Qed.
Lemma closed_sum x a l j : Permutation l (map flip l) -> suml l (fun p => area_vec x a p j) = 0.
Proof.
  intros H. assert (A := suml_perm _ _ (fun p => area_vec x a p j) H). rewrite suml_map in A.
  rewrite (suml_ext l (fun p => area_vec x a (flip p) j) (fun p => - 1 * area_vec x a p j)) in A by (intros; rewrite area_flip; ring).
  rewrite suml_scal_l in A. lra.
Qed.

(** ** Cramer *)
Lemma cramer n J K (h : vec) j : dim23 n -> invn n J = Some K -> (j < n)%nat ->
  sumn n (fun k => h k * K k j) * detn n J = detn n (fun i k => if Nat.eqb i j then h k else J i k).
Proof.
  intros D EK Hj. destruct (invn_some n J K D EK) as (_ & _ & Hd). destruct D as [-> | ->]; unfold invn, detn in *; cbn [Nat.eqb] in *.
  - unfold inv2 in EK. destruct (Req_EM_T (det2 J) 0); [discriminate|]. injection EK as <-. destruct j as [|[|j]]; [| |lia]; unfold inv2_raw, mat2; cbn [sumn];
      unfold det2 in *; cbn [Nat.eqb]; field; exact Hd.
  - unfold inv3 in EK. destruct (Req_EM_T (det3 J) 0); [discriminate|]. injection EK as <-. destruct j as [|[|[|j]]]; [| | |lia]; unfold inv3_raw, mat3; cbn [sumn];
      unfold det3 in *; cbn [Nat.eqb]; field; exact Hd.
Qed.

(** ** one element *)
Section Element.
Context (nq N : nat) (B : nat -> nat -> nat -> R) (w : nat -> R).
(** parent derivative of the field with nodal values g *)
Definition deriv (g : nat -> R) (q k : nat) : R := sumn N (fun l => g l * B l q k).
Definition jac2 (c g : nat -> R) : R := sumn nq (fun q => (deriv c q 0 * deriv g q 1 - deriv c q 1 * deriv g q 0) * w q).
Definition jac3 (c g h : nat -> R) : R := sumn nq (fun q => (deriv c q 0 * (deriv g q 1 * deriv h q 2 - deriv g q 2 * deriv h q 1)
  + deriv c q 1 * (deriv g q 2 * deriv h q 0 - deriv g q 0 * deriv h q 2) + deriv c q 2 * (deriv g q 0 * deriv h q 1 - deriv g q 1 * deriv h q 0)) * w q).
End Element.
Definition edge_sum (N : nat) (c g : nat -> R) : R :=
  suml (corner_faces 2 N) (fun p => match snd p with Edge l b => (if l then 1 / 2 else - 1 / 2) * (g b - g (fst p)) * c (fst p) | _ => 0 end).
Definition cr (g h : nat -> R) (a b c d : nat) : R := (g a - g b) * (h c - h d) - (h a - h b) * (g c - g d).
Definition face_sum (N : nat) (c g h : nat -> R) : R :=
  suml (corner_faces 3 N) (fun p => let a := fst p in match snd p with
    | Edge _ _ => 0
    | Tri b d => 1 / 6 * cr g h b a d a * c a
    | Quad b e d => (1 / 9 * cr g h b a d a + 1 / 18 * cr g h b a e b + 1 / 18 * cr g h e d d a + 1 / 36 * cr g h e d e b) * c a end).

Lemma tri_identity s kappa nq B w (pt : nat -> nat -> R) c g :
  (forall l q k, (l < 3)%nat -> (q < nq)%nat -> (k < 2)%nat -> B l q k = nth k (nth l (tri_grad s 1 (pt q 0%nat) (pt q 1%nat)) []) 0) ->
  sumn nq w = kappa / 2 -> jac2 nq 3 B w c g = kappa * edge_sum 3 c g.
Proof.
  intros HB Hw. unfold jac2.
  rewrite (sumn_ext nq _ (fun q => ((c 1%nat - c 0%nat) * (g 2%nat - g 0%nat) - (c 2%nat - c 0%nat) * (g 1%nat - g 0%nat)) * w q)).
  - rewrite sumn_scal_l, Hw. unfold edge_sum, corner_faces, outside, turns. cbn [flat_map app suml fst snd]. field.
  - intros q Hq. unfold deriv. cbn [sumn]. rewrite !HB by lia. cbn [tri_grad nth]. ring.
Qed.
Lemma tet_identity s kappa nq B w (pt : nat -> nat -> R) c g h :
  (forall l q k, (l < 4)%nat -> (q < nq)%nat -> (k < 3)%nat -> B l q k = nth k (nth l (tet_grad s 1 (pt q 0%nat) (pt q 1%nat) (pt q 2%nat)) []) 0) ->
  sumn nq w = kappa / 6 -> jac3 nq 4 B w c g h = kappa * face_sum 4 c g h.
Proof.
  intros HB Hw. unfold jac3.
  rewrite (sumn_ext nq _ (fun q => ((c 1%nat - c 0%nat) * ((g 2%nat - g 0%nat) * (h 3%nat - h 0%nat) - (g 3%nat - g 0%nat) * (h 2%nat - h 0%nat))
     + (c 2%nat - c 0%nat) * ((g 3%nat - g 0%nat) * (h 1%nat - h 0%nat) - (g 1%nat - g 0%nat) * (h 3%nat - h 0%nat)) + (c 3%nat - c 0%nat) * ((g 1%nat - g 0%nat) * (h 2%nat - h 0%nat) - (g 2%nat - g 0%nat) * (h 1%nat - h 0%nat))) * w q)).
  - rewrite sumn_scal_l, Hw. unfold face_sum, corner_faces, outside, turns, cr. cbn [flat_map app suml fst snd]. field.
  - intros q Hq. unfold deriv. cbn [sumn]. rewrite !HB by lia. cbn [tet_grad nth]. ring.
Qed.
Lemma quad_identity s kappa nq B w (pt : nat -> nat -> R) c g :
  (forall l q k, (l < 4)%nat -> (q < nq)%nat -> (k < 2)%nat -> B l q k = nth k (nth l (quad_gr s 1 [pt q 0%nat; pt q 1%nat]) []) 0) ->
  (forall a b, (a <= 1)%nat -> (b <= 1)%nat -> sumn nq (fun q => pt q 0%nat ^ a * pt q 1%nat ^ b * w q) = kappa * (1 / (INR a + 1) / (INR b + 1))) ->
  jac2 nq 4 B w c g = kappa * edge_sum 4 c g.
Proof.
  intros HB Hw. unfold jac2.
  (* monomial coefficients *)
  set (cx := c 1%nat - c 0%nat). set (cy := c 2%nat - c 0%nat). set (cm := c 3%nat - c 2%nat - c 1%nat + c 0%nat).
  set (gx := g 1%nat - g 0%nat). set (gy := g 2%nat - g 0%nat). set (gm := g 3%nat - g 2%nat - g 1%nat + g 0%nat).
  rewrite (sumn_ext nq _ (fun q => (cx * gy - cy * gx) * (pt q 0%nat ^ 0 * pt q 1%nat ^ 0 * w q) + (cx * gm - cm * gx) * (pt q 0%nat ^ 1 * pt q 1%nat ^ 0 * w q) +
     (cm * gy - cy * gm) * (pt q 0%nat ^ 0 * pt q 1%nat ^ 1 * w q))).
  - rewrite !sumn_plus, !sumn_scal_l, !Hw by lia. unfold edge_sum, corner_faces, outside, turns. cbn [flat_map app suml fst snd INR]. subst cx cy cm gx gy gm. field.
  - intros q Hq. unfold deriv. cbn [sumn]. rewrite !HB by lia. unfold quad_gr, both, lob_list, lob_d_list. cbn [Nat.add lob lob_d combine map flat_map app nth fst snd pow].
    subst cx cy cm gx gy gm. ring.
Qed.
