(** * Fields on faces: the dofs picked for a face give the element's own field there (C83)

    Models the discontinuous branch of GetFaceDofs (element_restriction.cpp:279-385), the tables it reads
    (face_permutations and geom_local_face_dofs, in LexIds.v) and the shape functions of the L2 elements.
    What mfem reports about the mesh (sides, orientations, dofs of an element) is an input. *)
From Coq Require Import ZArith Reals Lra Lia List Bool Arith.
From Verif Require Import Prelude Sums LexIds ShapeDefs ShapeFacts ShapeTensor.
Import ListNotations.
Local Open Scope R_scope.

Inductive geom := Seg | Tri | Sq | Tet | Cube.

(** ** the code *)
(** detail/*_L2.inl shape_function: the functions of the H1 element of the same order, except that order zero is the
    constant one on triangles and tetrahedra (triangle_L2.inl:77-84, tetrahedron_L2.inl:44-50) *)
Definition l2_shape (s : R) (g : geom) (p : nat) (pt : list R) : list R :=
  match g with
  | Seg => seg_fn s p pt
  | Sq => quad_fn s p pt
  | Cube => hex_fn s p pt
  | Tri => match p, pt with O, [_; _] => [1] | O, _ => [] | _, _ => tri_fn s p pt end
  | Tet => match p, pt with O, [_; _; _] => [1] | O, _ => [] | _, _ => tet_fn s p pt end
  end.
(** shape_function_gradient (triangle_L2.inl:147-155, tetrahedron_L2.inl:158-162) *)
Definition l2_grad (s : R) (g : geom) (p : nat) (pt : list R) : list (list R) :=
  match g with
  | Seg => seg_gr s p pt
  | Sq => quad_gr s p pt
  | Cube => hex_gr s p pt
  | Tri => match p, pt with O, [_; _] => [[0; 0]] | O, _ => [] | _, _ => tri_gr s p pt end
  | Tet => match p, pt with O, [_; _; _] => [[0; 0; 0]] | O, _ => [] | _, _ => tet_gr s p pt end
  end.

Definition sides (g : geom) : nat := match g with Seg => 0 | Tri => 3 | Sq => 4 | Tet => 4 | Cube => 6 end.
Definition face_of (g : geom) : geom := match g with Tet => Tri | Cube => Sq | _ => Seg end.
Definition orientations (g : geom) : nat := match g with Seg => 2 | Tri => 6 | Sq => 8 | _ => 0 end.
Definition ndof (g : geom) (p : nat) : nat :=
  match g with Seg => p + 1 | Tri => (p + 1) * (p + 2) / 2 | Sq => (p + 1) * (p + 1) | Tet => (p + 1) * (p + 2) * (p + 3) / 6 | Cube => (p + 1) * (p + 1) * (p + 1) end.
(** local_face_dofs[geom](i, .) (element_restriction.cpp:130-214); a row number past the end reads out of bounds *)
Definition local_row (g : geom) (p : nat) (i : nat) : outcome (list Z) :=
  if Nat.ltb i (sides g) then
    match g with Tri => tri_side_row (Z.of_nat p) i | Sq => quad_side_row (Z.of_nat p) i | Tet => tet_face_row (Z.of_nat p) i | Cube => hex_face_row (Z.of_nat p) i | Seg => UB end
  else UB.
(** face_perm(orientation) (element_restriction.cpp:67-128) *)
Definition perm_row (fg : geom) (p : nat) (o : Z) : outcome (list Z) :=
  if ((0 <=? o) && (o <? Z.of_nat (orientations fg)))%Z then
    match fg with Seg => seg_perm_row (Z.of_nat p) (Z.to_nat o) | Tri => tri_perm_row (Z.of_nat p) (Z.to_nat o) | Sq => quad_perm_row (Z.of_nat p) (Z.to_nat o) | _ => UB end
  else UB.
Fixpoint mapO {A B} (f : A -> outcome B) (l : list A) : outcome (list B) :=
  match l with [] => Ok [] | a :: r => bindO (f a) (fun b => bindO (mapO f r) (fun bs => Ok (b :: bs))) end.
(** step 4 (element_restriction.cpp:356-359): D is elem_dof_ids *)
Definition face_row (g fg : geom) (p i : nat) (o : Z) (D : list Z) : outcome (list Z) :=
  bindO (local_row g p i) (fun loc => bindO (perm_row fg p o) (fun perm => mapO (fun k => bindO (vec_get loc k) (fun j => vec_get D j)) perm)).

(** what mfem reports: the faces, with their geometry, whether they are interior, and the elements they belong to
    (GetFaceGeometry, GetFaceInformation, GetFaceToElementTable); the sides of an element with their orientations
    (GetElementEdges or GetElementFaces) *)
Record mesh := { dimension : nat; faces : list (geom * bool * list nat); elem_sides : nat -> list nat; elem_orient : nat -> list Z; elem_geom : nat -> geom }.
(** 2b (element_restriction.cpp:333-337): i is the length of the list when the face is not found *)
Fixpoint position_in (f : nat) (l : list nat) : nat := match l with [] => O | a :: r => if Nat.eqb a f then O else S (position_in f r) end.
(** the body of the loop over elements (element_restriction.cpp:311-359) *)
Definition element_row (m : mesh) (D : nat -> list Z) (p : nat) (fg : geom) (interior : bool) (f e : nat) : outcome (list Z) :=
  let o2 := if Nat.eqb (dimension m) 2 then map (fun o => if Z.eqb o (-1) then 1%Z else 0%Z) (elem_orient m e) else elem_orient m e in
  let i := position_in f (elem_sides m e) in
  bindO (if Nat.eqb (dimension m) 2 && negb interior then Ok 0%Z else vec_get o2 (Z.of_nat i))
        (fun o => face_row (elem_geom m e) fg p i o (D e)).
Definition geom_eqb (a b : geom) : bool := match a, b with Seg, Seg | Tri, Tri | Sq, Sq | Tet, Tet | Cube, Cube => true | _, _ => false end.
(** the faces kept (element_restriction.cpp:302-304) *)
Definition kept (fg : geom) (interior : bool) (f : geom * bool * list nat) : bool := geom_eqb (fst (fst f)) fg && eqb (snd (fst f)) interior.
(** the loop over faces (element_restriction.cpp:296-379): one list of dofs per face kept; boundary faces stop after the first element *)
Fixpoint face_rows (m : mesh) (D : nat -> list Z) (p : nat) (fg : geom) (interior : bool) (n : nat) (fs : list (geom * bool * list nat)) : outcome (list (list Z)) :=
  match fs with
  | [] => Ok []
  | f :: r => if kept fg interior f then
                bindO (mapO (element_row m D p fg interior n) (if interior then snd f else firstn 1 (snd f))) (fun rows =>
                bindO (face_rows m D p fg interior (S n) r) (fun rest => Ok (concat rows :: rest)))
              else face_rows m D p fg interior (S n) r
  end.
(** the copy into the n by dofs_per_face array (element_restriction.cpp:381-390) *)
Fixpoint chop (n w : nat) (l : list Z) : list (list Z) := match n with O => [] | S k => firstn w l :: chop k w (skipn w l) end.
Definition get_face_dofs (m : mesh) (D : nat -> list Z) (p : nat) (fg : geom) (interior : bool) : outcome (list (list Z)) :=
  bindO (face_rows m D p fg interior 0 (faces m)) (fun rows => Ok (chop (length rows) (length (concat rows) / length rows) (concat rows))).

(** ** specification *)
(** values times shape functions; no result unless there are as many of one as of the other *)
Definition dot (a b : list R) : option R := if Nat.eqb (length a) (length b) then Some (suml (combine a b) (fun ab => fst ab * snd ab)) else None.
(** the value at a point of the field with the given dof values *)
Definition field_at (s : R) (g : geom) (p : nat) (values : list R) (pt : list R) : option R := dot (l2_shape s g p pt) values.
(** mfem's reference elements: corners, corners of each side, and the ways two elements can see one face *)
Definition corners (g : geom) : list (list R) :=
  match g with
  | Seg => [[0]; [1]]
  | Tri => [[0; 0]; [1; 0]; [0; 1]]
  | Sq => [[0; 0]; [1; 0]; [1; 1]; [0; 1]]
  | Tet => [[0; 0; 0]; [1; 0; 0]; [0; 1; 0]; [0; 0; 1]]
  | Cube => [[0; 0; 0]; [1; 0; 0]; [1; 1; 0]; [0; 1; 0]; [0; 0; 1]; [1; 0; 1]; [1; 1; 1]; [0; 1; 1]]
  end.
Definition side_corners (g : geom) (i : nat) : list nat :=
  nth i (match g with
         | Seg => []
         | Tri => [[0; 1]; [1; 2]; [2; 0]]
         | Sq => [[0; 1]; [1; 2]; [2; 3]; [3; 0]]
         | Tet => [[1; 2; 3]; [0; 3; 2]; [0; 1; 3]; [0; 2; 1]]
         | Cube => [[3; 2; 1; 0]; [0; 1; 5; 4]; [1; 2; 6; 5]; [2; 3; 7; 6]; [3; 0; 4; 7]; [4; 5; 6; 7]]
         end%nat) [].
Definition orient (g : geom) (o : nat) : list nat :=
  nth o (match g with
         | Seg => [[0; 1]; [1; 0]]
         | Tri => [[0; 1; 2]; [1; 0; 2]; [2; 0; 1]; [2; 1; 0]; [1; 2; 0]; [0; 2; 1]]
         | Sq => [[0; 1; 2; 3]; [0; 3; 2; 1]; [1; 2; 3; 0]; [1; 0; 3; 2]; [2; 3; 0; 1]; [2; 1; 0; 3]; [3; 0; 1; 2]; [3; 2; 1; 0]]
         | _ => []
         end%nat) [].
(** the point with coordinates xi in the frame of a segment, triangle or parallelogram with the given corners *)
Definition axes (fg : geom) : list nat := match fg with Seg => [1] | Tri => [1; 2] | Sq => [1; 3] | _ => [] end%nat.
Definition in_frame (fg : geom) (cs : list (list R)) (xi : list R) : list R :=
  let c k d := nth d (nth k cs []) 0 in
  map (fun d => c 0%nat d + suml (combine (axes fg) xi) (fun at_ => snd at_ * (c (fst at_) d - c 0%nat d))) (seq 0 (length (nth 0 cs []))).
Definition pick {A} (l : list A) (d : A) (ids : list nat) : list A := map (fun k => nth k l d) ids.
(** the point of the element at coordinates xi of its side i, and the same point in the coordinates of the face *)
Definition side_point (g : geom) (i : nat) (xi : list R) : list R := in_frame (face_of g) (pick (corners g) [] (side_corners g i)) xi.
Definition face_point (fg : geom) (o : nat) (xi : list R) : list R := in_frame fg (pick (corners fg) [] (orient fg o)) xi.
Definition face_dim (fg : geom) : nat := length (axes fg).
Definition is_element (g : geom) : Prop := match g with Seg => False | _ => True end.

(** ** one-dimensional facts *)
Lemma upto3 (P : nat -> Prop) : P 0%nat -> P 1%nat -> P 2%nat -> P 3%nat -> forall p, (p <= 3)%nat -> P p.
Proof. intros H0 H1 H2 H3 [|[|[|[|p]]]] H; auto; lia. Qed.
Lemma lob_at_0 s p : (p <= 3)%nat -> lob_list s (p + 1) 0 = match p with 0%nat => [1] | 1%nat => [1; 0] | 2%nat => [1; 0; 0] | _ => [1; 0; 0; 0] end.
Proof. revert p; apply upto3; unfold lob_list; cbn [Nat.add lob]; repeat (apply (f_equal2 (@cons R)); [field|]); reflexivity. Qed.
Lemma lob_at_1 s p : (p <= 3)%nat -> lob_list s (p + 1) 1 = match p with 0%nat => [1] | 1%nat => [0; 1] | 2%nat => [0; 0; 1] | _ => [0; 0; 0; 1] end.
Proof. revert p; apply upto3; unfold lob_list; cbn [Nat.add lob]; repeat (apply (f_equal2 (@cons R)); [field|]); reflexivity. Qed.
Lemma lob_flip s p x : root5 s -> (p <= 3)%nat -> lob_list s (p + 1) (1 - x) = rev (lob_list s (p + 1) x).
Proof. intros Hs. unfold root5 in Hs. revert p; apply upto3; unfold lob_list; cbn [Nat.add lob rev app]; repeat (apply (f_equal2 (@cons R)); [field [Hs]|]); reflexivity. Qed.
Lemma lob_shape s p x : (p <= 3)%nat -> exists l, lob_list s (p + 1) x = l /\ length l = (p + 1)%nat.
Proof. intros H. eexists; split; [reflexivity|]. revert p H; apply upto3; reflexivity. Qed.
Lemma lists n (l : list R) : length l = n ->
  match n with
  | 1%nat => exists a, l = [a] | 2%nat => exists a b, l = [a; b] | 3%nat => exists a b c, l = [a; b; c] | 4%nat => exists a b c d, l = [a; b; c; d] | _ => True
  end.
Proof. destruct l as [|a [|b [|c [|d [|e l]]]]]; intros <-; cbn; eauto. Qed.

(** ** points *)
Ltac point := cbv [side_point face_point in_frame face_of pick corners side_corners orient axes nth map seq length combine suml fst snd]; repeat (apply (f_equal2 (@cons R)); [ring|]); reflexivity.
Lemma seg_points x : face_point Seg 0 [x] = [x] /\ face_point Seg 1 [x] = [1 - x].
Proof. split; point. Qed.
Lemma tri_face_points x y : (face_point Tri 0 [x; y] = [x; y] /\ face_point Tri 1 [x; y] = [1 - x - y; y] /\ face_point Tri 2 [x; y] = [y; 1 - x - y]) /\
  face_point Tri 3 [x; y] = [x; 1 - x - y] /\ face_point Tri 4 [x; y] = [1 - x - y; x] /\ face_point Tri 5 [x; y] = [y; x].
Proof. repeat split; point. Qed.
Lemma sq_face_points x y : (face_point Sq 0 [x; y] = [x; y] /\ face_point Sq 1 [x; y] = [y; x] /\ face_point Sq 2 [x; y] = [1 - y; x] /\ face_point Sq 3 [x; y] = [1 - x; y]) /\
  face_point Sq 4 [x; y] = [1 - x; 1 - y] /\ face_point Sq 5 [x; y] = [1 - y; 1 - x] /\ face_point Sq 6 [x; y] = [y; 1 - x] /\ face_point Sq 7 [x; y] = [x; 1 - y].
Proof. repeat split; point. Qed.
Lemma tri_side_points x : side_point Tri 0 [x] = [x; 0] /\ side_point Tri 1 [x] = [1 - x; x] /\ side_point Tri 2 [x] = [0; 1 - x].
Proof. repeat split; point. Qed.
Lemma sq_side_points x : side_point Sq 0 [x] = [x; 0] /\ side_point Sq 1 [x] = [1; x] /\ side_point Sq 2 [x] = [1 - x; 1] /\ side_point Sq 3 [x] = [0; 1 - x].
Proof. repeat split; point. Qed.
Lemma tet_side_points x y : side_point Tet 0 [x; y] = [1 - x - y; x; y] /\ side_point Tet 1 [x; y] = [0; y; x] /\ side_point Tet 2 [x; y] = [x; 0; y] /\ side_point Tet 3 [x; y] = [y; x; 0].
Proof. repeat split; point. Qed.
Lemma cube_side_points x y : (side_point Cube 0 [x; y] = [x; 1 - y; 0] /\ side_point Cube 1 [x; y] = [x; 0; y] /\ side_point Cube 2 [x; y] = [1; x; y]) /\
  side_point Cube 3 [x; y] = [1 - x; 1; y] /\ side_point Cube 4 [x; y] = [0; 1 - x; y] /\ side_point Cube 5 [x; y] = [x; y; 1].
Proof. repeat split; point. Qed.
