(** * Edge elements on quadrilaterals and hexahedra (C62) *)
From Coq Require Import Reals Lra Lia List Arith.
From Verif Require Import Sums Quadrature ShapeDefs ShapeFacts ShapeTensor SumFactor.
Import ListNotations.
Local Open Scope R_scope.

(** ** the code *)
(** polynomials.hpp:557-579 GaussLegendreInterpolation; other orders return zeros *)
Definition leg_list (n : nat) (x : R) : list R :=
  match n with
  | 1%nat => [1]
  | 2%nat => [1.3660254037844386467637231708 - 1.732050807568877293527446342 * x;
              -0.3660254037844386467637231708 + 1.732050807568877293527446342 * x]
  | 3%nat => [1.47883055770123614752987757 + x * (-4.6243277820691389617264218 + 3.33333333333333333333333333 * x);
              -0.666666666666666666666666667 + (6.66666666666666666666666667 - 6.666666666666666666666666667 * x) * x;
              0.1878361089654305191367891 + x * (-2.04233888459752770494024487 + 3.33333333333333333333333333 * x)]
  | 4%nat => [1.5267881254572667869843283 + x * (-8.546023607872198765973019 + (14.325858354171888152966621 - 7.420540068038946105200642 * x) * x);
              -0.8136324494869272605618981 + x * (13.807166925689577066158695 + x * (-31.388222363446060212058231 + 18.795449407555060811261716 * x));
              0.400761520311650404800281777 + x * (-7.41707042146263907582738061 + (24.9981258592191222217269164 - 18.79544940755506081126171563 * x) * x);
              -0.113917196281989931222711973 + x * (2.15592710364526077564170438 + x * (-7.9357618499449501626353065 + 7.4205400680389461052006424 * x))]
  | _ => repeat 0 n
  end.

(** quadrilateral_Hcurl.inl:192-216 shape_functions: x-facing first, then y-facing, i fastest *)
Definition hq_shape (s : R) (p : nat) (pt : list R) : list (list R) :=
  match pt with
  | [x; y] => flat_map (fun nj => map (fun ni => [ni * nj; 0]) (leg_list p x)) (lob_list s (p + 1) y) ++
              flat_map (fun nj => map (fun ni => [0; ni * nj]) (lob_list s (p + 1) x)) (leg_list p y)
  | _ => []
  end.
(** 219-242 shape_function_curl: the out-of-plane component *)
Definition hq_curl (s : R) (p : nat) (pt : list R) : list R :=
  match pt with
  | [x; y] => flat_map (fun dj => map (fun ni => - ni * dj) (leg_list p x)) (lob_d_list s (p + 1) y) ++
              flat_map (fun nj => map (fun di => di * nj) (lob_d_list s (p + 1) x)) (leg_list p y)
  | _ => []
  end.
(** hexahedron_Hcurl.inl:164-204 *)
Definition hx_shape (s : R) (p : nat) (pt : list R) : list (list R) :=
  match pt with
  | [x; y; z] =>
      flat_map (fun gk => flat_map (fun gj => map (fun fi => [fi * gj * gk; 0; 0]) (leg_list p x)) (lob_list s (p + 1) y)) (lob_list s (p + 1) z) ++
      flat_map (fun gk => flat_map (fun fj => map (fun gi => [0; gi * fj * gk; 0]) (lob_list s (p + 1) x)) (leg_list p y)) (lob_list s (p + 1) z) ++
      flat_map (fun fk => flat_map (fun gj => map (fun gi => [0; 0; gi * gj * fk]) (lob_list s (p + 1) x)) (lob_list s (p + 1) y)) (leg_list p z)
  | _ => []
  end.
(** 206-253; [both] pairs the values g with the derivatives dg *)
Definition hx_curl (s : R) (p : nat) (pt : list R) : list (list R) :=
  match pt with
  | [x; y; z] =>
      let g := fun v => both (lob_list s (p + 1) v) (lob_d_list s (p + 1) v) in
      flat_map (fun gk => flat_map (fun gj => map (fun fi => [0; fi * fst gj * snd gk; - fi * snd gj * fst gk]) (leg_list p x)) (g y)) (g z) ++
      flat_map (fun gk => flat_map (fun fj => map (fun gi => [- fst gi * fj * snd gk; 0; snd gi * fj * fst gk]) (g x)) (leg_list p y)) (g z) ++
      flat_map (fun fk => flat_map (fun gj => map (fun gi => [fst gi * snd gj * fk; - snd gi * fst gj * fk; 0]) (g x)) (g y)) (leg_list p z)
  | _ => []
  end.
(** quadrilateral_Hcurl.inl:94-104, hexahedron_Hcurl.inl:108-118 calculate_B1; B2 and G2 are calculate_B and
    calculate_G of SumFactor.v with n = p + 1 (quadrilateral_Hcurl.inl:117-150, hexahedron_Hcurl.inl:131-162) *)
Definition calculate_B1 (p : nat) (apply_weights : bool) (t : rule1) : mat :=
  fun i j => let v := nth j (leg_list p (xq t i)) 0 in if apply_weights then v * wq t i else v.
(** the degrees of freedom of one element, dof_type (quadrilateral_Hcurl.inl:41-44, hexahedron_Hcurl.inl:41-45) *)
Record dofs2 := { d2x : mat; d2y : mat }.
Record dofs3 := { d3x : cub; d3y : cub; d3z : cub }.
(** quadrilateral_Hcurl.inl:287-323 interpolate: value and curl at the flat quadrature point Q *)
Definition hq_interpolate (s : R) (p : nat) (t : rule1) (u : dofs2) (Q : nat) : list R * R :=
  let n := (p + 1)%nat in let q := length t in
  let B1 := calculate_B1 p false t in let B2 := calculate_B s n false t in let G2 := calculate_G s n false t in
  let A := contract2 true by_cols p (d2x u) B1 in
  let value0 := contract2 false by_cols n A B2 in
  let curl := fun i j => 0 - contract2 false by_cols n A G2 i j in
  let A' := contract2 false by_cols p (d2y u) B1 in
  let value1 := contract2 true by_cols n A' B2 in
  let curl' := fun i j => curl i j + contract2 true by_cols n A' G2 i j in
  let qy := (Q / q)%nat in let qx := (Q mod q)%nat in
  ([value0 qy qx; value1 qy qx], curl' qy qx).
(** 325-357 integrate: [src Q] and [flx Q] are the source vector and the flux scalar of point Q *)
Definition hq_integrate (s : R) (p : nat) (t : rule1) (src : nat -> nat -> R) (flx : nat -> R) (res : dofs2) : dofs2 :=
  let n := (p + 1)%nat in let q := length t in
  let B1 := calculate_B1 p true t in let B2 := calculate_B s n true t in let G2 := calculate_G s n true t in
  let source := fun i qy qx => src (qy * q + qx)%nat i in
  let flux := fun qy qx => flx (qy * q + qx)%nat in
  let A := fun a b => contract2 false by_rows q (source 0%nat) B2 a b - contract2 false by_rows q flux G2 a b in
  let A' := fun a b => contract2 true by_rows q (source 1%nat) B2 a b + contract2 true by_rows q flux G2 a b in
  {| d2x := fun i j => d2x res i j + contract2 true by_rows q A B1 i j;
     d2y := fun i j => d2y res i j + contract2 false by_rows q A' B1 i j |}.
(** 244-285 batch_apply_shape_fn: the derivative of the q-function at point Q, as blocks d00 d01 / d10 d11 (rows:
    entries of the source and of the flux; columns: entries of the value, the curl), applied to shape function j *)
Record blocks2 := { b00 : nat -> nat -> R; b01 : nat -> R; b10 : nat -> nat -> R; b11 : nat -> R }.
Definition hq_apply (s : R) (p : nat) (t : rule1) (j : nat) (D : nat -> blocks2) (Q : nat) : (nat -> R) * (nat -> R) :=
  let n := (p + 1)%nat in let q := length t in
  let B1 := calculate_B1 p false t in let B2 := calculate_B s n false t in let G2 := calculate_G s n false t in
  let dir := (j / ((p + 1) * p))%nat in
  let jx := if Nat.eqb dir 0 then (j mod p)%nat else ((j mod ((p + 1) * p)) mod n)%nat in
  let jy := if Nat.eqb dir 0 then (j / p)%nat else ((j mod ((p + 1) * p)) / n)%nat in
  let qy := (Q / q)%nat in let qx := (Q mod q)%nat in
  let is := fun d => if Nat.eqb dir d then 1 else 0 in
  let phi := fun a => nth a [is 0%nat * B1 qx jx * B2 qy jy; is 1%nat * B1 qy jy * B2 qx jx] 0 in
  let curl := is 0%nat * - B1 qx jx * G2 qy jy + is 1%nat * B1 qy jy * G2 qx jx in
  (fun a => sumn 2 (fun b => b00 (D Q) a b * phi b) + b01 (D Q) a * curl,
   fun a => sumn 2 (fun b => b10 (D Q) a b * phi b) + b11 (D Q) a * curl).
(** hexahedron_Hcurl.inl:335-391 *)
Definition hx_interpolate (s : R) (p : nat) (t : rule1) (u : dofs3) (Q : nat) : list R * list R :=
  let n := (p + 1)%nat in let q := length t in
  let B1 := calculate_B1 p false t in let B2 := calculate_B s n false t in let G2 := calculate_G s n false t in
  let X1 := contract3 ax2 by_cols p (d3x u) B1 in
  let X20 := contract3 ax1 by_cols n X1 B2 in let X21 := contract3 ax1 by_cols n X1 G2 in
  let Y1 := contract3 ax1 by_cols p (d3y u) B1 in
  let Y20 := contract3 ax0 by_cols n Y1 B2 in let Y21 := contract3 ax0 by_cols n Y1 G2 in
  let Z1 := contract3 ax0 by_cols p (d3z u) B1 in
  let Z20 := contract3 ax2 by_cols n Z1 B2 in let Z21 := contract3 ax2 by_cols n Z1 G2 in
  let qz := (Q / q / q)%nat in let qy := ((Q / q) mod q)%nat in let qx := (Q mod q)%nat in
  ([contract3 ax0 by_cols n X20 B2 qz qy qx; contract3 ax2 by_cols n Y20 B2 qz qy qx; contract3 ax1 by_cols n Z20 B2 qz qy qx],
   [0 - contract3 ax2 by_cols n Y21 B2 qz qy qx + contract3 ax1 by_cols n Z20 G2 qz qy qx;
    0 + contract3 ax0 by_cols n X20 G2 qz qy qx - contract3 ax1 by_cols n Z21 B2 qz qy qx;
    0 - contract3 ax0 by_cols n X21 B2 qz qy qx + contract3 ax2 by_cols n Y20 G2 qz qy qx]).
(** 393-455 *)
Definition hx_integrate (s : R) (p : nat) (t : rule1) (src flx : nat -> nat -> R) (res : dofs3) : dofs3 :=
  let n := (p + 1)%nat in let q := length t in
  let B1 := calculate_B1 p true t in let B2 := calculate_B s n true t in let G2 := calculate_G s n true t in
  let source := fun i qz qy qx => src ((qz * q + qy) * q + qx)%nat i in
  let flux := fun i qz qy qx => flx ((qz * q + qy) * q + qx)%nat i in
  let c := fun ax A B => contract3 ax by_rows q A B in
  let X20 := fun a b d => c ax0 (source 0%nat) B2 a b d + c ax0 (flux 1%nat) G2 a b d in
  let X21 := c ax0 (flux 2%nat) B2 in
  let X1 := fun a b d => c ax1 X20 B2 a b d - c ax1 X21 G2 a b d in
  let Y20 := fun a b d => c ax2 (source 1%nat) B2 a b d + c ax2 (flux 2%nat) G2 a b d in
  let Y21 := c ax2 (flux 0%nat) B2 in
  let Y1 := fun a b d => c ax0 Y20 B2 a b d - c ax0 Y21 G2 a b d in
  let Z20 := fun a b d => c ax1 (source 2%nat) B2 a b d + c ax1 (flux 0%nat) G2 a b d in
  let Z21 := c ax1 (flux 1%nat) B2 in
  let Z1 := fun a b d => c ax2 Z20 B2 a b d - c ax2 Z21 G2 a b d in
  {| d3x := fun i j k => d3x res i j k + c ax2 X1 B1 i j k;
     d3y := fun i j k => d3y res i j k + c ax1 Y1 B1 i j k;
     d3z := fun i j k => d3z res i j k + c ax0 Z1 B1 i j k |}.
(** 255-333 *)
Record blocks3 := { c00 : nat -> nat -> R; c01 : nat -> nat -> R; c10 : nat -> nat -> R; c11 : nat -> nat -> R }.
Definition hx_apply (s : R) (p : nat) (t : rule1) (j : nat) (D : nat -> blocks3) (Q : nat) : (nat -> R) * (nat -> R) :=
  let n := (p + 1)%nat in let q := length t in
  let B1 := calculate_B1 p false t in let B2 := calculate_B s n false t in let G2 := calculate_G s n false t in
  let dir := (j / (p * (p + 1) * (p + 1)))%nat in let r := (j mod (p * (p + 1) * (p + 1)))%nat in
  let qz := (Q / q / q)%nat in let qy := ((Q / q) mod q)%nat in let qx := (Q mod q)%nat in
  let '(phi, curl) :=
    match dir with
    | O => let jx := (r mod p)%nat in let jy := ((r mod (p * (p + 1))) / p)%nat in let jz := (r / (p * (p + 1)))%nat in
           ([B1 qx jx * B2 qy jy * B2 qz jz; 0; 0], [0; B1 qx jx * B2 qy jy * G2 qz jz; - B1 qx jx * G2 qy jy * B2 qz jz])
    | S O => let jx := (r mod (p + 1))%nat in let jy := ((r mod (p * (p + 1))) / (p + 1))%nat in let jz := (r / (p * (p + 1)))%nat in
           ([0; B2 qx jx * B1 qy jy * B2 qz jz; 0], [- B2 qx jx * B1 qy jy * G2 qz jz; 0; G2 qx jx * B1 qy jy * B2 qz jz])
    | S (S O) => let jx := (r mod (p + 1))%nat in let jy := ((r mod ((p + 1) * (p + 1))) / (p + 1))%nat in let jz := (r / ((p + 1) * (p + 1)))%nat in
           ([0; 0; B2 qx jx * B2 qy jy * B1 qz jz], [B2 qx jx * G2 qy jy * B1 qz jz; - G2 qx jx * B2 qy jy * B1 qz jz; 0])
    | _ => ([0; 0; 0], [0; 0; 0])
    end in
  (fun a => sumn 3 (fun b => c00 (D Q) a b * nth b phi 0) + sumn 3 (fun b => c01 (D Q) a b * nth b curl 0),
   fun a => sumn 3 (fun b => c10 (D Q) a b * nth b phi 0) + sumn 3 (fun b => c11 (D Q) a b * nth b curl 0)).
(** memory layout of dof_type: x(p+1, p) then y(p, p+1); x(p+1, p+1, p), y(p+1, p, p+1), z(p, p+1, p+1) *)
Definition flat_hq (p : nat) (u : dofs2) (k : nat) : R :=
  let m := ((p + 1) * p)%nat in
  if Nat.ltb k m then d2x u (k / p)%nat (k mod p)%nat else d2y u ((k - m) / (p + 1))%nat ((k - m) mod (p + 1))%nat.
Definition flat_hx (p : nat) (u : dofs3) (k : nat) : R :=
  let n := (p + 1)%nat in let m := (n * n * p)%nat in
  if Nat.ltb k m then d3x u (k / p / n)%nat ((k / p) mod n)%nat (k mod p)%nat
  else if Nat.ltb k (m + m) then d3y u ((k - m) / n / p)%nat (((k - m) / n) mod p)%nat ((k - m) mod n)%nat
  else d3z u ((k - (m + m)) / n / n)%nat (((k - (m + m)) / n) mod n)%nat ((k - (m + m)) mod n)%nat.
(** action_of_gradient_kernel on one element (domain_integral_kernels.hpp:277-303): interpolate, apply the stored
    derivatives, integrate; element_gradient_kernel (341-355): row J of dK starts as the zero it is cleared to *)
Definition zero2 : dofs2 := {| d2x := fun _ _ => 0; d2y := fun _ _ => 0 |}.
Definition zero3 : dofs3 := {| d3x := fun _ _ _ => 0; d3y := fun _ _ _ => 0; d3z := fun _ _ _ => 0 |}.
Definition hq_chain (D : blocks2) (u : list R * R) : (nat -> R) * (nat -> R) :=
  (fun a => sumn 2 (fun b => b00 D a b * nth b (fst u) 0) + b01 D a * snd u, fun a => sumn 2 (fun b => b10 D a b * nth b (fst u) 0) + b11 D a * snd u).
Definition hx_chain (D : blocks3) (u : list R * list R) : (nat -> R) * (nat -> R) :=
  (fun a => sumn 3 (fun b => c00 D a b * nth b (fst u) 0) + sumn 3 (fun b => c01 D a b * nth b (snd u) 0),
   fun a => sumn 3 (fun b => c10 D a b * nth b (fst u) 0) + sumn 3 (fun b => c11 D a b * nth b (snd u) 0)).
Definition hq_action s p t (D : nat -> blocks2) (u res : dofs2) : dofs2 :=
  hq_integrate s p t (fun Q => fst (hq_chain (D Q) (hq_interpolate s p t u Q))) (fun Q => snd (hq_chain (D Q) (hq_interpolate s p t u Q)) 0%nat) res.
Definition hq_row s p t (D : nat -> blocks2) (J : nat) : dofs2 :=
  hq_integrate s p t (fun Q => fst (hq_apply s p t J D Q)) (fun Q => snd (hq_apply s p t J D Q) 0%nat) zero2.
Definition hx_action s p t (D : nat -> blocks3) (u res : dofs3) : dofs3 :=
  hx_integrate s p t (fun Q => fst (hx_chain (D Q) (hx_interpolate s p t u Q))) (fun Q => snd (hx_chain (D Q) (hx_interpolate s p t u Q))) res.
Definition hx_row s p t (D : nat -> blocks3) (J : nat) : dofs3 :=
  hx_integrate s p t (fun Q => fst (hx_apply s p t J D Q)) (fun Q => snd (hx_apply s p t J D Q)) zero3.

(** ** specification: a field is the sum of its degrees of freedom times the shape functions *)
Definition comp_sum (shape : list R -> list (list R)) (ndof : nat) (X : nat -> R) (a : nat) (pt : list R) : R :=
  sumn ndof (fun k => X k * nth a (nth k (shape pt) []) 0).
Definition hq_ndof (p : nat) : nat := (2 * p * (p + 1))%nat.
Definition hx_ndof (p : nat) : nat := (3 * p * (p + 1) * (p + 1))%nat.
Definition hq_field s p (u : dofs2) (a : nat) (pt : list R) : R := comp_sum (hq_shape s p) (hq_ndof p) (flat_hq p u) a pt.
Definition hq_field_curl s p (u : dofs2) (pt : list R) : R := sumn (hq_ndof p) (fun k => flat_hq p u k * nth k (hq_curl s p pt) 0).
Definition hx_field s p (u : dofs3) (a : nat) (pt : list R) : R := comp_sum (hx_shape s p) (hx_ndof p) (flat_hx p u) a pt.
Definition hx_field_curl s p (u : dofs3) (a : nat) (pt : list R) : R := comp_sum (hx_curl s p) (hx_ndof p) (flat_hx p u) a pt.

(** ** entries of the lists *)
Lemma leg_len p x : length (leg_list p x) = p.
Proof. destruct p as [|[|[|[|[|p]]]]]; try reflexivity. cbn [leg_list]. now rewrite repeat_length. Qed.
Section Entries.
Variables (s : R) (p : nat).
Hypothesis Hp : (p <= 3)%nat.
Let n := (p + 1)%nat.
Definition o (i : nat) (x : R) : R := nth i (leg_list p x) 0.
Definition c (i : nat) (x : R) : R := nth i (lob_list s (p + 1) x) 0.
Definition dc (i : nat) (x : R) : R := nth i (lob_d_list s (p + 1) x) 0.
Lemma lob_l x : length (lob_list s (p + 1) x) = (p + 1)%nat.
Proof. exact (proj1 (lob_len s p x Hp)). Qed.
Lemma lob_dl x : length (lob_d_list s (p + 1) x) = (p + 1)%nat.
Proof. exact (proj2 (lob_len s p x Hp)). Qed.
Lemma hq_shape_x x y j i : (j < p + 1)%nat -> (i < p)%nat -> nth (j * p + i) (hq_shape s p [x; y]) [] = [o i x * c j y; 0].
Proof.
  intros Hj Hi. unfold hq_shape. rewrite app_nth1.
  - pose proof (outer_at (fun a b : R => [a * b; 0]) (leg_list p x) (lob_list s (p + 1) y) 0 0 [] i j) as H. rewrite leg_len in H. apply H; [exact Hi|]. now rewrite lob_l.
  - change (j * p + i < length (outer (fun a b : R => [(a * b)%R; 0%R]) (leg_list p x) (lob_list s (p + 1) y)))%nat. rewrite outer_length, leg_len, lob_l. nia.
Qed.
Lemma hq_shape_y x y j i : (j < p)%nat -> (i < p + 1)%nat -> nth ((p + 1) * p + (j * (p + 1) + i)) (hq_shape s p [x; y]) [] = [0; c i x * o j y].
Proof.
  intros Hj Hi. unfold hq_shape.
  change (flat_map (fun nj => map (fun ni => [ni * nj; 0]) (leg_list p x)) (lob_list s (p + 1) y)) with (outer (fun a b : R => [a * b; 0]) (leg_list p x) (lob_list s (p + 1) y)).
  assert (L : length (outer (fun a b : R => [a * b; 0]) (leg_list p x) (lob_list s (p + 1) y)) = ((p + 1) * p)%nat) by (rewrite outer_length, leg_len, lob_l; lia).
  rewrite app_nth2 by (rewrite L; lia). rewrite L. replace ((p + 1) * p + (j * (p + 1) + i) - (p + 1) * p)%nat with (j * (p + 1) + i)%nat by lia.
  pose proof (outer_at (fun a b : R => [0; a * b]) (lob_list s (p + 1) x) (leg_list p y) 0 0 [] i j) as H. rewrite leg_len, lob_l in H. exact (H Hi Hj).
Qed.
Lemma hq_curl_x x y j i : (j < p + 1)%nat -> (i < p)%nat -> nth (j * p + i) (hq_curl s p [x; y]) 0 = - o i x * dc j y.
Proof.
  intros Hj Hi. unfold hq_curl. rewrite app_nth1.
  - pose proof (outer_at (fun a b : R => - a * b) (leg_list p x) (lob_d_list s (p + 1) y) 0 0 0 i j) as H. rewrite leg_len in H. apply H; [exact Hi|]. now rewrite lob_dl.
  - change (j * p + i < length (outer (fun a b : R => (- a * b)%R) (leg_list p x) (lob_d_list s (p + 1) y)))%nat. rewrite outer_length, leg_len, lob_dl. nia.
Qed.
Lemma hq_curl_y x y j i : (j < p)%nat -> (i < p + 1)%nat -> nth ((p + 1) * p + (j * (p + 1) + i)) (hq_curl s p [x; y]) 0 = dc i x * o j y.
Proof.
  intros Hj Hi. unfold hq_curl.
  change (flat_map (fun dj => map (fun ni => - ni * dj) (leg_list p x)) (lob_d_list s (p + 1) y)) with (outer (fun a b : R => - a * b) (leg_list p x) (lob_d_list s (p + 1) y)).
  assert (L : length (outer (fun a b : R => - a * b) (leg_list p x) (lob_d_list s (p + 1) y)) = ((p + 1) * p)%nat) by (rewrite outer_length, leg_len, lob_dl; lia).
  rewrite app_nth2 by (rewrite L; lia). rewrite L. replace ((p + 1) * p + (j * (p + 1) + i) - (p + 1) * p)%nat with (j * (p + 1) + i)%nat by lia.
  pose proof (outer_at (fun a b : R => a * b) (lob_d_list s (p + 1) x) (leg_list p y) 0 0 0 i j) as H. rewrite leg_len, lob_dl in H. exact (H Hi Hj).
Qed.
Lemma flat_hq_x u j i : (j < p + 1)%nat -> (i < p)%nat -> flat_hq p u (j * p + i) = d2x u j i.
Proof. intros Hj Hi. unfold flat_hq. cbv zeta. rewrite (proj2 (Nat.ltb_lt _ _)) by nia. destruct (flat_divmod p j i Hi) as [-> ->]. reflexivity. Qed.
Lemma flat_hq_y u j i : (j < p)%nat -> (i < p + 1)%nat -> flat_hq p u ((p + 1) * p + (j * (p + 1) + i)) = d2y u j i.
Proof.
  intros Hj Hi. unfold flat_hq. cbv zeta. rewrite (proj2 (Nat.ltb_ge _ _)) by lia.
  replace ((p + 1) * p + (j * (p + 1) + i) - (p + 1) * p)%nat with (j * (p + 1) + i)%nat by lia. destruct (flat_divmod (p + 1) j i Hi) as [-> ->]. reflexivity.
Qed.
(** sums over the degrees of freedom *)
Lemma hq_sum f : sumn (hq_ndof p) f = sumn (p + 1) (fun j => sumn p (fun i => f (j * p + i)%nat)) + sumn p (fun j => sumn (p + 1) (fun i => f ((p + 1) * p + (j * (p + 1) + i))%nat)).
Proof.
  unfold hq_ndof. replace (2 * p * (p + 1))%nat with ((p + 1) * p + p * (p + 1))%nat by lia. rewrite sumn_app, sumn_mul.
  rewrite (sumn_mul p (p + 1) (fun i => f ((p + 1) * p + i)%nat)). reflexivity.
Qed.
Lemma hq_field_at u x y : hq_field s p u 0 [x; y] = sumn (p + 1) (fun j => sumn p (fun i => d2x u j i * (o i x * c j y))) /\
  hq_field s p u 1 [x; y] = sumn p (fun j => sumn (p + 1) (fun i => d2y u j i * (c i x * o j y))).
Proof.
  unfold hq_field, comp_sum. rewrite !hq_sum. split.
  - rewrite (sumn_zero p (fun j => sumn (p + 1) _)).
    + rewrite Rplus_0_r. apply sumn_ext. intros j Hj. apply sumn_ext. intros i Hi. rewrite flat_hq_x, hq_shape_x by assumption. reflexivity.
    + intros j Hj. apply sumn_zero. intros i Hi. rewrite hq_shape_y by assumption. cbn [nth]. ring.
  - rewrite (sumn_zero (p + 1) (fun j => sumn p _)).
    + rewrite Rplus_0_l. apply sumn_ext. intros j Hj. apply sumn_ext. intros i Hi. rewrite flat_hq_y, hq_shape_y by assumption. reflexivity.
    + intros j Hj. apply sumn_zero. intros i Hi. rewrite hq_shape_x by assumption. cbn [nth]. ring.
Qed.
Lemma hq_field_curl_at u x y : hq_field_curl s p u [x; y] =
  - sumn (p + 1) (fun j => sumn p (fun i => d2x u j i * (o i x * dc j y))) + sumn p (fun j => sumn (p + 1) (fun i => d2y u j i * (dc i x * o j y))).
Proof.
  unfold hq_field_curl. rewrite hq_sum. f_equal.
  - rewrite <- sumn_opp. apply sumn_ext. intros j Hj. rewrite <- sumn_opp. apply sumn_ext. intros i Hi. rewrite flat_hq_x, hq_curl_x by assumption. ring.
  - apply sumn_ext. intros j Hj. apply sumn_ext. intros i Hi. rewrite flat_hq_y, hq_curl_y by assumption. ring.
Qed.
End Entries.
