(** * The mesh described in an input file

    InputOptions::defineInputFileSchema, FromInlet<InputOptions>, buildParallelMesh and refineAndDistribute
    (/repo/src/serac/mesh/mesh_utils.cpp:394-522), findMeshFilePath (/repo/src/serac/infrastructure/input.cpp:46-66) and the
    part of the driver that uses them (/repo/src/drivers/serac.cpp:53-71, 344-354).

    Simplifications: coordinates are reals; a mesh is the list of its elements and of its boundary elements by their corners,
    without numbering, orientation and attributes, and boundary elements of boxes are left out; what a mesh file contains is
    given; mfem's division of a mesh among processes is any function from elements to ranks. *)
From Coq Require Import String List ZArith Bool Permutation Lia Reals Lra.
From Verif Require Import Mesh.
Import ListNotations.
Local Open Scope R_scope.

(** [Rejected] is SLIC_ERROR or an abort of mfem with a message, [Thrown] an exception nobody catches, [Undefined] a call that
    mfem does not define *)
Inductive built (A : Type) := Built (a : A) | Rejected | Thrown | Undefined.
Arguments Built {A} a. Arguments Rejected {A}. Arguments Thrown {A}. Arguments Undefined {A}.
Definition bindB {A B} (x : built A) (f : A -> built B) : built B := match x with Built a => f a | Rejected => Rejected | Thrown => Thrown | Undefined => Undefined end.

(** ** the block of the input file: what is absent is None (mesh_utils.cpp:394-421) *)
Record block := { kind : option string; ser : option Z; par : option Z; path : option string; ex : option Z; ey : option Z; ez : option Z;
  sx : option R; sy : option R; sz : option R; approx : option Z }.
Definition valid_kinds : list string := ["ball"; "box"; "disk"; "file"]%string.
(** required().validValues(...), checked by inlet.verify() (serac.cpp:68-70) *)
Definition verified (b : block) : bool := match kind b with Some k => existsb (String.eqb k) valid_kinds | None => false end.
(** a field without default that is absent makes Inlet report an error *)
Definition need {A} (o : option A) : built A := match o with Some a => Built a | None => Rejected end.
Definition level (o : option Z) : Z := match o with Some a => a | None => 0%Z end.
Definition given {A} (o : option A) : bool := match o with Some _ => true | None => false end.
Inductive shape := Box (elements : list Z) (sizes : list R) | NBall (n : Z) (dim : nat) | File (name : string).
(** FromInlet<InputOptions> (mesh_utils.cpp:475-522) *)
Definition read (b : block) : built (shape * Z * Z) :=
  match kind b with
  | None => Rejected
  | Some k =>
    if String.eqb k "box" then
      bindB (need (ex b)) (fun x => bindB (need (ey b)) (fun y =>
      let elements := match ez b with Some z => [x; y; z] | None => [x; y] end in
      if given (sx b) || given (sy b) || given (sz b) then
        bindB (need (sx b)) (fun a => bindB (need (sy b)) (fun c => Built (Box elements (match sz b with Some d => [a; c; d] | None => [a; c] end), level (ser b), level (par b))))
      else Built (Box elements (repeat 1 (List.length elements)), level (ser b), level (par b))))
    else if String.eqb k "disk" || String.eqb k "ball" then
      bindB (need (approx b)) (fun n => Built (NBall n (if String.eqb k "disk" then 2 else 3)%nat, level (ser b), level (par b)))
    else if String.eqb k "file" then bindB (need (path b)) (fun s => Built (File s, level (ser b), level (par b)))
    else Rejected
  end.

(** ** meshes *)
Inductive cell := Brick (sides : list (R * R)) | Simplex (corners : list vec).
Record mesh := { elems : list cell; bdr : list cell }.
Definition both (f : list cell -> list cell) (m : mesh) : mesh := {| elems := f (elems m); bdr := f (bdr m) |}.
Fixpoint product {A} (ls : list (list A)) : list (list A) := match ls with [] => [[]] | l :: r => flat_map (fun x => map (cons x) (product r)) l end.
Definition half (i : R * R) : list (R * R) := let m := (fst i + snd i) / 2 in [(fst i, m); (m, snd i)].
(** one uniform refinement of a segment, triangle or tetrahedron; [diagonal] is mfem's choice for the inner octahedron *)
Definition sub (diagonal : list vec -> nat) (v : list vec) : list (list vec) :=
  match v with
  | [a; b] => [[a; mid a b]; [mid a b; b]]
  | [a; b; c] => let ab := mid a b in let ac := mid a c in let bc := mid b c in [[a; ab; ac]; [ab; b; bc]; [ac; bc; c]; [ab; bc; ac]]
  | [a; b; c; d] =>
      let ab := mid a b in let ac := mid a c in let ad := mid a d in let bc := mid b c in let bd := mid b d in let cd := mid c d in
      [[a; ab; ac; ad]; [ab; b; bc; bd]; [ac; bc; c; cd]; [ad; bd; cd; d]] ++
      match diagonal v with
      | 0%nat => [[ab; cd; ac; ad]; [ab; cd; ad; bd]; [ab; cd; bd; bc]; [ab; cd; bc; ac]]
      | 1%nat => [[ac; bd; ab; ad]; [ac; bd; ad; cd]; [ac; bd; cd; bc]; [ac; bd; bc; ab]]
      | _ => [[ad; bc; ab; ac]; [ad; bc; ac; cd]; [ad; bc; cd; bd]; [ad; bc; bd; ab]]
      end
  | _ => [v]
  end.
(** UniformRefinement *)
Definition refine_cell (diagonal : list vec -> nat) (c : cell) : list cell :=
  match c with Brick l => map Brick (product (map half l)) | Simplex v => map Simplex (sub diagonal v) end.
Definition refine (diagonal : list vec -> nat) : mesh -> mesh := both (flat_map (refine_cell diagonal)).
Fixpoint times {A} (n : nat) (f : A -> A) (a : A) : A := match n with O => a | Datatypes.S n' => times n' f (f a) end.
(** for (int lev = 0; lev < n; lev++) *)
Definition levels {A} (n : Z) (f : A -> A) (a : A) : A := times (Z.to_nat n) f a.

(** MakeCartesian2D, MakeCartesian3D: equal intervals on every side from 0; called here only from buildRectangleMesh and
    buildCuboidMesh (mesh_utils.cpp:144-154), which check nothing *)
Definition axis (n : Z) (s : R) : list (R * R) := map (fun i => (s * INR i / IZR n, s * INR (Datatypes.S i) / IZR n)) (seq 0 (Z.to_nat n)).
Definition cartesian (n : list Z) (s : list R) : built mesh :=
  if forallb (Z.ltb 0) n then Built {| elems := map Brick (product (map (fun ns => axis (fst ns) (snd ns)) (combine n s))); bdr := [] |} else Undefined.
(** buildDiskMesh, buildBallMesh (mesh_utils.cpp:74-142): refine while too coarse, then squish every vertex *)
Definition simplices (vs : list (list Z)) (es : list (list nat)) : list cell := map (fun e => Simplex (corners vs e)) es.
Definition squished (c : cell) : cell := match c with Simplex v => Simplex (map squish v) | Brick l => Brick l end.
Fixpoint coarse_loop (diagonal : list vec -> nat) (fuel : nat) (threshold n : Z) (m : mesh) : option mesh :=
  match fuel with O => None | Datatypes.S f => if (Z.of_nat (List.length (elems m)) * threshold <? n)%Z then coarse_loop diagonal f threshold n (refine diagonal m) else Some m end.
Definition nball (diagonal : list vec -> nat) (n : Z) (dim : nat) : built mesh :=
  let start := if Nat.eqb dim 2 then {| elems := simplices disk_vertices disk_triangles; bdr := simplices disk_vertices disk_segments |} else {| elems := simplices ball_vertices ball_tetrahedra; bdr := simplices ball_vertices ball_triangles |} in
  match coarse_loop diagonal (Datatypes.S (Datatypes.S (Z.to_nat n))) (if Nat.eqb dim 2 then 2 else 4) n start with Some m => Built (both (map squished) m) | None => Undefined end.

(** ** from options to the mesh on every process *)
(** what is on disk: None when nothing exists under the name, Some None when it is not a mesh; [here] is the directory of the
    input file joined with a relative path *)
Record world := { disk : string -> option (option mesh); here : string -> string; ranks : nat; owner : nat -> nat; diagonal : list vec -> nat }.
(** findMeshFilePath *)
Definition find_path (w : world) (name : string) : built string :=
  if given (disk w name) then Built name else if given (disk w (here w name)) then Built (here w name) else Rejected.
(** buildMeshFromFile (mesh_utils.cpp:19-43) *)
Definition from_file (w : world) (name : string) : built mesh := match disk w name with Some (Some m) => Built m | _ => Rejected end.
(** std::vector::at *)
Definition at_ {A} (l : list A) (k : nat) : built A := match nth_error l k with Some a => Built a | None => Thrown end.
(** serac.cpp:347-351 and buildParallelMesh (mesh_utils.cpp:423-448) *)
Definition serial (w : world) (s : shape) : built mesh :=
  match s with
  | File name => bindB (find_path w name) (fun p => if String.eqb p "" then Rejected else from_file w p)
  | Box e s =>
      if Nat.eqb (List.length e) 2 then
        bindB (at_ e 0) (fun x => bindB (at_ e 1) (fun y => bindB (at_ s 0) (fun a => bindB (at_ s 1) (fun c => cartesian [x; y] [a; c]))))
      else bindB (at_ e 0) (fun x => bindB (at_ e 1) (fun y => bindB (at_ e 2) (fun z => bindB (at_ s 0) (fun a => bindB (at_ s 1) (fun c => bindB (at_ s 2) (fun d => cartesian [x; y; z] [a; c; d]))))))
  | NBall n dim => nball (diagonal w) n dim
  end.
(** the elements of rank r; mfem gives a boundary element to the rank of the element it belongs to, here to any rank *)
Definition share {A} (owner : nat -> nat) (r : nat) (l : list A) : list A := map snd (filter (fun ia => Nat.eqb (owner (fst ia)) r) (combine (seq 0 (List.length l)) l)).
(** refineAndDistribute (mesh_utils.cpp:452-470): one mesh for every rank *)
Definition refine_and_distribute (w : world) (m : mesh) (s p : Z) : list mesh :=
  let m' := levels s (refine (diagonal w)) m in map (fun r => levels p (refine (diagonal w)) (both (share (owner w) r) m')) (seq 0 (ranks w)).
(** serac.cpp:68-70, 344-354 *)
Definition main_mesh (w : world) (b : block) : built (list mesh) :=
  if verified b then bindB (read b) (fun o => match o with (s, sr, pr) => bindB (serial w s) (fun m => Built (refine_and_distribute w m sr pr)) end) else Rejected.

(** ** specification *)
(** all elements of all processes *)
Definition all_elems (ms : list mesh) : list cell := flat_map elems ms.
Definition all_bdr (ms : list mesh) : list cell := flat_map bdr ms.
(** the box [0, s_1] x [0, s_2] (x [0, s_3]) cut into n_1 x n_2 (x n_3) equal cells *)
Definition cells (n : list Z) (s : list R) : list cell := map Brick (product (map (fun ns => axis (fst ns) (snd ns)) (combine n s))).
(** total number of refinements; negative levels count as none *)
Definition depth (b : block) : nat := (Z.to_nat (level (ser b)) + Z.to_nat (level (par b)))%nat.
Definition doubled (k : nat) (n : Z) : Z := (n * 2 ^ Z.of_nat k)%Z.
Definition shares (w : world) : Prop := forall i, (owner w i < ranks w)%nat.
