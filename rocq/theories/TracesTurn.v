(** * Reading a face in another orientation, and reading the side of an element (C83) *)
From Coq Require Import ZArith Reals Lra Lia List Bool Arith.
From Verif Require Import Prelude Sums LexIds ShapeDefs ShapeFacts ShapeTensor Traces.
Import ListNotations.
Local Open Scope R_scope.

Definition inside (n : nat) (l : list Z) : Prop := List.Forall (fun k => (0 <= k < Z.of_nat n)%Z) l.
Definition insideb (n : nat) (l : list Z) : bool := forallb (fun k => (0 <=? k) && (k <? Z.of_nat n))%Z l.
Lemma insideb_ok n l : insideb n l = true -> inside n l.
Proof. unfold insideb, inside. rewrite forallb_forall, Forall_forall. intros H x Hx. specialize (H x Hx). apply andb_prop in H as [H1 H2]. lia. Qed.

(** the values of a face read through a row of a table are the values of [g] at point [b] *)
Definition reads (s : R) (fg : geom) (p : nat) (a : list R) (row : outcome (list Z)) (g : geom) (b : list R) : Prop :=
  exists r, row = Ok r /\ inside (ndof g p) r /\ length r = ndof fg p /\ forall v : Z -> R, exists x, dot (l2_shape s fg p a) (map v r) = Some x /\ dot (l2_shape s g p b) (map v (zseq (Z.of_nat (ndof g p)))) = Some x.

Ltac row := eexists; split; [vm_compute; reflexivity|]; split; [apply insideb_ok; vm_compute; reflexivity|]; split; [vm_compute; reflexivity|].
Ltac sums := cbv [dot length Nat.eqb combine suml fst snd map flat_map app rev].

Ltac numbers := match goal with |- context [zseq ?n] => let l := eval vm_compute in (zseq n) in change (zseq n) with l end.
Ltac orders p := destruct p as [|[|[|[|p]]]]; [| | | |exfalso; lia].
Ltac named L := apply lists in L; cbn [Nat.add] in L; repeat match type of L with ex _ => destruct L as [? L] end.
Ltac same := numbers; sums; eexists; split; [reflexivity|apply f_equal; ring].

(** ** segments *)
Lemma turn_seg s p o x : root5 s -> (p <= 3)%nat -> (o < 2)%nat -> reads s Seg p (face_point Seg o [x]) (perm_row Seg p (Z.of_nat o)) Seg [x].
Proof.
  intros Hs Hp Ho. destruct (seg_points x) as [P0 P1].
  destruct (lob_shape s p x Hp) as (l & E & L). pose proof (lob_flip s p x Hs Hp) as F. rewrite E in F.
  assert (o = 0 \/ o = 1)%nat as [-> | ->] by lia; [rewrite P0|rewrite P1];
    orders p; named L; rewrite L in E, F; (row; intros v; unfold l2_shape, seg_fn; rewrite ?F, ?E; same).
Qed.

(** ** triangles *)
Ltac simplex Hs := numbers; cbv [l2_shape tri_fn tet_fn tri_shape tet_shape seg_fn lob_list lob Nat.add]; sums; eexists; split; [reflexivity|apply f_equal; no_inv Hs; try ring; field [Hs]].
Lemma turn_tri s p o x y : root5 s -> (p <= 3)%nat -> (o < 6)%nat -> reads s Tri p (face_point Tri o [x; y]) (perm_row Tri p (Z.of_nat o)) Tri [x; y].
Proof.
  intros Hs Hp Ho. unfold root5 in Hs. destruct (tri_face_points x y) as ((P0 & P1 & P2) & P3 & P4 & P5).
  assert (o = 0 \/ o = 1 \/ o = 2 \/ o = 3 \/ o = 4 \/ o = 5)%nat as [-> | [-> | [-> | [-> | [-> | ->]]]]] by lia;
    [rewrite P0|rewrite P1|rewrite P2|rewrite P3|rewrite P4|rewrite P5]; orders p; (row; intros v; simplex Hs).
Qed.

(** ** sides of triangles *)
Lemma side_tri s p i x : root5 s -> (p <= 3)%nat -> (i < 3)%nat -> reads s Seg p [x] (local_row Tri p i) Tri (side_point Tri i [x]).
Proof.
  intros Hs Hp Hi. unfold root5 in Hs. destruct (tri_side_points x) as (P0 & P1 & P2).
  assert (i = 0 \/ i = 1 \/ i = 2)%nat as [-> | [-> | ->]] by lia; [rewrite P0|rewrite P1|rewrite P2]; orders p; (row; intros v; simplex Hs).
Qed.
(** ** faces of tetrahedra *)
Lemma side_tet s p i x y : root5 s -> (p <= 3)%nat -> (i < 4)%nat -> reads s Tri p [x; y] (local_row Tet p i) Tet (side_point Tet i [x; y]).
Proof.
  intros Hs Hp Hi. unfold root5 in Hs. destruct (tet_side_points x y) as (P0 & P1 & P2 & P3).
  assert (i = 0 \/ i = 1 \/ i = 2 \/ i = 3)%nat as [-> | [-> | [-> | ->]]] by lia; [rewrite P0|rewrite P1|rewrite P2|rewrite P3]; orders p; (row; intros v; simplex Hs).
Qed.

(** ** squares and cubes *)
Ltac product F G A B := unfold l2_shape, seg_fn, quad_fn, hex_fn; rewrite ?F, ?G, ?A, ?B.
Lemma turn_sq s p o x y : root5 s -> (p <= 3)%nat -> (o < 8)%nat -> reads s Sq p (face_point Sq o [x; y]) (perm_row Sq p (Z.of_nat o)) Sq [x; y].
Proof.
  intros Hs Hp Ho. destruct (sq_face_points x y) as ((P0 & P1 & P2 & P3) & P4 & P5 & P6 & P7).
  destruct (lob_shape s p x Hp) as (l & E & L). pose proof (lob_flip s p x Hs Hp) as F. rewrite E in F.
  destruct (lob_shape s p y Hp) as (l' & E' & L'). pose proof (lob_flip s p y Hs Hp) as F'. rewrite E' in F'.
  assert (o = 0 \/ o = 1 \/ o = 2 \/ o = 3 \/ o = 4 \/ o = 5 \/ o = 6 \/ o = 7)%nat as [-> | [-> | [-> | [-> | [-> | [-> | [-> | ->]]]]]]] by lia;
    [rewrite P0|rewrite P1|rewrite P2|rewrite P3|rewrite P4|rewrite P5|rewrite P6|rewrite P7];
    orders p; named L; named L'; rewrite L in E, F; rewrite L' in E', F'; (row; intros v; product F F' E E'; same).
Qed.
Lemma side_sq s p i x : root5 s -> (p <= 3)%nat -> (i < 4)%nat -> reads s Seg p [x] (local_row Sq p i) Sq (side_point Sq i [x]).
Proof.
  intros Hs Hp Hi. destruct (sq_side_points x) as (P0 & P1 & P2 & P3).
  destruct (lob_shape s p x Hp) as (l & E & L). pose proof (lob_flip s p x Hs Hp) as F. rewrite E in F.
  pose proof (lob_at_0 s p Hp) as A. pose proof (lob_at_1 s p Hp) as B.
  assert (i = 0 \/ i = 1 \/ i = 2 \/ i = 3)%nat as [-> | [-> | [-> | ->]]] by lia; [rewrite P0|rewrite P1|rewrite P2|rewrite P3];
    orders p; named L; rewrite L in E, F; (row; intros v; product F E A B; same).
Qed.
Lemma side_cube s p i x y : root5 s -> (p <= 3)%nat -> (i < 6)%nat -> reads s Sq p [x; y] (local_row Cube p i) Cube (side_point Cube i [x; y]).
Proof.
  intros Hs Hp Hi. destruct (cube_side_points x y) as ((P0 & P1 & P2) & P3 & P4 & P5).
  destruct (lob_shape s p x Hp) as (l & E & L). pose proof (lob_flip s p x Hs Hp) as F. rewrite E in F.
  destruct (lob_shape s p y Hp) as (l' & E' & L'). pose proof (lob_flip s p y Hs Hp) as F'. rewrite E' in F'.
  pose proof (lob_at_0 s p Hp) as A. pose proof (lob_at_1 s p Hp) as B.
  assert (i = 0 \/ i = 1 \/ i = 2 \/ i = 3 \/ i = 4 \/ i = 5)%nat as [-> | [-> | [-> | [-> | [-> | ->]]]]] by lia;
    [rewrite P0|rewrite P1|rewrite P2|rewrite P3|rewrite P4|rewrite P5];
    orders p; named L; named L'; rewrite L in E, F; rewrite L' in E', F'; (row; intros v; unfold l2_shape, quad_fn, hex_fn; rewrite ?F, ?F', ?E, ?E', ?A, ?B; same).
Qed.
