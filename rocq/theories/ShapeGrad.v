(** * Coded gradients of the simplex shape functions are their derivatives (C33) *)
From Coq Require Import Reals Lra Lia List.
From Coquelicot Require Import Coquelicot.
From Verif Require Import Sums Quadrature ShapeDefs ShapeFacts.
Import ListNotations.
Local Open Scope R_scope.

Ltac enum i := first [exfalso; lia | destruct i as [|i]; [|enum i]].
Lemma tri_gradients s p : root5 s -> (1 <= p <= 3)%nat -> exact_gradients 2 (tri_fn s p) (tri_gr s p).
Proof.
  unfold root5. intros H Hp [|x [|y [|? ?]]] L; try discriminate. split; [destruct p as [|[|[|[|p]]]]; try lia; reflexivity|].
  assert (N1 : -5 + s <> 0) by nra.
  intros i a Hi Ha. destruct p as [|[|[|[|p]]]]; try lia; cbn [tri_fn tri_shape length] in Hi; enum i; enum a;
  cbn [tri_fn tri_gr tri_shape tri_grad update nth];
  (auto_derive; [repeat split; auto; try exact Logic.I|no_inv H; field [H]; repeat split; auto]).
Qed.
Lemma tet_gradients s p : root5 s -> (1 <= p <= 3)%nat -> exact_gradients 3 (tet_fn s p) (tet_gr s p).
Proof.
  unfold root5. intros H Hp [|x [|y [|z [|? ?]]]] L; try discriminate. split; [destruct p as [|[|[|[|p]]]]; try lia; reflexivity|].
  assert (N2 : 271443 + 121393 * s <> 0) by nra. assert (N3 : 5 + 3 * s <> 0) by nra. assert (N4 : 143285 + 64079 * s <> 0) by nra.
  intros i a Hi Ha. destruct p as [|[|[|[|p]]]]; try lia; cbn [tet_fn tet_shape length] in Hi; enum i; enum a;
  cbn [tet_fn tet_gr tet_shape tet_grad update nth];
  (auto_derive; [repeat split; auto; try exact Logic.I|no_inv H; field [H]; repeat split; auto]).
Qed.
