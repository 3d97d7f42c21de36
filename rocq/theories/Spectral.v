(** * Every symmetric 3x3 matrix has an orthonormal frame of eigenvectors

    No part of the code: what the theorems about matrix square roots need.  The frame comes from the analysis of eig_symm,
    whose leading column is always an eigenvector; the remaining 2x2 block is diagonalised here. *)
From Coq Require Import Reals Lra Lia Bool.
From Verif Require Import Sums Dual Tensor LU MatAlg SymEig SymEigFacts SymEigRotate SymEigMain IsoFun IsoEig.
Local Open Scope R_scope.

Ltac v3e := repeat match goal with u : v3 |- _ => destruct u end; unfold dot3, cross3, vadd, vsub, vscal, zero3, mv3, residual in *; cbn [c0 c1 c2] in *.

Lemma block A u v : symmetric3 A -> orthonormal2 u v -> forall l, mv3 A (cross3 u v) = vscal l (cross3 u v) ->
  exists a b c, mv3 A u = vadd (vscal a u) (vscal b v) /\ mv3 A v = vadd (vscal b u) (vscal c v).
Proof.
  intros HS O l E. exists (dot3 (mv3 A u) u), (dot3 (mv3 A u) v), (dot3 (mv3 A v) v).
  assert (S3 := sym3_of A HS).
  assert (Z : forall x, dot3 x (cross3 u v) = 0 -> dot3 (mv3 A x) (cross3 u v) = 0).
  { intros x Hx. rewrite dot3_comm, (bilinear_sym A _ _ S3), E, dot3_scal_r, Hx. ring. }
  assert (Zu : dot3 u (cross3 u v) = 0) by (rewrite dot3_comm; apply cross3_dot_l).
  assert (Zv : dot3 v (cross3 u v) = 0) by (rewrite dot3_comm; apply cross3_dot_r).
  assert (Sw : dot3 (mv3 A v) u = dot3 (mv3 A u) v) by (rewrite dot3_comm, (bilinear_sym A _ _ S3), dot3_comm; reflexivity).
  split.
  - rewrite (frame_complete u v (mv3 A u) O) at 1. rewrite (Z u Zu). apply v3_ext; v3e; ring.
  - rewrite (frame_complete u v (mv3 A v) O) at 1. rewrite (Z v Zv), Sw. apply v3_ext; v3e; ring.
Qed.

(** a unit vector of the plane that a symmetric 2x2 block maps to a multiple of itself, and the one at right angles to it *)
Lemma two_by_two a b c : exists x y l m, x * x + y * y = 1 /\ a * x + b * y = l * x /\ b * x + c * y = l * y /\
  - a * y + b * x = - m * y /\ - b * y + c * x = m * x.
Proof.
  destruct (Req_EM_T b 0) as [->|N].
  { exists 1, 0, a, c. repeat split; ring. }
  set (d := (a - c) / 2). set (r := sqrt (d * d + b * b)).
  assert (Hr : r * r = d * d + b * b). { unfold r. apply sqrt_sqrt. assert (X1 := Rle_0_sqr d). assert (X2 := Rle_0_sqr b). unfold Rsqr in *. lra. }
  set (n := sqrt ((d + r) * (d + r) + b * b)).
  assert (P : 0 < (d + r) * (d + r) + b * b).
  { assert (X1 := Rle_0_sqr (d + r)). assert (X2 := Rsqr_pos_lt b N). unfold Rsqr in *. lra. }
  assert (Hn : n * n = (d + r) * (d + r) + b * b) by (unfold n; apply sqrt_sqrt; lra).
  assert (Pn : n <> 0). { intro Q. rewrite Q in Hn. lra. }
  exists ((d + r) / n), (b / n), (c + d + r), (a - d - r).
  assert (Ea : a = c + 2 * d) by (unfold d; field).
  assert (X1 : (d + r) / n * ((d + r) / n) + b / n * (b / n) = 1). { replace ((d + r) / n * ((d + r) / n) + b / n * (b / n)) with (((d + r) * (d + r) + b * b) / (n * n)) by (field; exact Pn). rewrite Hn. field. lra. }
  assert (K : forall p q, p = q -> p / n = q / n) by (intros; congruence).
  split; [exact X1|]. repeat split.
  - replace (a * ((d + r) / n) + b * (b / n)) with ((a * (d + r) + b * b) / n) by (field; exact Pn).
    replace ((c + d + r) * ((d + r) / n)) with (((c + d + r) * (d + r)) / n) by (field; exact Pn). apply K. rewrite Ea. lra.
  - field. exact Pn.
  - rewrite Ea. field. exact Pn.
  - replace (- b * (b / n) + c * ((d + r) / n)) with ((- b * b + c * (d + r)) / n) by (field; exact Pn).
    replace ((a - d - r) * ((d + r) / n)) with (((a - d - r) * (d + r)) / n) by (field; exact Pn). apply K. rewrite Ea. lra.
Qed.

Lemma rotate_frame A u v l : symmetric3 A -> orthonormal2 u v -> mv3 A (cross3 u v) = vscal l (cross3 u v) ->
  exists e, framed e /\ decomposes A e.
Proof.
  intros HS O E. destruct (block A u v HS O l E) as [a [b [c [Eu Ev]]]]. destruct (two_by_two a b c) as [x [y [p [q [N [H1 [H2 [H3 H4]]]]]]]].
  exists (Eigen (V l p q) (cross3 u v) (vadd (vscal x u) (vscal y v)) (vadd (vscal (- y) u) (vscal x v))).
  assert (U := frame_unit _ _ O). destruct O as [O1 [O2 O3]]. assert (D1 := cross3_dot_l u v). assert (D2 := cross3_dot_r u v).
  split.
  - apply frame_framed. cbn [q0 q1 q2]. unfold frame. rewrite !dot3_add_l, !dot3_add_r, !dot3_scal_l, !dot3_scal_r, U, D1, D2, O1, O2, (dot3_comm v u), O3.
    repeat split; lra.
  - intros k Hk. destruct k as [|[|[|]]]; try lia; cbn [column lam q0 q1 q2 entry c0 c1 c2].
    + exact E.
    + rewrite mv3_add, !mv3_scal, Eu, Ev. clear - H1 H2.
      replace (vadd (vscal x (vadd (vscal a u) (vscal b v))) (vscal y (vadd (vscal b u) (vscal c v)))) with
        (vadd (vscal (a * x + b * y) u) (vscal (b * x + c * y) v)) by (apply v3_ext; v3e; ring).
      rewrite H1, H2. apply v3_ext; v3e; ring.
    + rewrite mv3_add, !mv3_scal, Eu, Ev. clear - H3 H4.
      replace (vadd (vscal (- y) (vadd (vscal a u) (vscal b v))) (vscal x (vadd (vscal b u) (vscal c v)))) with
        (vadd (vscal (- a * y + b * x) u) (vscal (- b * y + c * x) v)) by (apply v3_ext; v3e; ring).
      rewrite H3, H4. apply v3_ext; v3e; ring.
Qed.

(** a unit vector lies across some orthonormal pair *)
Lemma some_pair A l u v w : dot3 u u = 1 -> dot3 v v = 1 -> dot3 u v = 0 -> dot3 w u = 0 -> dot3 w v = 0 -> mv3 A w = vscal l w -> dot3 w w = 1 ->
  mv3 A (cross3 u v) = vscal l (cross3 u v).
Proof.
  intros Hu Hv Huv Hw1 Hw2 E W. assert (O : orthonormal2 u v) by (repeat split; auto).
  assert (F := frame_complete u v w O). rewrite Hw1, Hw2 in F. set (k := dot3 w (cross3 u v)) in *.
  assert (Ew : w = vscal k (cross3 u v)). { rewrite F at 1. clear. apply v3_ext; v3e; ring. }
  assert (Nk : k <> 0). { intro Z. rewrite Z in Ew. rewrite Ew in W. clear - W. v3e. lra. }
  assert (Ec : cross3 u v = vscal (/ k) w). { rewrite Ew at 1. clear - Nk. apply v3_ext; v3e; field; exact Nk. }
  rewrite Ec, mv3_scal, E. clear. apply v3_ext; v3e; ring.
Qed.

Theorem spectral_frame A : symmetric3 A -> exists e, framed e /\ decomposes A e.
Proof.
  intro HS. destruct (unsorted A HS) as [e [_ H]]. cbv zeta in H.
  set (e' := Eigen (shift (tr 3 A / 3) (lam e)) (q0 e) (q1 e) (q2 e)) in *. clearbody e'. destruct H as [F [_ H]].
  assert (K : forall i j k, (i < 3)%nat -> (j < 3)%nat -> (k < 3)%nat -> i <> j -> i <> k -> j <> k ->
    residual A (entry (lam e') k) (column e' k) = zero3 -> exists e, framed e /\ decomposes A e).
  { intros i j k Hi Hj Hk N1 N2 N3 R. apply residual_zero in R.
    assert (G : forall a b, (a < 3)%nat -> (b < 3)%nat -> a <> b -> dot3 (column e' a) (column e' b) = 0).
    { intros a b Ha Hb N. rewrite (F a b Ha Hb). apply Nat.eqb_neq in N. now rewrite N. }
    assert (G1 : forall a, (a < 3)%nat -> dot3 (column e' a) (column e' a) = 1) by (intros a Ha; rewrite (F a a Ha Ha), Nat.eqb_refl; reflexivity).
    apply (rotate_frame A (column e' i) (column e' j) (entry (lam e') k) HS).
    - repeat split; auto.
    - apply (some_pair A (entry (lam e') k) _ _ (column e' k)); auto. }
  destruct H as [[_ [H|H]]|H].
  - exists e'. split; [exact F|]. intros k Hk. apply residual_zero, H, Hk.
  - destruct H as [i [j [k [Hi [Hj [Hk [N1 [N2 [N3 [R _]]]]]]]]]]. exact (K i j k Hi Hj Hk N1 N2 N3 R).
  - destruct H as [i [j [k [Hi [Hj [Hk [N1 [N2 [N3 [R _]]]]]]]]]]. exact (K i j k Hi Hj Hk N1 N2 N3 R).
Qed.

Theorem spectral A : symmetric3 A -> exists Q l, orth 3 Q /\ eigs 3 A Q l.
Proof.
  intro HS. destruct (spectral_frame A HS) as [e [F D]]. exists (basis e), (entry (lam e)).
  split; [now apply framed_orth|now apply decomposes_eigs].
Qed.
