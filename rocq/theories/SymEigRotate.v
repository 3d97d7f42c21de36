(** * The plane orthogonal to the leading eigenvector (C58) *)
From Coq Require Import Reals Lra Lia Bool Psatz.
From Verif Require Import Sums Tensor SymEig SymEigFacts.
Local Open Scope R_scope.

(** ** the two remaining eigenvalues and eigenvectors *)
Definition frame (u v w : v3) : Prop :=
  dot3 u u = 1 /\ dot3 v v = 1 /\ dot3 w w = 1 /\ dot3 u v = 0 /\ dot3 u w = 0 /\ dot3 v w = 0.
Lemma sgn_sq x : x <> 0 -> sgn x * sgn x = 1.
Proof. intro N. unfold sgn. destruct (Rlt_dec 0 x); [lra|]. destruct (Rlt_dec x 0); lra. Qed.
Lemma sgn_mul x : 0 <= sgn x * x.
Proof. unfold sgn. destruct (Rlt_dec 0 x); [lra|]. destruct (Rlt_dec x 0); lra. Qed.
Lemma half_gap_sq a b c : a <> c -> half_gap a b b c * half_gap a b b c = (a - c) * (a - c) / 4 + b * b.
Proof.
  intro N. unfold half_gap. set (D := (a - c) * (a - c) + 4 * b * b).
  assert (S : sqrt D * sqrt D = D) by (apply sqrt_sqrt; unfold D; nra).
  assert (G := sgn_sq (a - c) ltac:(lra)).
  replace (0.5 * sgn (a - c) * sqrt D * (0.5 * sgn (a - c) * sqrt D)) with (0.25 * (sgn (a - c) * sgn (a - c)) * (sqrt D * sqrt D)) by lra.
  rewrite G, S. unfold D. lra.
Qed.
Lemma half_gap_sign a b c : 0 <= (a - c) * half_gap a b b c.
Proof.
  unfold half_gap. assert (S := sqrt_pos ((a - c) * (a - c) + 4 * b * b)). assert (G := sgn_mul (a - c)).
  replace ((a - c) * (0.5 * sgn (a - c) * sqrt ((a - c) * (a - c) + 4 * b * b))) with
    (0.5 * (sgn (a - c) * (a - c)) * sqrt ((a - c) * (a - c) + 4 * b * b)) by ring.
  apply Rmult_le_pos; lra.
Qed.

Ltac v3u := unfold without, mv3, zero3; unfold dot3, cross3, vsub, vadd, vscal, entry; cbn [c0 c1 c2].
Section Rotate.
Variables (s0 s1 : v3) (O : orthonormal2 s0 s1).
Let v0 := cross3 s0 s1.
Definition inplane (a b : R) : v3 := vadd (vscal a s0) (vscal b s1).
Lemma inplane_dot a b c d : dot3 (inplane a b) (inplane c d) = a * c + b * d.
Proof.
  destruct O as [O0 [O1 O2]]. unfold inplane. rewrite !dot3_add_l, !dot3_add_r, !dot3_scal_l, !dot3_scal_r, O0, O1, O2, (dot3_comm s1 s0), O2. ring.
Qed.
Lemma inplane_v0 a b : dot3 v0 (inplane a b) = 0.
Proof. unfold v0, inplane. rewrite dot3_add_r, !dot3_scal_r, cross3_dot_l, cross3_dot_r. ring. Qed.
Lemma inplane_scal k a b : vscal k (inplane a b) = inplane (k * a) (k * b).
Proof. unfold inplane. apply v3_ext; v3u; ring. Qed.
Lemma inplane_cross a b : cross3 (inplane a b) v0 = inplane b (- a).
Proof.
  unfold inplane. rewrite cross3_add_l, !cross3_scal_l. destruct (frame_cross s0 s1 O) as [E1 E2]. unfold v0. rewrite E1, E2.
  apply v3_ext; v3u; ring.
Qed.
Lemma cross_anti u w : cross3 u w = vscal (-1) (cross3 w u).
Proof. apply v3_ext; v3u; ring. Qed.
Lemma inplane_cross' a b : cross3 v0 (inplane a b) = inplane (- b) a.
Proof. rewrite cross_anti, inplane_cross, inplane_scal. f_equal; ring. Qed.
Lemma inplane_zero a b : inplane a b = zero3 -> a = 0 /\ b = 0.
Proof.
  intro E. assert (X := inplane_dot a b a b). rewrite E in X. unfold zero3, dot3 in X. cbn [c0 c1 c2] in X.
  assert (X1 := Rle_0_sqr a). assert (X2 := Rle_0_sqr b). unfold Rsqr in X1, X2. split; apply Rsqr_0_uniq; unfold Rsqr; lra.
Qed.
Lemma normalize_inplane a b : a * a + b * b <> 0 ->
  exists k, 0 < k /\ k * k * (a * a + b * b) = 1 /\ normalize (inplane a b) = Some (inplane (k * a) (k * b)).
Proof.
  intro N. destruct (normalize_some (inplane a b)) as [w [E [D [P U]]]].
  - intro Z. apply inplane_zero in Z. destruct Z. subst. lra.
  - exists (/ norm3 (inplane a b)). split; [now apply Rinv_0_lt_compat|]. rewrite D in U. rewrite inplane_scal in U, D. rewrite inplane_dot in U.
    split; [|now rewrite E, D]. rewrite <- U. ring.
Qed.
Lemma normalize_unit a b : a * a + b * b = 1 -> normalize (inplane a b) = Some (inplane a b).
Proof.
  intro E. destruct (normalize_inplane a b) as [k [P [K H]]]; [lra|]. rewrite E in K.
  assert (K1 : k = 1) by nra. subst k. rewrite H. f_equal. f_equal; ring.
Qed.

Variables (B : mat) (a11 a12 a22 : R).
Hypothesis (B0 : mv3 B s0 = inplane a11 a12) (B1 : mv3 B s1 = inplane a12 a22).
Let delta := half_gap a11 a12 a12 a22.
Let eta1 := 0.5 * (a11 + a22) - delta.
Let eta2 := 0.5 * (a11 + a22) + delta.

Lemma mv3_inplane a b : mv3 B (inplane a b) = inplane (a * a11 + b * a12) (a * a12 + b * a22).
Proof. unfold inplane at 1. rewrite mv3_add, !mv3_scal, B0, B1. unfold inplane. apply v3_ext; v3u; ring. Qed.

Lemma remaining_exact : a11 <> a22 -> small_gap < Rabs delta ->
  exists v1 v2, remaining (mv3 B s0) (mv3 B s1) s0 s1 v0 eta1 delta = Some (v1, v2) /\ frame v0 v1 v2 /\
    mv3 B v1 = vscal eta1 v1 /\ mv3 B v2 = vscal eta2 v2.
Proof.
  intros N G. unfold remaining. destruct (Rle_dec (Rabs delta) small_gap) as [X|_]; [lra|].
  set (p := a11 - eta1). set (r := a22 - eta1).
  assert (T1 : vsub (mv3 B s0) (vscal eta1 s0) = inplane p a12).
  { rewrite B0. unfold p. unfold inplane. apply v3_ext; v3u; ring. }
  assert (T2 : vsub (mv3 B s1) (vscal eta1 s1) = inplane a12 r).
  { rewrite B1. unfold r. unfold inplane. apply v3_ext; v3u; ring. }
  rewrite T1, T2.
  assert (PR : p * r = a12 * a12).
  { assert (Q := half_gap_sq a11 a12 a22 N). fold delta in Q. replace (p * r) with (delta * delta - (a11 - a22) * (a11 - a22) / 4) by (unfold p, r, eta1; lra). rewrite Q. ring. }
  assert (Np : p <> 0).
  { assert (Q := half_gap_sign a11 a12 a22). fold delta in Q. unfold p, eta1. intro Z.
    assert (Ed : delta = - (a11 - a22) / 2) by lra. rewrite Ed in Q.
    assert (0 < (a11 - a22) * (a11 - a22)) by (apply Rsqr_pos_lt; lra). lra. }
  (* whichever column is longer, it is a multiple of one direction *)
  assert (C : exists a b, longer (inplane p a12) (inplane a12 r) = inplane a b /\ a * a + b * b <> 0 /\
            ((a = p /\ b = a12) \/ (a = a12 /\ b = r))).
  { assert (NZ : longer (inplane p a12) (inplane a12 r) <> zero3).
    { intro Z. apply longer_zero in Z. destruct Z as [Z _]. apply inplane_zero in Z. tauto. }
    destruct (longer_cases (inplane p a12) (inplane a12 r)) as [E|E]; rewrite E in *.
    - exists p, a12. split; [reflexivity|]. split; [|auto]. assert (0 < p * p) by (apply Rsqr_pos_lt; exact Np). assert (0 <= a12 * a12) by apply Rle_0_sqr. lra.
    - exists a12, r. split; [reflexivity|]. split; [|auto]. intro Z.
      apply NZ. assert (X1 := Rle_0_sqr a12). assert (X2 := Rle_0_sqr r). unfold Rsqr in X1, X2.
      assert (Z1 : a12 = 0) by (apply Rsqr_0_uniq; unfold Rsqr; lra). assert (Z2 : r = 0) by (apply Rsqr_0_uniq; unfold Rsqr; lra). rewrite Z1, Z2. unfold inplane, zero3. apply v3_ext; v3u; ring. }
  destruct C as [a [b [EL [NZ C]]]]. rewrite EL.
  destruct (normalize_inplane a b NZ) as [k [Pk [Kk Ew]]]. rewrite Ew, inplane_cross.
  assert (U1 : k * b * (k * b) + - (k * a) * - (k * a) = 1) by (rewrite <- Kk; ring).
  rewrite (normalize_unit _ _ U1), inplane_cross'.
  assert (U2 : - - (k * a) * - - (k * a) + k * b * (k * b) = 1) by (rewrite <- Kk; ring).
  rewrite (normalize_unit _ _ U2).
  eexists _, _. split; [reflexivity|].
  assert (R1 : b * p - a * a12 = 0 /\ b * a12 - a * r = 0) by (destruct C as [[-> ->]|[-> ->]]; split; lra).
  destruct R1 as [R1 R2].
  split; [|split].
  - unfold frame. rewrite !inplane_dot, !inplane_v0. unfold v0. rewrite frame_unit by exact O.
    repeat split; try (rewrite <- Kk; ring); ring.
  - rewrite mv3_inplane, inplane_scal. unfold p, r in R1, R2. f_equal.
    + replace (k * b * a11 + - (k * a) * a12) with (k * (b * (a11 - eta1) - a * a12) + eta1 * (k * b)) by ring. rewrite R1. ring.
    + replace (k * b * a12 + - (k * a) * a22) with (k * (b * a12 - a * (a22 - eta1)) + eta1 * - (k * a)) by ring. rewrite R2. ring.
  - rewrite mv3_inplane, inplane_scal. unfold p, r in R1, R2.
    assert (E2 : eta2 = a11 + a22 - eta1) by (unfold eta1, eta2; lra). rewrite E2. f_equal.
    + replace (- - (k * a) * a11 + k * b * a12) with (k * (b * a12 - a * (a22 - eta1)) + (a11 + a22 - eta1) * - - (k * a)) by ring. rewrite R2. ring.
    + replace (- - (k * a) * a12 + k * b * a22) with (- (k * (b * (a11 - eta1) - a * a12)) + (a11 + a22 - eta1) * (k * b)) by ring. rewrite R1. ring.
Qed.
End Rotate.

(** ** lines 844-896 for a symmetric matrix without trace *)
Definition residual (A : mat) (l : R) (u : v3) : v3 := vsub (mv3 A u) (vscal l u).
(** the two columns are exact; or they are as exact as the threshold 1e-15 makes them; or the two values coincide although the
    matrix couples the two columns *)
Definition last_two (B : mat) (l1 l2 : R) (u w : v3) : Prop :=
  (residual B l1 u = zero3 /\ residual B l2 w = zero3) \/
  (Rabs (l1 - l2) <= 2 * small_gap /\ norm3 (residual B l1 u) <= 2 * small_gap /\ norm3 (residual B l2 w) <= 2 * small_gap /\
   dot3 u (mv3 B u) <> dot3 w (mv3 B w)).
Definition stuck (B : mat) (l1 l2 : R) (u w : v3) : Prop :=
  l1 = l2 /\ exists b, b <> 0 /\ residual B l1 u = vscal b w /\ residual B l2 w = vscal b u.

Lemma small_gap_pos : 0 < small_gap.
Proof. unfold small_gap. apply Rinv_0_lt_compat, pow_lt. lra. Qed.

Lemma norm3_bound u x : 0 <= x -> dot3 u u <= x * x -> norm3 u <= x.
Proof. intros Hx H. unfold norm3. rewrite <- (sqrt_square x Hx). apply sqrt_le_1_alt, H. Qed.

Lemma deflate_ok B eta : sym3 B -> tr 3 B = 0 -> 0 < 0.5 * inner 3 3 B B ->
  eta * eta * eta - 0.5 * inner 3 3 B B * eta - det3 B = 0 -> 0.5 * inner 3 3 B B <= eta * eta ->
  exists e, deflate B eta = Some e /\ frame (q0 e) (q1 e) (q2 e) /\ c0 (lam e) = eta /\
    c0 (lam e) + c1 (lam e) + c2 (lam e) = 0 /\ residual B eta (q0 e) = zero3 /\
    ((c1 (lam e) * c2 (lam e) = eta * eta - 0.5 * inner 3 3 B B /\ last_two B (c1 (lam e)) (c2 (lam e)) (q1 e) (q2 e)) \/
     stuck B (c1 (lam e)) (c2 (lam e)) (q1 e) (q2 e)).
Proof.
  intros HS HT HJ R D. destruct (plane_sym B eta HS HT HJ R D) as [s0 [s1 [E [O Ev]]]].
  unfold deflate. rewrite E. set (v0 := cross3 s0 s1) in *.
  set (a11 := dot3 s0 (mv3 B s0)). set (a12 := dot3 s0 (mv3 B s1)). set (a22 := dot3 s1 (mv3 B s1)).
  rewrite (bilinear_sym B s1 s0 HS). fold a12.
  assert (V0 : dot3 v0 s0 = 0) by apply cross3_dot_l. assert (V1 : dot3 v0 s1 = 0) by apply cross3_dot_r.
  assert (U := frame_unit _ _ O). fold v0 in U.
  assert (B0 : mv3 B s0 = inplane s0 s1 a11 a12).
  { rewrite (frame_complete s0 s1 (mv3 B s0) O). fold v0. unfold inplane.
    replace (dot3 (mv3 B s0) v0) with 0.
    2:{ rewrite dot3_comm, (bilinear_sym B v0 s0 HS), Ev, dot3_scal_r, dot3_comm, V0. ring. }
    rewrite (dot3_comm (mv3 B s0) s0), (dot3_comm (mv3 B s0) s1), (bilinear_sym B s1 s0 HS). fold a11 a12.
    clearbody v0 a11 a12. clear. apply v3_ext; v3u; ring. }
  assert (B1 : mv3 B s1 = inplane s0 s1 a12 a22).
  { rewrite (frame_complete s0 s1 (mv3 B s1) O). fold v0. unfold inplane.
    replace (dot3 (mv3 B s1) v0) with 0.
    2:{ rewrite dot3_comm, (bilinear_sym B v0 s1 HS), Ev, dot3_scal_r, dot3_comm, V1. ring. }
    rewrite (dot3_comm (mv3 B s1) s0), (dot3_comm (mv3 B s1) s1). fold a12 a22.
    clearbody v0 a12 a22. clear. apply v3_ext; v3u; ring. }
  assert (F : forall u w, dot3 u w = dot3 u s0 * dot3 w s0 + dot3 u s1 * dot3 w s1 + dot3 u v0 * dot3 w v0).
  { intros u w. rewrite (frame_complete s0 s1 w O) at 1. fold v0. rewrite !dot3_add_r, !dot3_scal_r. ring. }
  (* the trace in the frame *)
  assert (Tr : a11 + a22 + eta = 0).
  { assert (X : a11 + a22 + dot3 v0 (mv3 B v0) = tr 3 B).
    { (* the sum over any frame is the trace: expand the unit vectors in the frame *)
      assert (F00 := F (V 1 0 0) (V 1 0 0)). assert (F01 := F (V 1 0 0) (V 0 1 0)). assert (F02 := F (V 1 0 0) (V 0 0 1)).
      assert (F11 := F (V 0 1 0) (V 0 1 0)). assert (F12 := F (V 0 1 0) (V 0 0 1)). assert (F22 := F (V 0 0 1) (V 0 0 1)).
      unfold dot3 in F00, F01, F02, F11, F12, F22. cbn [c0 c1 c2] in F00, F01, F02, F11, F12, F22.
      unfold a11, a22, dot3, mv3, tr. cbn [sumn c0 c1 c2]. destruct HS as [S1 [S2 S3]]. rewrite S1, S2, S3.
      clearbody v0. clear - F00 F01 F02 F11 F12 F22.
      replace (0 + B 0%nat 0%nat + B 1%nat 1%nat + B 2%nat 2%nat) with (B 0%nat 0%nat * 1 + B 1%nat 1%nat * 1 + B 2%nat 2%nat * 1 + 2 * (B 0%nat 1%nat * 0 + B 0%nat 2%nat * 0 + B 1%nat 2%nat * 0)) by ring.
      replace (B 0%nat 0%nat * 1) with (B 0%nat 0%nat * (c0 s0 * c0 s0 + c0 s1 * c0 s1 + c0 v0 * c0 v0)) by (rewrite <- (Rmult_1_r (B 0%nat 0%nat)) at 2; f_equal; lra).
      replace (B 1%nat 1%nat * 1) with (B 1%nat 1%nat * (c1 s0 * c1 s0 + c1 s1 * c1 s1 + c1 v0 * c1 v0)) by (f_equal; lra).
      replace (B 2%nat 2%nat * 1) with (B 2%nat 2%nat * (c2 s0 * c2 s0 + c2 s1 * c2 s1 + c2 v0 * c2 v0)) by (f_equal; lra).
      replace (B 0%nat 1%nat * 0) with (B 0%nat 1%nat * (c0 s0 * c1 s0 + c0 s1 * c1 s1 + c0 v0 * c1 v0)) by (f_equal; lra).
      replace (B 0%nat 2%nat * 0) with (B 0%nat 2%nat * (c0 s0 * c2 s0 + c0 s1 * c2 s1 + c0 v0 * c2 v0)) by (f_equal; lra).
      replace (B 1%nat 2%nat * 0) with (B 1%nat 2%nat * (c1 s0 * c2 s0 + c1 s1 * c2 s1 + c1 v0 * c2 v0)) by (f_equal; lra).
      ring. }
    rewrite Ev, dot3_scal_r, U, HT in X. lra. }
  (* the squared norm in the frame *)
  assert (Nm : inner 3 3 B B = a11 * a11 + 2 * (a12 * a12) + a22 * a22 + eta * eta).
  { assert (X : inner 3 3 B B = dot3 (mv3 B s0) (mv3 B s0) + dot3 (mv3 B s1) (mv3 B s1) + dot3 (mv3 B v0) (mv3 B v0)).
    { set (row := fun i => V (B i 0%nat) (B i 1%nat) (B i 2%nat)).
      replace (inner 3 3 B B) with (dot3 (row 0%nat) (row 0%nat) + dot3 (row 1%nat) (row 1%nat) + dot3 (row 2%nat) (row 2%nat))
        by (unfold inner, row, dot3; cbn [sumn c0 c1 c2]; ring).
      rewrite (F (row 0%nat) (row 0%nat)), (F (row 1%nat) (row 1%nat)), (F (row 2%nat) (row 2%nat)).
      clearbody v0. unfold row. v3u. ring. }
    rewrite X, Ev, B0, B1, !inplane_dot, dot3_scal_l, dot3_scal_r, U by exact O. ring. }
  set (delta := half_gap a11 a12 a12 a22). set (eta1 := 0.5 * (a11 + a22) - delta). set (eta2 := 0.5 * (a11 + a22) + delta).
  assert (Rv : residual B eta v0 = zero3).
  { unfold residual. rewrite Ev. clearbody v0. clear. apply v3_ext; v3u; ring. }
  assert (Sum : eta + eta1 + eta2 = 0) by (unfold eta1, eta2; lra).
  destruct (Rle_dec (Rabs delta) small_gap) as [Sm|Lg].
  - unfold remaining. destruct (Rle_dec (Rabs delta) small_gap) as [_|X]; [|contradiction].
    eexists. split; [reflexivity|]. cbn [q0 q1 q2 lam c0 c1 c2].
    split; [destruct O as [O0 [O1 O2]]; unfold frame; rewrite U, O0, O1, O2, V0, V1; repeat split; reflexivity|].
    split; [reflexivity|]. split; [exact Sum|]. split; [exact Rv|].
    assert (R0 : residual B eta1 s0 = inplane s0 s1 (a11 - eta1) a12).
    { unfold residual. rewrite B0. clearbody eta1 a11 a12 v0. clear. unfold inplane. apply v3_ext; v3u; ring. }
    assert (R1 : residual B eta2 s1 = inplane s0 s1 a12 (a22 - eta2)).
    { unfold residual. rewrite B1. clearbody eta2 a22 a12 v0. clear. unfold inplane. apply v3_ext; v3u; ring. }
    destruct (Req_dec a11 a22) as [Eq|Ne].
    + assert (Z : delta = 0).
      { unfold delta, half_gap. rewrite Eq. replace (a22 - a22) with 0 by ring. unfold sgn.
        destruct (Rlt_dec 0 0); [lra|]. ring. }
      assert (Z1 : a11 - eta1 = 0) by (unfold eta1; lra). assert (Z2 : a22 - eta2 = 0) by (unfold eta2; lra).
      rewrite Z1 in R0. rewrite Z2 in R1.
      destruct (Req_dec a12 0) as [Z12|N12].
      * left. split; [unfold eta1, eta2; rewrite Nm, Z, Z12, Eq; replace eta with (- (2 * a22)) by lra; lra|].
        left. rewrite R0, R1, Z12. clear. unfold inplane. split; apply v3_ext; v3u; ring.
      * right. split; [unfold eta1, eta2; lra|]. exists a12. split; [exact N12|]. rewrite R0, R1.
        clearbody a12. clear. unfold inplane. split; apply v3_ext; v3u; ring.
    + left. assert (Q := half_gap_sq a11 a12 a22 Ne). fold delta in Q. split.
      { replace (eta1 * eta2) with ((a11 + a22) * (a11 + a22) / 4 - delta * delta) by (unfold eta1, eta2; lra).
        rewrite Q, Nm. replace eta with (- (a11 + a22)) by lra. lra. }
      right.
      assert (P := small_gap_pos).
      assert (Dq : delta * delta <= small_gap * small_gap).
      { rewrite <- (Rabs_pos_eq small_gap) in Sm by lra. assert (Y := Rsqr_le_abs_1 _ _ Sm). exact Y. }
      assert (XX : (a11 - a22) * delta <= 2 * (delta * delta)).
      { assert (Y : 0 <= (delta - (a11 - a22) / 2) * (delta - (a11 - a22) / 2)) by apply Rle_0_sqr.
        assert (Y2 : 0 <= a12 * a12) by apply Rle_0_sqr. lra. }
      assert (Bd : (a11 - eta1) * (a11 - eta1) + a12 * a12 <= 2 * small_gap * (2 * small_gap)).
      { replace ((a11 - eta1) * (a11 - eta1) + a12 * a12) with (2 * (delta * delta) + (a11 - a22) * delta).
        2:{ replace ((a11 - eta1) * (a11 - eta1)) with ((a11 - a22) * (a11 - a22) / 4 + (a11 - a22) * delta + delta * delta) by (unfold eta1; lra). lra. }
        lra. }
      split; [|split; [|split]].
      * replace (eta1 - eta2) with (- (2 * delta)) by (unfold eta1, eta2; lra). rewrite Rabs_Ropp, Rabs_mult, (Rabs_pos_eq 2) by lra. lra.
      * apply norm3_bound; [lra|]. rewrite R0, inplane_dot by exact O. exact Bd.
      * apply norm3_bound; [lra|]. rewrite R1, inplane_dot by exact O.
        replace (a22 - eta2) with (- (a11 - eta1)) by (unfold eta1, eta2; lra). lra.
      * exact Ne.
  - assert (Ne : a11 <> a22).
    { intro Eq. apply Lg. replace delta with 0; [rewrite Rabs_R0; apply Rlt_le, small_gap_pos|].
      unfold delta, half_gap. rewrite Eq. replace (a22 - a22) with 0 by ring. unfold sgn. destruct (Rlt_dec 0 0); [lra|]. ring. }
    destruct (remaining_exact s0 s1 O B a11 a12 a22 B0 B1 Ne) as [v1 [v2 [ER [FR [X1 X2]]]]].
    { fold delta. apply Rnot_le_lt. exact Lg. }
    fold delta eta1 eta2 v0 in ER, FR, X1, X2. rewrite ER. eexists. split; [reflexivity|]. cbn [q0 q1 q2 lam c0 c1 c2].
    split; [exact FR|]. split; [reflexivity|]. split; [exact Sum|]. split; [exact Rv|].
    left. split.
    { assert (Q := half_gap_sq a11 a12 a22 Ne). fold delta in Q.
      replace (eta1 * eta2) with ((a11 + a22) * (a11 + a22) / 4 - delta * delta) by (unfold eta1, eta2; lra).
      rewrite Q, Nm. replace eta with (- (a11 + a22)) by lra. lra. }
    left. unfold residual. rewrite X1, X2. clearbody eta1 eta2. clear. split; apply v3_ext; v3u; ring.
Qed.
