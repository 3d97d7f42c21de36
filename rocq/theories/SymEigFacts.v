(** * Facts about the eigendecomposition of a symmetric 3x3 matrix (C58) *)
From Coq Require Import Reals Lra Lia Bool Psatz.
From Verif Require Import Sums Tensor SymEig.
Local Open Scope R_scope.

(** ** the leading eigenvalue of a symmetric matrix without trace *)
Lemma cauchy_quadratic a b c : 0 <= c -> (forall t, 0 <= a + 2 * b * t + c * (t * t)) -> b * b <= a * c.
Proof.
  intros Hc H. destruct (Rle_lt_or_eq_dec 0 c Hc) as [P|E].
  - assert (X := H (- b / c)). replace (a + 2 * b * (- b / c) + c * (- b / c * (- b / c))) with (a - b * b / c) in X by (field; lra).
    assert (Y : 0 <= c * (a - b * b / c)) by (apply Rmult_le_pos; lra).
    replace (c * (a - b * b / c)) with (a * c - b * b) in Y by (field; lra). lra.
  - subst c. destruct (Req_dec b 0) as [->|Nb]; [lra|].
    assert (X := H ((- a - 1) / (2 * b))). replace (a + 2 * b * ((- a - 1) / (2 * b)) + 0 * ((- a - 1) / (2 * b) * ((- a - 1) / (2 * b)))) with (-1) in X by (field; lra). lra.
Qed.

(** the six entries of a symmetric matrix without trace: a d e / d b f / e f (-a-b) *)
Definition J2of (a b d e f : R) : R := a * a + b * b + a * b + d * d + e * e + f * f.
Definition J3of (a b d e f : R) : R :=
  a * b * (- a - b) + 2 * d * f * e - a * f * f - d * d * (- a - b) - e * e * b.
Lemma discriminant a b d e f : 27 * (J3of a b d e f * J3of a b d e f) <= 4 * (J2of a b d e f * J2of a b d e f * J2of a b d e f).
Proof.
  set (J2 := J2of a b d e f). set (J3 := J3of a b d e f).
  assert (X : 3 * J3 * (3 * J3) <= 2 * J2 * (2 * J2 * J2 / 3)).
  { set (c := - a - b).
    (* entries of the square, less a third of its trace *)
    set (m00 := a * a + d * d + e * e - 2 * J2 / 3). set (m11 := d * d + b * b + f * f - 2 * J2 / 3).
    set (m22 := e * e + f * f + c * c - 2 * J2 / 3).
    set (m01 := a * d + d * b + e * f). set (m02 := a * e + d * f + e * c). set (m12 := d * e + b * f + f * c).
    apply cauchy_quadratic.
    - assert (0 <= J2 * J2) by nra. lra.
    - intros t.
      replace (2 * J2 + 2 * (3 * J3) * t + 2 * J2 * J2 / 3 * (t * t)) with
        ((a + t * m00) * (a + t * m00) + (b + t * m11) * (b + t * m11) + (c + t * m22) * (c + t * m22)
         + 2 * ((d + t * m01) * (d + t * m01)) + 2 * ((e + t * m02) * (e + t * m02)) + 2 * ((f + t * m12) * (f + t * m12)))
        by (unfold m00, m11, m22, m01, m02, m12, c, J2, J3, J2of, J3of; field).
      assert (S : forall x, 0 <= x * x) by (intro x; nra).
      assert (A1 := S (a + t * m00)). assert (A2 := S (b + t * m11)). assert (A3 := S (c + t * m22)).
      assert (A4 := S (d + t * m01)). assert (A5 := S (e + t * m02)). assert (A6 := S (f + t * m12)). lra. }
  nra.
Qed.

Lemma cos_triple x : cos (3 * x) = 4 * (cos x * cos x * cos x) - 3 * cos x.
Proof.
  replace (3 * x) with (2 * x + x) by ring. rewrite cos_plus, sin_2a, cos_2a_cos.
  assert (S : sin x * sin x = 1 - cos x * cos x) by (assert (E := sin2_cos2 x); unfold Rsqr in E; lra).
  replace (2 * sin x * cos x * sin x) with (2 * cos x * (sin x * sin x)) by ring. rewrite S. ring.
Qed.

Lemma clamp_id x : -1 <= x <= 1 -> clamp x = x.
Proof. intros [L U]. unfold clamp. rewrite (Rmax_left x (-1)) by lra. apply Rmin_left. lra. Qed.

Lemma cube_pow J : 0 < J -> Rpower (3 / J) 1.5 = / (sqrt (J / 3) * sqrt (J / 3) * sqrt (J / 3)).
Proof.
  intro P. assert (Q : 0 < J / 3) by lra. assert (S := sqrt_lt_R0 _ Q).
  assert (E : 3 / J = / (sqrt (J / 3) * sqrt (J / 3))).
  { rewrite sqrt_sqrt by lra. field. lra. }
  rewrite E. unfold Rpower. rewrite ln_Rinv by nra. rewrite ln_mult by lra.
  replace (1.5 * - (ln (sqrt (J / 3)) + ln (sqrt (J / 3)))) with (- (ln (sqrt (J / 3)) + ln (sqrt (J / 3)) + ln (sqrt (J / 3)))) by lra.
  rewrite exp_Ropp, !exp_plus, !exp_ln by lra. reflexivity.
Qed.

(** a root of the characteristic polynomial, at least as large as every other *)
Lemma lead_root J2 J3 : 0 < J2 -> 27 * (J3 * J3) <= 4 * (J2 * J2 * J2) ->
  lead J2 J3 * lead J2 J3 * lead J2 J3 - J2 * lead J2 J3 - J3 = 0 /\ J2 <= lead J2 J3 * lead J2 J3.
Proof.
  intros P D. unfold lead. set (s := sqrt (J2 / 3)). assert (Hs : 0 < s) by (apply sqrt_lt_R0; lra).
  assert (Es : J2 = 3 * (s * s)) by (unfold s; rewrite sqrt_sqrt by lra; lra).
  rewrite cube_pow by exact P. fold s.
  set (tmp := 0.5 * J3 * / (s * s * s)).
  assert (Hs3 : 0 < s * s * s) by (apply Rmult_lt_0_compat; [apply Rmult_lt_0_compat|]; lra).
  assert (ET : J3 = 2 * (s * s * s) * tmp) by (unfold tmp; replace (2 * (s * s * s) * (0.5 * J3 * / (s * s * s))) with (J3 * ((s * s * s) * / (s * s * s))) by lra; rewrite Rinv_r by lra; ring).
  assert (HT : tmp * tmp <= 1).
  { rewrite Es in D. rewrite ET in D.
    assert (0 < (s * s * s) * (s * s * s)) by (apply Rmult_lt_0_compat; lra).
    apply (Rmult_le_reg_l (108 * ((s * s * s) * (s * s * s)))); [lra|]. nra. }
  assert (B : -1 <= tmp <= 1) by (split; nra).
  rewrite (clamp_id tmp B). set (al := acos tmp / 3).
  assert (Hal : 0 <= al <= PI / 3) by (unfold al; assert (X := acos_bound tmp); lra).
  assert (C3 : cos (3 * al) = tmp) by (unfold al; replace (3 * (acos tmp / 3)) with (acos tmp) by field; now apply cos_acos).
  assert (PP := PI_RGT_0).
  assert (Gen : forall c, 4 * (c * c * c) - 3 * c = tmp -> 3 / 4 <= c * c ->
    2 * s * c * (2 * s * c) * (2 * s * c) - J2 * (2 * s * c) - J3 = 0 /\ J2 <= 2 * s * c * (2 * s * c)).
  { intros c Ec Hc. split.
    - rewrite ET, <- Ec. rewrite Es. ring.
    - rewrite Es. nra. }
  assert (C6 : cos (PI / 6) * cos (PI / 6) = 3 / 4).
  { rewrite cos_PI6. replace (sqrt 3 / 2 * (sqrt 3 / 2)) with (sqrt 3 * sqrt 3 / 4) by field. rewrite sqrt_sqrt by lra. lra. }
  assert (C6p : 0 < cos (PI / 6)) by (rewrite cos_PI6; assert (0 < sqrt 3) by (apply sqrt_lt_R0; lra); lra).
  destruct (Rlt_dec (6 * al) PI) as [Lt|Ge].
  - apply Gen; [rewrite <- cos_triple; exact C3|].
    assert (cos (PI / 6) < cos al) by (apply cos_decreasing_1; lra). nra.
  - assert (Ec : cos (al + 2 * PI / 3) = - cos (PI / 3 - al)).
    { replace (al + 2 * PI / 3) with (- (PI / 3 - al) + PI) by field. rewrite neg_cos, cos_neg. reflexivity. }
    apply Gen.
    + rewrite <- cos_triple. replace (3 * (al + 2 * PI / 3)) with (3 * al + 2 * PI) by field.
      rewrite cos_plus, cos_2PI, sin_2PI. lra.
    + rewrite Ec. assert (cos (PI / 6) <= cos (PI / 3 - al)).
      { destruct (Req_dec (PI / 3 - al) (PI / 6)) as [->|N]; [lra|]. apply Rlt_le, cos_decreasing_1; lra. }
      nra.
Qed.

(** ** vectors *)
Definition zero3 : v3 := V 0 0 0.
Ltac v3d := repeat match goal with u : v3 |- _ => destruct u end; unfold without, mv3, zero3 in *; unfold dot3, cross3, vsub, vadd, vscal, entry in *; cbn [c0 c1 c2] in *.
Lemma v3_ext u w : c0 u = c0 w -> c1 u = c1 w -> c2 u = c2 w -> u = w.
Proof. destruct u, w. cbn. now intros -> -> ->. Qed.
Lemma dot3_comm u w : dot3 u w = dot3 w u.
Proof. v3d. ring. Qed.
Lemma dot3_scal_l a u w : dot3 (vscal a u) w = a * dot3 u w.
Proof. v3d. ring. Qed.
Lemma dot3_scal_r a u w : dot3 u (vscal a w) = a * dot3 u w.
Proof. v3d. ring. Qed.
Lemma dot3_add_l u v w : dot3 (vadd u v) w = dot3 u w + dot3 v w.
Proof. v3d. ring. Qed.
Lemma dot3_add_r u v w : dot3 w (vadd u v) = dot3 w u + dot3 w v.
Proof. v3d. ring. Qed.
Lemma dot3_sub_l u v w : dot3 (vsub u v) w = dot3 u w - dot3 v w.
Proof. v3d. ring. Qed.
Lemma dot3_sub_r u v w : dot3 w (vsub u v) = dot3 w u - dot3 w v.
Proof. v3d. ring. Qed.
Lemma dot3_self u : 0 <= dot3 u u.
Proof. v3d. nra. Qed.
Lemma dot3_zero u : dot3 u u = 0 -> u = zero3.
Proof. v3d. intro H. unfold zero3. f_equal; nra. Qed.
Lemma cross3_scal_l a u w : cross3 (vscal a u) w = vscal a (cross3 u w).
Proof. v3d. f_equal; ring. Qed.
Lemma cross3_scal_r a u w : cross3 u (vscal a w) = vscal a (cross3 u w).
Proof. v3d. f_equal; ring. Qed.
Lemma cross3_add_l u v w : cross3 (vadd u v) w = vadd (cross3 u w) (cross3 v w).
Proof. v3d. f_equal; ring. Qed.
Lemma cross3_add_r u v w : cross3 w (vadd u v) = vadd (cross3 w u) (cross3 w v).
Proof. v3d. f_equal; ring. Qed.
Lemma cross3_self u : cross3 u u = zero3.
Proof. v3d. unfold zero3. f_equal; ring. Qed.
Lemma cross3_dot_l u w : dot3 (cross3 u w) u = 0.
Proof. v3d. ring. Qed.
Lemma cross3_dot_r u w : dot3 (cross3 u w) w = 0.
Proof. v3d. ring. Qed.
Lemma lagrange u w : dot3 (cross3 u w) (cross3 u w) = dot3 u u * dot3 w w - dot3 u w * dot3 u w.
Proof. v3d. ring. Qed.
Lemma norm3_sq u : norm3 u * norm3 u = dot3 u u.
Proof. unfold norm3. apply sqrt_sqrt, dot3_self. Qed.
Lemma norm3_nonneg u : 0 <= norm3 u.
Proof. apply sqrt_pos. Qed.
Lemma norm3_zero u : norm3 u = 0 -> u = zero3.
Proof. intro H. apply dot3_zero. rewrite <- norm3_sq, H. ring. Qed.

Lemma normalize_some u : u <> zero3 -> exists w, normalize u = Some w /\ w = vscal (/ norm3 u) u /\ 0 < norm3 u /\ dot3 w w = 1.
Proof.
  intro N. unfold normalize. destruct (Req_EM_T (norm3 u) 0) as [E|E]; [elim N; now apply norm3_zero|].
  exists (vscal (/ norm3 u) u). assert (P : 0 < norm3 u) by (assert (X := norm3_nonneg u); lra).
  repeat split; auto. rewrite dot3_scal_l, dot3_scal_r, <- norm3_sq. field. lra.
Qed.
Lemma normalize_inv u w : normalize u = Some w -> u <> zero3.
Proof.
  unfold normalize. intros H E. subst u. unfold norm3, zero3, dot3 in H. cbn [c0 c1 c2] in H.
  replace (0 * 0 + 0 * 0 + 0 * 0) with 0 in H by ring. rewrite sqrt_0 in H. destruct (Req_EM_T 0 0); [discriminate|contradiction].
Qed.

Lemma longer_cases t1 t2 : longer t1 t2 = t1 \/ longer t1 t2 = t2.
Proof. unfold longer. destruct (Rlt_dec (norm3 t2) (norm3 t1)); auto. Qed.
Lemma longer_zero t1 t2 : longer t1 t2 = zero3 -> t1 = zero3 /\ t2 = zero3.
Proof.
  assert (Z : norm3 zero3 = 0) by (unfold norm3, zero3, dot3; cbn [c0 c1 c2]; replace (0 * 0 + 0 * 0 + 0 * 0) with 0 by ring; apply sqrt_0).
  unfold longer. destruct (Rlt_dec (norm3 t2) (norm3 t1)) as [H|H]; intro E; subst.
  - exfalso. rewrite Z in H. assert (X := norm3_nonneg t2). lra.
  - split; [|reflexivity]. apply norm3_zero. rewrite Z in H. assert (X := norm3_nonneg t1). lra.
Qed.

Lemma without_split s u : u = vadd (without s u) (vscal (dot3 u s) s).
Proof. apply v3_ext; v3d; ring. Qed.
Lemma zero_add u : vadd zero3 u = u.
Proof. unfold zero3. apply v3_ext; v3d; ring. Qed.
Lemma parallel_cross a b s : cross3 (vscal a s) (vscal b s) = zero3.
Proof. unfold zero3. apply v3_ext; v3d; ring. Qed.
Lemma scal_scal a b u : a * b = 1 -> vscal a (vscal b u) = u.
Proof. intro H. destruct u as [x y z]. unfold vscal. cbn [c0 c1 c2]. rewrite <- !Rmult_assoc, H, !Rmult_1_l. reflexivity. Qed.
Lemma triple_swap s t u : dot3 t (cross3 s u) = - dot3 (cross3 s t) u.
Proof. v3d; ring. Qed.
Lemma triple_shift s t u a b : dot3 (cross3 s (vadd t (vscal a s))) (vadd u (vscal b s)) = dot3 (cross3 s t) u.
Proof. v3d; ring. Qed.
Definition orthonormal2 (s0 s1 : v3) : Prop := dot3 s0 s0 = 1 /\ dot3 s1 s1 = 1 /\ dot3 s0 s1 = 0.
Lemma plane_of a b c : norm3 b <= norm3 a -> norm3 c <= norm3 a -> dot3 (cross3 a b) c = 0 ->
  ~ (cross3 a b = zero3 /\ cross3 b c = zero3 /\ cross3 c a = zero3) ->
  exists s0 s1, normalize a = Some s0 /\ normalize (longer (without s0 b) (without s0 c)) = Some s1 /\ orthonormal2 s0 s1 /\
    dot3 a (cross3 s0 s1) = 0 /\ dot3 b (cross3 s0 s1) = 0 /\ dot3 c (cross3 s0 s1) = 0.
Proof.
  intros Lb Lc T N.
  assert (Na : a <> zero3).
  { intro E. apply N. assert (Z : norm3 a = 0).
    { rewrite E. unfold norm3, zero3, dot3; cbn [c0 c1 c2]; replace (0 * 0 + 0 * 0 + 0 * 0) with 0 by ring; apply sqrt_0. }
    assert (b = zero3) by (apply norm3_zero; assert (X := norm3_nonneg b); lra).
    assert (c = zero3) by (apply norm3_zero; assert (X := norm3_nonneg c); lra). subst.
    repeat split; apply cross3_self. }
  destruct (normalize_some a Na) as [s0 [E0 [D0 [P0 U0]]]]. exists s0.
  assert (Ea : a = vscal (norm3 a) s0).
  { rewrite D0. symmetry. apply scal_scal. field. lra. }
  set (t1 := without s0 b). set (t2 := without s0 c).
  assert (Wb : b = vadd t1 (vscal (dot3 b s0) s0)) by apply without_split.
  assert (Wc : c = vadd t2 (vscal (dot3 c s0) s0)) by apply without_split.
  assert (O1 : dot3 s0 t1 = 0) by (unfold t1, without; rewrite dot3_sub_r, dot3_scal_r, U0, (dot3_comm b s0); ring).
  assert (O2 : dot3 s0 t2 = 0) by (unfold t2, without; rewrite dot3_sub_r, dot3_scal_r, U0, (dot3_comm c s0); ring).
  assert (Nt : longer t1 t2 <> zero3).
  { intro E. destruct (longer_zero _ _ E) as [Z1 Z2]. apply N. rewrite Z1 in Wb. rewrite Z2 in Wc.
    assert (Pb : b = vscal (dot3 b s0) s0) by (rewrite Wb at 1; apply zero_add).
    assert (Pc : c = vscal (dot3 c s0) s0) by (rewrite Wc at 1; apply zero_add).
    rewrite Ea, Pb, Pc. repeat split; apply parallel_cross. }
  destruct (normalize_some _ Nt) as [s1 [E1 [D1 [P1 U1]]]]. exists s1. split; [exact E0|]. split; [exact E1|].
  set (k := / norm3 (longer t1 t2)) in *.
  assert (O : dot3 s0 s1 = 0) by (rewrite D1, dot3_scal_r; destruct (longer_cases t1 t2) as [->| ->]; rewrite ?O1, ?O2; ring).
  split; [repeat split; auto|].
  assert (Fa : dot3 a (cross3 s0 s1) = 0) by (rewrite Ea, dot3_scal_l, dot3_comm, cross3_dot_l; ring).
  assert (Fs : dot3 s0 (cross3 s0 s1) = 0) by (rewrite dot3_comm; apply cross3_dot_l).
  split; [exact Fa|].
  assert (Ft : dot3 (longer t1 t2) (cross3 s0 s1) = 0).
  { replace (longer t1 t2) with (vscal (norm3 (longer t1 t2)) s1) by (rewrite D1; unfold k; apply scal_scal; field; lra).
    rewrite dot3_scal_l, dot3_comm, cross3_dot_r. ring. }
  rewrite Ea, cross3_scal_l, dot3_scal_l in T.
  assert (T' : dot3 (cross3 s0 b) c = 0) by (apply Rmult_integral in T; destruct T; [lra|assumption]).
  assert (X1 : dot3 b (cross3 s0 s1) = dot3 t1 (cross3 s0 s1)).
  { rewrite Wb at 1. rewrite dot3_add_l, dot3_scal_l, Fs. ring. }
  assert (X2 : dot3 c (cross3 s0 s1) = dot3 t2 (cross3 s0 s1)).
  { rewrite Wc at 1. rewrite dot3_add_l, dot3_scal_l, Fs. ring. }
  assert (T2 : dot3 (cross3 s0 t1) t2 = 0).
  { rewrite Wb, Wc in T'. rewrite triple_shift in T'. exact T'. }
  rewrite X1, X2. rewrite D1. rewrite cross3_scal_r, !dot3_scal_r.
  assert (Y : dot3 t1 (cross3 s0 t1) = 0) by (rewrite dot3_comm; apply cross3_dot_r).
  assert (Y' : dot3 t2 (cross3 s0 t2) = 0) by (rewrite dot3_comm; apply cross3_dot_r).
  destruct (longer_cases t1 t2) as [->| ->].
  - split; [rewrite Y; ring|]. rewrite dot3_comm, T2. ring.
  - split; [|rewrite Y'; ring]. rewrite triple_swap, T2. ring.
Qed.

Lemma longest_bound r : forall i, (i < 3)%nat -> norm3 (r i) <= norm3 (r (longest r)).
Proof.
  intros i Hi. unfold longest. destruct (Rlt_dec (norm3 (r 0%nat)) (norm3 (r 1%nat))) as [A|A].
  - destruct (Rlt_dec (norm3 (r 1%nat)) (norm3 (r 2%nat))) as [C|C]; destruct i as [|[|[|]]]; try lia; lra.
  - destruct (Rlt_dec (norm3 (r 0%nat)) (norm3 (r 2%nat))) as [C|C]; destruct i as [|[|[|]]]; try lia; lra.
Qed.
Lemma longest_lt r : (longest r < 3)%nat.
Proof. unfold longest. destruct (Rlt_dec _ _); destruct (Rlt_dec _ _); lia. Qed.

Lemma plane_rows r : dot3 (cross3 (r 0%nat) (r 1%nat)) (r 2%nat) = 0 ->
  ~ (cross3 (r 0%nat) (r 1%nat) = zero3 /\ cross3 (r 1%nat) (r 2%nat) = zero3 /\ cross3 (r 2%nat) (r 0%nat) = zero3) ->
  exists s0 s1, plane r = Some (s0, s1) /\ orthonormal2 s0 s1 /\
    forall i, (i < 3)%nat -> dot3 (r i) (cross3 s0 s1) = 0.
Proof.
  intros T N. assert (L := longest_bound r). assert (LT := longest_lt r). unfold plane.
  set (m := longest r) in *.
  assert (C : m = 0%nat \/ m = 1%nat \/ m = 2%nat) by lia.
  assert (Go : forall a b c, norm3 (r b) <= norm3 (r a) -> norm3 (r c) <= norm3 (r a) ->
     (forall i, (i < 3)%nat -> i = a \/ i = b \/ i = c) ->
     dot3 (cross3 (r a) (r b)) (r c) = 0 -> ~ (cross3 (r a) (r b) = zero3 /\ cross3 (r b) (r c) = zero3 /\ cross3 (r c) (r a) = zero3) ->
     exists s0 s1, match normalize (r a) with None => None | Some s0 =>
        match normalize (longer (without s0 (r b)) (without s0 (r c))) with None => None | Some s1 => Some (s0, s1) end end = Some (s0, s1)
       /\ orthonormal2 s0 s1 /\ forall i, (i < 3)%nat -> dot3 (r i) (cross3 s0 s1) = 0).
  { intros a b c H1 H2 Cov HT HN. destruct (plane_of _ _ _ H1 H2 HT HN) as [s0 [s1 [E0 [E1 [O [F1 [F2 F3]]]]]]].
    exists s0, s1. rewrite E0, E1. split; [reflexivity|]. split; [exact O|]. intros i Hi.
    destruct (Cov i Hi) as [->|[->| ->]]; assumption. }
  destruct C as [E|[E|E]]; rewrite E in *.
  - apply (Go 0 1 2)%nat; auto; intros; lia.
  - apply (Go 1 2 0)%nat; auto; try (intros; lia).
    + rewrite <- T. generalize (r 0%nat) (r 1%nat) (r 2%nat). intros. v3d. ring.
    + tauto.
  - apply (Go 2 0 1)%nat; auto; try (intros; lia).
    + rewrite <- T. generalize (r 0%nat) (r 1%nat) (r 2%nat). intros. v3d. ring.
    + tauto.
Qed.

(** ** symmetric matrices without trace *)
Definition sym3 (B : mat) : Prop := B 1%nat 0%nat = B 0%nat 1%nat /\ B 2%nat 0%nat = B 0%nat 2%nat /\ B 2%nat 1%nat = B 1%nat 2%nat.
Lemma plane_sym B eta : sym3 B -> tr 3 B = 0 -> 0 < 0.5 * inner 3 3 B B ->
  eta * eta * eta - 0.5 * inner 3 3 B B * eta - det3 B = 0 -> 0.5 * inner 3 3 B B <= eta * eta ->
  exists s0 s1, plane (shifted_row B eta) = Some (s0, s1) /\ orthonormal2 s0 s1 /\
    mv3 B (cross3 s0 s1) = vscal eta (cross3 s0 s1).
Proof.
  intros [S1 [S2 S3]] HT HJ R D.
  assert (Ec : B 2%nat 2%nat = - B 0%nat 0%nat - B 1%nat 1%nat) by (unfold tr in HT; cbn [sumn] in HT; lra).
  unfold det3 in R. unfold inner in *. cbn [sumn] in *. rewrite S1, S2, S3, Ec in *.
  assert (Q : plane (shifted_row B eta) = plane (shifted_row B eta)) by reflexivity.
  destruct (plane_rows (shifted_row B eta)) as [s0 [s1 [E [O F]]]].
  - unfold shifted_row, dot3, cross3. cbn [Nat.eqb c0 c1 c2]. rewrite S1, S2, S3, Ec. lra.
  - unfold shifted_row, cross3, zero3. cbn [Nat.eqb c0 c1 c2]. rewrite S1, S2, S3, Ec. intros [X [Y Z]].
    injection X as _ _ X3. injection Y as Y1 _ _. injection Z as _ Z2 _. lra.
  - exists s0, s1. split; [exact E|]. split; [exact O|]. set (v := cross3 s0 s1) in *. clearbody v.
    assert (F0 := F 0%nat ltac:(lia)). assert (F1 := F 1%nat ltac:(lia)). assert (F2 := F 2%nat ltac:(lia)).
    unfold shifted_row, dot3 in F0, F1, F2. cbn [Nat.eqb c0 c1 c2] in F0, F1, F2. rewrite S1, S2, S3, Ec in *.
    apply v3_ext; unfold mv3, vscal; cbn [c0 c1 c2]; rewrite ?S1, ?S2, ?S3, ?Ec; lra.
Qed.

(** ** the frame s0, s1, s0 x s1 *)
Lemma frame_unit s0 s1 : orthonormal2 s0 s1 -> dot3 (cross3 s0 s1) (cross3 s0 s1) = 1.
Proof. intros [A [B C]]. rewrite lagrange, A, B, C. ring. Qed.
Lemma frame_complete s0 s1 u : orthonormal2 s0 s1 ->
  u = vadd (vadd (vscal (dot3 u s0) s0) (vscal (dot3 u s1) s1)) (vscal (dot3 u (cross3 s0 s1)) (cross3 s0 s1)).
Proof.
  intros O. assert (U := frame_unit _ _ O). destruct O as [O0 [O1 O2]].
  set (v := cross3 s0 s1) in *.
  assert (V0 : dot3 v s0 = 0) by apply cross3_dot_l. assert (V1 : dot3 v s1 = 0) by apply cross3_dot_r.
  set (w := vadd (vadd (vscal (dot3 u s0) s0) (vscal (dot3 u s1) s1)) (vscal (dot3 u v) v)).
  assert (X0 : dot3 (vsub u w) s0 = 0).
  { unfold w. rewrite dot3_sub_l, !dot3_add_l, !dot3_scal_l, O0, (dot3_comm s1 s0), O2, V0. ring. }
  assert (X1 : dot3 (vsub u w) s1 = 0).
  { unfold w. rewrite dot3_sub_l, !dot3_add_l, !dot3_scal_l, O1, O2, V1. ring. }
  assert (X2 : dot3 (vsub u w) v = 0).
  { unfold w. rewrite dot3_sub_l, !dot3_add_l, !dot3_scal_l, U, (dot3_comm s0 v), (dot3_comm s1 v), V0, V1. ring. }
  assert (BAC : cross3 (vsub u w) v = vsub (vscal (dot3 (vsub u w) s1) s0) (vscal (dot3 (vsub u w) s0) s1)).
  { unfold v. generalize (vsub u w). intro z. clear. apply v3_ext; v3d; ring. }
  rewrite X0, X1 in BAC.
  assert (Z : dot3 (vsub u w) (vsub u w) = 0).
  { assert (L := lagrange (vsub u w) v). rewrite U, X2, BAC in L. rewrite <- (Rmult_1_r (dot3 (vsub u w) (vsub u w))).
    assert (L0 : dot3 (vsub (vscal 0 s0) (vscal 0 s1)) (vsub (vscal 0 s0) (vscal 0 s1)) = 0) by (clear; v3d; ring).
    lra. }
  apply dot3_zero in Z. clear - Z. clearbody w. unfold zero3, vsub in Z. injection Z as A B C. apply v3_ext; lra.
Qed.
Lemma frame_cross s0 s1 : orthonormal2 s0 s1 ->
  cross3 s0 (cross3 s0 s1) = vscal (-1) s1 /\ cross3 s1 (cross3 s0 s1) = s0.
Proof.
  intros [O0 [O1 O2]].
  assert (BAC : forall x, cross3 x (cross3 s0 s1) = vsub (vscal (dot3 x s1) s0) (vscal (dot3 x s0) s1)).
  { intro x. apply v3_ext; v3d; ring. }
  rewrite !BAC, O0, O1, O2, (dot3_comm s1 s0), O2. split; apply v3_ext; clear; v3d; ring.
Qed.
Lemma bilinear_sym B u w : sym3 B -> dot3 u (mv3 B w) = dot3 w (mv3 B u).
Proof. intros [S1 [S2 S3]]. unfold dot3, mv3. cbn [c0 c1 c2]. rewrite S1, S2, S3. ring. Qed.
Lemma mv3_add B u w : mv3 B (vadd u w) = vadd (mv3 B u) (mv3 B w).
Proof. apply v3_ext; v3d; ring. Qed.
Lemma mv3_scal B a u : mv3 B (vscal a u) = vscal a (mv3 B u).
Proof. apply v3_ext; v3d; ring. Qed.

