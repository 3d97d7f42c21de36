(** * A symmetric matrix whose eigenvalues are not found (C58) *)
From Coq Require Import Reals Lra Lia Bool Psatz.
From Verif Require Import Sums Tensor SymEig SymEigFacts SymEigRotate SymEigMain.
Local Open Scope R_scope.

(** eigenvalues -325, 65 and 260 *)
Definition witness : mat := mat3 125 (-54) (-72) (-54) (-136) 252 (-72) 252 11.
Lemma witness_sym : symmetric3 witness.
Proof. intros i j Hi Hj. destruct i as [|[|[|]]]; try lia; destruct j as [|[|[|]]]; try lia; reflexivity. Qed.
Lemma witness_tr : tr 3 witness = 0.
Proof. unfold tr. cbn [sumn witness mat3]. lra. Qed.
Lemma witness_dev i j : (i < 3)%nat -> (j < 3)%nat -> dev 3 witness i j = witness i j.
Proof. intros _ _. unfold dev. rewrite witness_tr. destruct (Nat.eqb i j); [lra|reflexivity]. Qed.
Lemma witness_spectrum : spectrum witness (V (-325) 65 260).
Proof. intro x. unfold charpoly, det3. cbn [witness mat3 Nat.eqb c0 c1 c2]. lra. Qed.
Lemma witness_second : second witness = 88725.
Proof. unfold second, inner. cbn [sumn]. rewrite !witness_dev by lia. cbn [witness mat3]. lra. Qed.
Lemma witness_det : det3 (dev 3 witness) = -5492500.
Proof. unfold det3. rewrite !witness_dev by lia. cbn [witness mat3]. lra. Qed.
Lemma witness_lead : lead 88725 (-5492500) = -325.
Proof.
  destruct (lead_root 88725 (-5492500)) as [R D]; [lra|lra|]. set (x := lead _ _) in *. clearbody x.
  assert (P : (x + 325) * ((x - 65) * (x - 260)) = 0) by lra.
  apply Rmult_integral in P. destruct P as [P|P]; [lra|]. apply Rmult_integral in P.
  destruct P as [P|P]; [assert (x = 65) by lra|assert (x = 260) by lra]; subst x; lra.
Qed.

Definition rows : nat -> v3 := shifted_row (dev 3 witness) (-325).
Lemma rows_0 : rows 0%nat = V 450 (-54) (-72).
Proof. unfold rows, shifted_row. rewrite !witness_dev by lia. cbn [witness mat3 Nat.eqb]. f_equal; lra. Qed.
Lemma rows_1 : rows 1%nat = V (-54) 189 252.
Proof. unfold rows, shifted_row. rewrite !witness_dev by lia. cbn [witness mat3 Nat.eqb]. f_equal; lra. Qed.
Lemma rows_2 : rows 2%nat = V (-72) 252 336.
Proof. unfold rows, shifted_row. rewrite !witness_dev by lia. cbn [witness mat3 Nat.eqb]. f_equal; lra. Qed.
Lemma norm3_lt u w : dot3 u u <= dot3 w w -> ~ norm3 w < norm3 u.
Proof. intros H X. assert (Y := sqrt_le_1_alt _ _ H). unfold norm3 in X. lra. Qed.
Lemma rows_longest : longest rows = 0%nat.
Proof.
  unfold longest. destruct (Rlt_dec (norm3 (rows 0%nat)) (norm3 (rows 1%nat))) as [X|_].
  { exfalso. revert X. apply norm3_lt. rewrite rows_0, rows_1. unfold dot3. cbn [c0 c1 c2]. lra. }
  destruct (Rlt_dec (norm3 (rows 0%nat)) (norm3 (rows 2%nat))) as [X|_]; [|reflexivity].
  exfalso. revert X. apply norm3_lt. rewrite rows_0, rows_2. unfold dot3. cbn [c0 c1 c2]. lra.
Qed.
Lemma normalize_multiple u w : u <> zero3 -> (exists k, 0 < k /\ u = vscal k w) -> normalize u = normalize w.
Proof.
  intros N [k [P E]]. assert (Nw : w <> zero3) by (intro Z; apply N; rewrite E, Z; unfold zero3; apply v3_ext; v3u; ring).
  destruct (normalize_some u N) as [u' [Eu [Du [Pu Uu]]]]. destruct (normalize_some w Nw) as [w' [Ew [Dw [Pw Uw]]]].
  rewrite Eu, Ew. f_equal. rewrite Du, Dw, E.
  assert (Nk : norm3 (vscal k w) = k * norm3 w).
  { unfold norm3. rewrite dot3_scal_l, dot3_scal_r, <- Rmult_assoc, sqrt_mult, sqrt_square; try lra; [nra|apply dot3_self]. }
  rewrite Nk. apply v3_ext; v3u; field; split; lra.
Qed.
(** s0 is a multiple of (25, -3, -4) and s1 of (1, 3, 4) *)
Lemma witness_plane : exists s0 s1, plane rows = Some (s0, s1) /\
  (exists a, a * a * 650 = 1 /\ s0 = vscal a (V 25 (-3) (-4))) /\ (exists b, b * b * 26 = 1 /\ s1 = vscal b (V 1 3 4)) /\ orthonormal2 s0 s1.
Proof.
  unfold plane. rewrite rows_longest. cbn [Nat.add]. change (Nat.modulo 1 3) with 1%nat. change (Nat.modulo 2 3) with 2%nat.
  rewrite rows_0, rows_1, rows_2.
  assert (N0 : V 450 (-54) (-72) <> zero3) by (unfold zero3; intro X; injection X; lra).
  assert (N0' : V 25 (-3) (-4) <> zero3) by (unfold zero3; intro X; injection X; lra).
  rewrite (normalize_multiple _ (V 25 (-3) (-4)) N0).
  2:{ exists 18. split; [lra|]. unfold vscal. cbn [c0 c1 c2]. f_equal; lra. }
  destruct (normalize_some _ N0') as [s0 [E0 [D0 [P0 U0]]]]. rewrite E0.
  set (a := / norm3 (V 25 (-3) (-4))) in *.
  assert (A2 : a * a * 650 = 1).
  { rewrite D0, dot3_scal_l, dot3_scal_r in U0. unfold dot3 in U0. cbn [c0 c1 c2] in U0. lra. }
  assert (T1 : without s0 (V (-54) 189 252) = V 58.5 175.5 234).
  { rewrite D0. unfold without, vsub, vscal, dot3. cbn [c0 c1 c2].
    f_equal; match goal with |- ?x = _ => first [
      replace x with (-54 + 2925 * 25 * (a * a)) by ring | replace x with (189 - 2925 * 3 * (a * a)) by ring | replace x with (252 - 2925 * 4 * (a * a)) by ring ] end; lra. }
  assert (T2 : without s0 (V (-72) 252 336) = V 78 234 312).
  { rewrite D0. unfold without, vsub, vscal, dot3. cbn [c0 c1 c2].
    f_equal; match goal with |- ?x = _ => first [
      replace x with (-72 + 3900 * 25 * (a * a)) by ring | replace x with (252 - 3900 * 3 * (a * a)) by ring | replace x with (336 - 3900 * 4 * (a * a)) by ring ] end; lra. }
  rewrite T1, T2. unfold longer. destruct (Rlt_dec (norm3 (V 78 234 312)) (norm3 (V 58.5 175.5 234))) as [X|_].
  { exfalso. revert X. apply norm3_lt. unfold dot3. cbn [c0 c1 c2]. lra. }
  assert (N1 : V 78 234 312 <> zero3) by (unfold zero3; intro X; injection X; lra).
  assert (N1' : V 1 3 4 <> zero3) by (unfold zero3; intro X; injection X; lra).
  rewrite (normalize_multiple _ (V 1 3 4) N1).
  2:{ exists 78. split; [lra|]. unfold vscal. cbn [c0 c1 c2]. f_equal; lra. }
  destruct (normalize_some _ N1') as [s1 [E1 [D1 [P1 U1]]]]. rewrite E1. exists s0, s1. split; [reflexivity|].
  split; [exists a; auto|]. split.
  - exists (/ norm3 (V 1 3 4)). split; [|exact D1]. rewrite D1, dot3_scal_l, dot3_scal_r in U1. unfold dot3 in U1. cbn [c0 c1 c2] in U1. lra.
  - split; [exact U0|]. split; [exact U1|]. rewrite D0, D1, dot3_scal_l, dot3_scal_r. unfold dot3. cbn [c0 c1 c2]. ring.
Qed.

Lemma witness_stuck : exists e, eig_symm witness = Some e /\ lam e = V (-325) 162.5 162.5.
Proof.
  unfold eig_symm, of_deviator. rewrite witness_second, witness_det, witness_lead.
  destruct (Rlt_dec 0 88725) as [_|X]; [|lra]. unfold deflate. fold rows.
  destruct witness_plane as [s0 [s1 [E [[a [A2 D0]] [[b [B2 D1]] O]]]]]. rewrite E.
  assert (M0 : mv3 (dev 3 witness) s0 = vscal a (V 3575 (-1950) (-2600))).
  { rewrite D0, mv3_scal. f_equal. unfold mv3. rewrite !witness_dev by lia. cbn [witness mat3 c0 c1 c2]. f_equal; lra. }
  assert (M1 : mv3 (dev 3 witness) s1 = vscal b (V (-325) 546 728)).
  { rewrite D1, mv3_scal. f_equal. unfold mv3. rewrite !witness_dev by lia. cbn [witness mat3 c0 c1 c2]. f_equal; lra. }
  rewrite M0, M1.
  assert (A11 : dot3 s0 (vscal a (V 3575 (-1950) (-2600))) = 162.5).
  { rewrite D0, dot3_scal_l, dot3_scal_r. unfold dot3. cbn [c0 c1 c2]. lra. }
  assert (A22 : dot3 s1 (vscal b (V (-325) 546 728)) = 162.5).
  { rewrite D1, dot3_scal_l, dot3_scal_r. unfold dot3. cbn [c0 c1 c2]. lra. }
  rewrite A11, A22.
  assert (H : forall x y, half_gap 162.5 x y 162.5 = 0).
  { intros x y. unfold half_gap, sgn. replace (162.5 - 162.5) with 0 by ring. destruct (Rlt_dec 0 0); [lra|]. ring. }
  rewrite H. unfold remaining. rewrite Rabs_R0. destruct (Rle_dec 0 small_gap) as [_|X]; [|elim X; apply Rlt_le, small_gap_pos].
  eexists. split; [reflexivity|]. rewrite witness_tr. unfold sorted, shift. cbn [lam c0 c1 c2 q0 q1 q2].
  set (v := V (-325 + 0 / 3) (0.5 * (162.5 + 162.5) - 0 + 0 / 3) (0.5 * (162.5 + 162.5) + 0 + 0 / 3)).
  assert (Ev : v = V (-325) 162.5 162.5) by (unfold v; f_equal; lra). rewrite Ev.
  unfold argsort. cbn [c0 c1 c2 entry]. destruct (Rlt_dec 162.5 (-325)); [lra|]. cbn [c0 c1 c2 entry].
  destruct (Rlt_dec 162.5 162.5); [lra|]. cbn [c0 c1 c2 entry]. destruct (Rlt_dec 162.5 (-325)); [lra|]. reflexivity.
Qed.
(** 162.5 is not an eigenvalue *)
Lemma witness_wrong : charpoly witness 162.5 <> 0.
Proof. assert (X := witness_spectrum 162.5). cbn [c0 c1 c2] in X. lra. Qed.
Lemma witness_refutes : exists A, symmetric3 A /\ spectrum A (V (-325) 65 260) /\
  exists e, eig_symm A = Some e /\ lam e = V (-325) 162.5 162.5 /\ charpoly A 162.5 <> 0 /\ ~ decomposes A e.
Proof.
  exists witness. split; [apply witness_sym|]. split; [apply witness_spectrum|]. destruct witness_stuck as [e [E L]]. exists e.
  split; [exact E|]. split; [exact L|]. split; [apply witness_wrong|]. intro D.
  destruct (eig_symm_total witness witness_sym) as [e' [E' [F _]]]. rewrite E in E'. injection E' as <-.
  (* a unit vector mapped to 162.5 times itself *)
  assert (X := D 1%nat ltac:(lia)). assert (U := F 1%nat 1%nat ltac:(lia) ltac:(lia)). rewrite L in X. cbn [entry c1 Nat.eqb] in X, U.
  set (u := column e 1) in *. clearbody u. destruct u as [x y z]. unfold mv3, vscal in X. cbn [witness mat3 c0 c1 c2] in X. unfold dot3 in U. cbn [c0 c1 c2] in U.
  injection X as X0 X1 X2. assert (x = 0) by lra. assert (y = 0) by lra. assert (z = 0) by lra. subst x y z. lra.
Qed.
