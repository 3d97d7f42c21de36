(** * Matrices decomposed without error (C58) *)
From Coq Require Import Reals Lra Lia Bool Psatz.
From Verif Require Import Sums Tensor MatAlg SymEig SymEigFacts SymEigRotate SymEigMain SymEigStuck IsoFun IsoDeriv IsoEig IsoEigDeriv.
Local Open Scope R_scope.

(** diag(-5, 1, 4) *)
Definition stretched : mat := mat3 (-5) 0 0 0 1 0 0 0 4.
Lemma stretched_sym : symmetric3 stretched.
Proof. intros i j Hi Hj. destruct i as [|[|[|]]]; try lia; destruct j as [|[|[|]]]; try lia; reflexivity. Qed.
Lemma stretched_tr : tr 3 stretched = 0.
Proof. unfold tr. cbn [sumn stretched mat3]. lra. Qed.
Lemma stretched_dev i j : (i < 3)%nat -> (j < 3)%nat -> dev 3 stretched i j = stretched i j.
Proof. intros _ _. unfold dev. rewrite stretched_tr. destruct (Nat.eqb i j); [lra|reflexivity]. Qed.
Lemma stretched_second : second stretched = 21.
Proof. unfold second, inner. cbn [sumn]. rewrite !stretched_dev by lia. cbn [stretched mat3]. lra. Qed.
Lemma stretched_det : det3 (dev 3 stretched) = -20.
Proof. unfold det3. rewrite !stretched_dev by lia. cbn [stretched mat3]. lra. Qed.
Lemma stretched_lead : lead 21 (-20) = -5.
Proof.
  destruct (lead_root 21 (-20)) as [R D]; [lra|lra|]. set (x := lead _ _) in *. clearbody x.
  assert (P : (x + 5) * ((x - 1) * (x - 4)) = 0) by lra.
  apply Rmult_integral in P. destruct P as [P|P]; [lra|]. apply Rmult_integral in P.
  destruct P as [P|P]; [assert (x = 1) by lra|assert (x = 4) by lra]; subst x; lra.
Qed.
Lemma stretched_row i : (i < 3)%nat -> shifted_row (dev 3 stretched) (-5) i = match i with O => V 0 0 0 | S O => V 0 6 0 | _ => V 0 0 9 end.
Proof.
  intro Hi. unfold shifted_row. rewrite !stretched_dev by lia. destruct i as [|[|[|]]]; try lia; cbn [stretched mat3 Nat.eqb]; f_equal; lra.
Qed.
Lemma unit_normalize u w a : 0 < a -> u = vscal a w -> dot3 w w = 1 -> normalize u = Some w.
Proof.
  intros P -> U. assert (N : norm3 (vscal a w) = a).
  { unfold norm3. rewrite dot3_scal_l, dot3_scal_r, U, Rmult_1_r. apply sqrt_square. lra. }
  unfold normalize. rewrite N. destruct (Req_EM_T a 0); [lra|]. f_equal. apply scal_scal. field. lra.
Qed.
Lemma stretched_values : exists e, eig_symm stretched = Some e /\ lam e = V (-5) 1 4.
Proof.
  destruct (eig_symm_total stretched stretched_sym) as [e [E _]]. exists e. split; [exact E|].
  unfold eig_symm, of_deviator in E. rewrite stretched_second, stretched_det, stretched_lead in E.
  destruct (Rlt_dec 0 21) as [_|X]; [|lra]. unfold deflate in E.
  assert (Pl : plane (shifted_row (dev 3 stretched) (-5)) = Some (V 0 0 1, V 0 1 0)).
  { assert (L : longest (shifted_row (dev 3 stretched) (-5)) = 2%nat).
    { assert (N0 : norm3 (V 0 0 0) = 0) by apply norm3_zero3.
      assert (N1 : norm3 (V 0 6 0) = 6) by (unfold norm3, dot3; cbn [c0 c1 c2]; replace (0 * 0 + 6 * 6 + 0 * 0) with (6 * 6) by ring; apply sqrt_square; lra).
      assert (N2 : norm3 (V 0 0 9) = 9) by (unfold norm3, dot3; cbn [c0 c1 c2]; replace (0 * 0 + 0 * 0 + 9 * 9) with (9 * 9) by ring; apply sqrt_square; lra).
      set (r := shifted_row (dev 3 stretched) (-5)).
      assert (R0 : norm3 (r 0%nat) = 0) by (unfold r; rewrite stretched_row by lia; exact N0).
      assert (R1 : norm3 (r 1%nat) = 6) by (unfold r; rewrite stretched_row by lia; exact N1).
      assert (R2 : norm3 (r 2%nat) = 9) by (unfold r; rewrite stretched_row by lia; exact N2).
      unfold longest. rewrite R0, R1, R2. destruct (Rlt_dec 0 6); [|lra]. rewrite R1. destruct (Rlt_dec 6 9); [reflexivity|lra]. }
    unfold plane. rewrite L. change (Nat.modulo (2 + 1) 3) with 0%nat. change (Nat.modulo (2 + 2) 3) with 1%nat. rewrite !stretched_row by lia.
    rewrite (unit_normalize (V 0 0 9) (V 0 0 1) 9); [|lra|unfold vscal; cbn [c0 c1 c2]; f_equal; lra|unfold dot3; cbn [c0 c1 c2]; ring].
    assert (T1 : without (V 0 0 1) (V 0 0 0) = V 0 0 0) by (apply v3_ext; v3u; ring).
    assert (T2 : without (V 0 0 1) (V 0 6 0) = V 0 6 0) by (apply v3_ext; v3u; ring).
    rewrite T1, T2. unfold longer. destruct (Rlt_dec (norm3 (V 0 6 0)) (norm3 (V 0 0 0))) as [X|_].
    { exfalso. revert X. apply norm3_lt. unfold dot3. cbn [c0 c1 c2]. lra. }
    rewrite (unit_normalize (V 0 6 0) (V 0 1 0) 6); [reflexivity|lra|unfold vscal; cbn [c0 c1 c2]; f_equal; lra|unfold dot3; cbn [c0 c1 c2]; ring]. }
  rewrite Pl in E.
  assert (M0 : mv3 (dev 3 stretched) (V 0 0 1) = V 0 0 4).
  { unfold mv3. rewrite !stretched_dev by lia. cbn [stretched mat3 c0 c1 c2]. f_equal; lra. }
  assert (M1 : mv3 (dev 3 stretched) (V 0 1 0) = V 0 1 0).
  { unfold mv3. rewrite !stretched_dev by lia. cbn [stretched mat3 c0 c1 c2]. f_equal; lra. }
  rewrite M0, M1 in E. cbv zeta in E.
  replace (dot3 (V 0 0 1) (V 0 0 4)) with 4 in E by (unfold dot3; cbn [c0 c1 c2]; ring).
  replace (dot3 (V 0 0 1) (V 0 1 0)) with 0 in E by (unfold dot3; cbn [c0 c1 c2]; ring).
  replace (dot3 (V 0 1 0) (V 0 0 4)) with 0 in E by (unfold dot3; cbn [c0 c1 c2]; ring).
  replace (dot3 (V 0 1 0) (V 0 1 0)) with 1 in E by (unfold dot3; cbn [c0 c1 c2]; ring).
  replace (half_gap 4 0 0 1) with 1.5 in E.
  2:{ unfold half_gap, sgn. replace ((4 - 1) * (4 - 1) + 4 * 0 * 0) with (3 * 3) by ring. rewrite sqrt_square by lra. destruct (Rlt_dec 0 (4 - 1)); lra. }
  destruct (remaining _ _ _ _ _ _ _) as [[v1 v2]|]; [|discriminate].
  injection E as <-. rewrite stretched_tr. unfold shift. cbn [lam c0 c1 c2 q0 q1 q2].
  assert (Ev : V (-5 + 0 / 3) (0.5 * (4 + 1) - 1.5 + 0 / 3) (0.5 * (4 + 1) + 1.5 + 0 / 3) = V (-5) 1 4) by (f_equal; lra). rewrite Ev.
  unfold sorted, argsort. cbn [lam c0 c1 c2 entry]. destruct (Rlt_dec 1 (-5)); [lra|]. cbn [c0 c1 c2 entry].
  destruct (Rlt_dec 4 1); [lra|]. cbn [c0 c1 c2 entry]. destruct (Rlt_dec 1 (-5)); [lra|]. reflexivity.
Qed.
Lemma small_gap_half : 2 * small_gap < 1.
Proof.
  assert (H : 10 < 10 ^ 15) by (rewrite <- (pow_1 10) at 1; apply Rlt_pow; [lra|lia]).
  unfold small_gap. apply (Rmult_lt_reg_r (10 ^ 15)); [lra|]. rewrite Rmult_assoc, Rinv_l by lra. lra.
Qed.
Lemma stretched_exact : exact_eig stretched.
Proof.
  destruct stretched_values as [e [E L]]. exists e. split; [exact E|]. assert (G := small_gap_half).
  apply eig_symm_distinct; [apply stretched_sym|exact E| |]; rewrite L; cbn [c0 c1 c2]; lra.
Qed.
Lemma uniaxial_exact a b n : dot3 n n = 1 -> exact_eig (uniaxial a b n).
Proof.
  intro U. destruct (eig_symm_total _ (uniaxial_sym a b n)) as [e [E _]]. exists e. split; [exact E|]. now apply eig_symm_uniaxial.
Qed.
(** a curve through matrices with a repeated eigenvalue *)
Definition pulled (t : R) : mat := uniaxial (2 + t) 3 (V 0 1 0).
Lemma pulled_curve : exact_curve pulled ident.
Proof.
  split.
  - exists 1. split; [lra|]. intros t _. split; [apply uniaxial_sym|]. apply uniaxial_exact. unfold dot3. cbn [c0 c1 c2]. ring.
  - intros i j _ _. unfold pulled, uniaxial, ident. destruct (Nat.eqb i j).
    + replace 1 with (0 + 1 + 0) by ring. apply derivable_pt_lim_plus; [|apply derivable_pt_lim_const].
      apply derivable_pt_lim_plus; [apply derivable_pt_lim_const|apply derivable_pt_lim_id].
    + replace 0 with (0 + 0) at 2 by ring. apply derivable_pt_lim_plus; apply derivable_pt_lim_const.
Qed.
Lemma pulled_definite t : -1 < t -> positive_definite (pulled t).
Proof.
  intros Ht u Nu. unfold pulled. rewrite mv3_uniaxial, dot3_add_r, !dot3_scal_r.
  assert (P := dot3_self u). assert (N : dot3 u u <> 0) by (intro Z; apply Nu; now apply dot3_zero).
  rewrite (dot3_comm u (V 0 1 0)).
  set (s := dot3 u u) in *. set (x := dot3 (V 0 1 0) u) in *. clearbody s x.
  assert (0 <= x * x) by apply Rle_0_sqr. assert (0 < (2 + t) * s) by (apply Rmult_lt_0_compat; lra). lra.
Qed.
Lemma stretched_gaps : exists e, eig_symm stretched = Some e /\ lam e = V (-5) 1 4 /\
  2 * small_gap < c1 (lam e) - c0 (lam e) /\ 2 * small_gap < c2 (lam e) - c1 (lam e).
Proof.
  destruct stretched_values as [e [E L]]. exists e. rewrite L. cbn [c0 c1 c2]. assert (G := small_gap_half). repeat split; auto; lra.
Qed.
Lemma pulled_meets : symmetric3 (pulled 0) /\ exact_eig (pulled 0) /\ positive_definite (pulled 0) /\
  exists L, log_symm (pulled 0) = Some L /\ exact_eig L.
Proof.
  assert (U : dot3 (V 0 1 0) (V 0 1 0) = 1) by (unfold dot3; cbn [c0 c1 c2]; ring).
  assert (S : symmetric3 (pulled 0)) by apply uniaxial_sym. assert (X : exact_eig (pulled 0)) by now apply uniaxial_exact.
  assert (P : positive_definite (pulled 0)) by (apply pulled_definite; lra). split; [exact S|]. split; [exact X|]. split; [exact P|].
  destruct (log_defined _ S X P) as [L [HL _]]. exists L. split; [exact HL|]. unfold log_symm in HL. destruct X as [e [E D]]. rewrite E in HL.
  destruct (positive_dec e); [|discriminate]. injection HL as <-.
  apply (exact_eig_ext (uniaxial (ln 2) (ln 5 - ln 2) (V 0 1 0))); [|now apply uniaxial_exact]. apply meq_sym.
  set (l := fun k : nat => match k with S O => 5 | _ => 2 end).
  apply (meq_trans 3 _ (comp 3 ident l ln)).
  - apply (function_unique (pulled 0)); auto.
    + split; intros i j Hi Hj; unfold mmul, transpose, ident; cbn [sumn]; destruct i as [|[|[|]]]; try lia; destruct j as [|[|[|]]]; try lia; cbn [Nat.eqb]; ring.
    + intros i k Hi Hk. unfold l, pulled, uniaxial, ident. cbn [sumn].
      destruct i as [|[|[|]]]; try lia; destruct k as [|[|[|]]]; try lia; cbn [Nat.eqb entry c0 c1 c2]; ring.
  - intros i j Hi Hj. unfold comp, l, uniaxial, ident. cbn [sumn].
    destruct i as [|[|[|]]]; try lia; destruct j as [|[|[|]]]; try lia; cbn [Nat.eqb entry c0 c1 c2]; ring.
Qed.
Lemma pulled_curve_meets : exact_curve pulled ident /\ positive_definite (pulled 0) /\
  exists E L S, near0 (fun t => exp_symm (pulled t) = Some (E t)) /\ near0 (fun t => log_symm (pulled t) = Some (L t)) /\
    near0 (fun t => sqrt_symm (pulled t) = Some (S t)).
Proof.
  assert (Near : forall f : mat -> option mat, (forall t, -1 < t -> exists B, f (pulled t) = Some B) ->
    exists F, near0 (fun t => f (pulled t) = Some (F t))).
  { intros f H. exists (fun t => match f (pulled t) with Some B => B | None => ident end). exists 1. split; [lra|].
    intros t Ht. apply Rabs_def2 in Ht. destruct (H t) as [B ->]; [lra|]. reflexivity. }
  assert (Ex : forall t, exact_eig (pulled t)) by (intro t; apply uniaxial_exact; unfold dot3; cbn [c0 c1 c2]; ring).
  split; [apply pulled_curve|]. split; [apply pulled_definite; lra|].
  destruct (Near exp_symm) as [FE HE]. { intros t Ht. destruct (exp_det (pulled t)) as [B [HB _]]; [apply uniaxial_sym|]. now exists B. }
  destruct (Near log_symm) as [FL HL]. { intros t Ht. destruct (log_defined (pulled t)) as [B [HB _]]; [apply uniaxial_sym|apply Ex|now apply pulled_definite|]. now exists B. }
  destruct (Near sqrt_symm) as [FS HS]. { intros t Ht. destruct (sqrt_works (pulled t)) as [B [HB _]]; [apply uniaxial_sym|apply Ex|now apply pulled_definite|]. now exists B. }
  exists FE, FL, FS. auto.
Qed.
