(** * Finite-deformation plasticity: rigid motions, linear hardening, and a tension test (C59) *)
From Coq Require Import Reals Lra Lia List Setoid Morphisms.
From Verif Require Import Sums Tensor MatAlg Materials MaterialFacts ScalarSolve Plasticity PlasticityEx SymEig SymEigFacts SymEigRotate SymEigMain IsoFun IsoEig IsoEigDeriv SymEigEx FiniteJ2 FiniteJ2Facts FiniteJ2Main FiniteJ2Exact.
Local Open Scope R_scope.

Theorem finite_linear_converges m sy Hi st H r a : sound_finite m -> f_h m = linear_hardening sy Hi -> 0 < sy -> 0 <= Hi -> 0 <= feqps st ->
  det3 (deformation H) <> 0 -> det3 (Fpinv st) <> 0 -> j2_finite m st H = FReturned r -> f_status r = Some a -> a_converged a = true.
Proof.
  intros M EH Ps PH P D1 D2 E Ea. destruct (finite_call m st H M P D1 D2) as [r' [L [r0 [E' C]]]]. rewrite E in E'. injection E' as <-.
  destruct M as [HE [Hn _]]. assert (E0 := cl_small _ _ _ _ _ _ C). unfold as_small in E0. rewrite EH in E0.
  apply (linear_converges (f_E m) (f_nu m) sy Hi 0 (at_rest st) (strain L) r0 a); auto; [lra|now apply at_rest_sound|].
  now rewrite <- (cl_status _ _ _ _ _ _ C).
Qed.

(** ** matrices diag(x, y, x) *)
Definition axial (x y : R) : mat := uniaxial x (y - x) (V 0 1 0).
Lemma axial_entries x y : meq 3 (axial x y) (mat3 x 0 0 0 y 0 0 0 x).
Proof.
  intros i j Hi Hj. unfold axial, uniaxial. destruct i as [|[|[|]]]; try lia; destruct j as [|[|[|]]]; try lia; cbn [Nat.eqb entry c0 c1 c2 mat3]; ring.
Qed.
Lemma axial_exact B x y : meq 3 B (axial x y) -> exact_eig B.
Proof. intro E. apply (exact_eig_ext (axial x y)); [now apply meq_sym|]. apply uniaxial_exact. unfold dot3. cbn [c0 c1 c2]. ring. Qed.
Lemma axial_sym B x y : meq 3 B (axial x y) -> symmetric3 B.
Proof. intros E i j Hi Hj. rewrite (E i j Hi Hj), (E j i Hj Hi). now apply uniaxial_sym. Qed.
Lemma axial_function B x y e f : meq 3 B (axial x y) -> eig_symm B = Some e -> meq 3 (recompose e f) (axial (f x) (f y)).
Proof.
  intros EB E. assert (S := axial_sym B x y EB).
  assert (D : decomposes B e) by (destruct (axial_exact B x y EB) as [e' [E' D']]; rewrite E in E'; now injection E' as <-).
  set (l := fun k : nat => match k with Datatypes.S O => y | _ => x end). apply (meq_trans 3 _ (comp 3 ident l f)).
  - apply (function_unique B); auto.
    + split; intros i j Hi Hj; unfold mmul, transpose, ident; cbn [sumn]; destruct i as [|[|[|]]]; try lia; destruct j as [|[|[|]]]; try lia; cbn [Nat.eqb]; ring.
    + intros i k Hi Hk. rewrite (sumn_ext 3 _ (fun j => axial x y i j * ident j k)) by (intros j Hj; now rewrite (EB i j Hi Hj)).
      unfold l, axial, uniaxial, ident. cbn [sumn].
      destruct i as [|[|[|]]]; try lia; destruct k as [|[|[|]]]; try lia; cbn [Nat.eqb entry c0 c1 c2]; ring.
  - intros i j Hi Hj. unfold comp, l, axial, uniaxial, ident. cbn [sumn].
    destruct i as [|[|[|]]]; try lia; destruct j as [|[|[|]]]; try lia; cbn [Nat.eqb entry c0 c1 c2]; ring.
Qed.
Lemma axial_log B x y L : meq 3 B (axial x y) -> log_symm B = Some L -> meq 3 L (axial (ln x) (ln y)).
Proof.
  intros EB E. unfold log_symm in E. destruct (eig_symm B) as [e|] eqn:Ee; [|discriminate]. destruct (positive_dec e); [|discriminate].
  injection E as <-. now apply (axial_function B).
Qed.
Lemma axial_exp B x y A : meq 3 B (axial x y) -> exp_symm B = Some A -> meq 3 A (axial (exp x) (exp y)).
Proof.
  intros EB E. unfold exp_symm, matrix_function in E. destruct (eig_symm B) as [e|] eqn:Ee; [|discriminate]. injection E as <-. now apply (axial_function B).
Qed.
Lemma axial_scal B x y c : meq 3 B (axial x y) -> meq 3 (mscal c B) (axial (c * x) (c * y)).
Proof. intros E i j Hi Hj. unfold mscal. rewrite (E i j Hi Hj). unfold axial, uniaxial. destruct (Nat.eqb i j); ring. Qed.
Lemma axial_mul B C x y z w : meq 3 B (axial x y) -> meq 3 C (axial z w) -> meq 3 (mmul 3 B C) (axial (x * z) (y * w)).
Proof.
  intros EB EC. rewrite EB, EC. intros i j Hi Hj. unfold mmul, axial, uniaxial. cbn [sumn].
  destruct i as [|[|[|]]]; try lia; destruct j as [|[|[|]]]; try lia; cbn [Nat.eqb entry c0 c1 c2]; ring.
Qed.
Lemma axial_transpose B x y : meq 3 B (axial x y) -> meq 3 (transpose B) (axial x y).
Proof. intros E i j Hi Hj. unfold transpose. rewrite (E j i Hj Hi). now apply uniaxial_sym. Qed.
Lemma axial_dev B x y : meq 3 B (axial x y) -> meq 3 (dev 3 B) (axial ((x - y) / 3) (2 * (y - x) / 3)).
Proof.
  intros E. rewrite E. intros i j Hi Hj. unfold dev. rewrite (tr_proper 3 _ _ (axial_entries x y)). unfold tr. cbn [sumn mat3].
  replace (INR 3) with 3 by (cbn [INR]; lra). rewrite (axial_entries x y i j Hi Hj), (axial_entries _ _ i j Hi Hj).
  destruct i as [|[|[|]]]; try lia; destruct j as [|[|[|]]]; try lia; cbn [Nat.eqb mat3]; field.
Qed.
Lemma axial_ident : meq 3 ident (axial 1 1).
Proof. intros i j Hi Hj. rewrite (axial_entries 1 1 i j Hi Hj). unfold ident. destruct i as [|[|[|]]]; try lia; destruct j as [|[|[|]]]; try lia; reflexivity. Qed.
Lemma axial_mises B x y : meq 3 B (axial x y) -> mises B * mises B = 1.5 * (2 * (x * x) + y * y).
Proof.
  intro E. rewrite mises_sq. f_equal. rewrite (sqn_ext _ _ E), (sqn_ext _ _ (axial_entries x y)). unfold squared_norm. cbn [sumn mat3]. ring.
Qed.

(** ** a rigid motion causes no stress and no flow *)
Definition unstrained : fstate := FState ident 0.
Theorem finite_rigid m Q : sound_finite m -> rotation 3 Q ->
  exists r, j2_finite m unstrained (msub Q ident) = FReturned r /\ f_state r = unstrained /\ f_status r = None /\ meq 3 (f_stress r) (fun _ _ => 0).
Proof.
  intros M [Q1 [Q2 QD]]. unfold detn in QD. cbn [Nat.eqb] in QD. set (H := msub Q ident).
  assert (EF : meq 3 (deformation H) Q) by (intros i j _ _; unfold deformation, H, madd, msub; ring).
  assert (D1 : det3 (deformation H) <> 0) by (rewrite (det3_ext _ _ EF); lra).
  assert (D2 : det3 (Fpinv unstrained) <> 0) by (cbn [unstrained Fpinv]; rewrite det3_ident; lra).
  assert (P : 0 <= feqps unstrained) by (cbn; lra).
  destruct (finite_call m unstrained H M P D1 D2) as [r [L [r0 [E C]]]]. exists r. split; [exact E|].
  assert (ES : meq 3 (stretch unstrained H) (axial 1 1)).
  { unfold stretch, elastic. cbn [unstrained Fpinv]. rewrite mmul_ident_r, EF, Q1. apply axial_ident. }
  assert (EL := axial_log _ _ _ _ ES (cl_log _ _ _ _ _ _ C)). rewrite ln_1 in EL.
  assert (SL := log_symmetric _ _ (cl_log _ _ _ _ _ _ C)). assert (SM := as_small_sound m M). assert (SS := at_rest_sound unstrained P).
  assert (ZS : meq 3 (dev 3 (strain L)) (fun _ _ => 0)).
  { unfold strain. rewrite (axial_dev _ _ _ (axial_scal _ _ _ 0.5 EL)). rewrite axial_entries. intros i j Hi Hj.
    destruct i as [|[|[|]]]; try lia; destruct j as [|[|[|]]]; try lia; cbn [mat3]; lra. }
  assert (ZT : tr 3 (strain L) = 0).
  { unfold strain. rewrite (tr_proper 3 _ _ (axial_scal _ _ _ 0.5 EL)), (tr_proper 3 _ _ (axial_entries _ _)). unfold tr. cbn [sumn mat3]. lra. }
  assert (Em : j2_small (as_small m) (at_rest unstrained) (strain L) =
    Returned {| r_stress := hencky m (strain L); r_state := at_rest unstrained; r_status := None |}).
  { assert (Z := j2_elastic (as_small m) (at_rest unstrained) (strain L)). rewrite (predictor_same m unstrained L SL) in Z. cbn [t_s t_p] in Z. apply Z.
    - apply (sm_nu _ SM).
    - fold (hencky m (strain L)). unfold overstress. rewrite (mises_ext _ (mscal 0 ident)).
      + rewrite mises_scal by lra. rewrite Rmult_0_l. cbn [at_rest eqps unstrained feqps]. assert (Y := sm_pos _ SM 0 ltac:(lra)).
        assert (T := rtol_pos _ SM). lra.
      + unfold hencky. rewrite dev_total by (rewrite tr_scal, (tr_proper 3 _ _ ZS); unfold tr; cbn [sumn]; ring). rewrite ZS.
        intros i j _ _. unfold msub, back_stress, mscal. cbn [as_small j_Hk]. ring. }
  assert (E3 := cl_small _ _ _ _ _ _ C). rewrite Em in E3. injection E3 as E3.
  assert (N : f_status r = None) by (rewrite (cl_status _ _ _ _ _ _ C), <- E3; reflexivity).
  split; [exact (cl_kept _ _ _ _ _ _ C N)|]. split; [exact N|].
  destruct (cl_carried _ _ _ _ _ _ C) as [B [_ [_ H3]]]. rewrite (cl_mandel _ _ _ _ _ _ C), <- E3 in H3. cbn [r_stress] in H3.
  assert (ZM : meq 3 (hencky m (strain L)) (mscal 0 ident)).
  { unfold hencky, total. rewrite ZT, ZS. intros i j _ _. unfold madd, mscal. ring. }
  rewrite ZM, mmul_scal_r, mmul_scal_l in H3. intros i j Hi Hj. assert (X := H3 i j Hi Hj). unfold kirchhoff, mscal in X. rewrite Rmult_0_l in X.
  apply (Rmult_eq_reg_l (det3 (deformation H))); [lra|exact D1].
Qed.

(** ** a tension test that yields *)
Definition steel : fj2 := FJ2 (2 / 3) 0 (linear_hardening (1 / 10) 1).
Definition pull : mat := axial 0 (exp 1 - 1).
Lemma steel_sound : sound_finite steel.
Proof. split; [cbn; lra|]. split; [cbn; lra|]. apply linear_sound; lra. Qed.
Lemma pull_deformation : meq 3 (deformation pull) (axial 1 (exp 1)).
Proof.
  unfold deformation, pull. intros i j Hi Hj. unfold madd. rewrite (axial_entries _ _ i j Hi Hj), (axial_entries _ _ i j Hi Hj).
  unfold ident. destruct i as [|[|[|]]]; try lia; destruct j as [|[|[|]]]; try lia; cbn [Nat.eqb mat3]; ring.
Qed.
Lemma pull_det : det3 (deformation pull) <> 0.
Proof.
  rewrite (det3_ext _ _ pull_deformation), (det3_ext _ _ (axial_entries _ _)). unfold det3. cbn [mat3]. assert (X := exp_pos 1). lra.
Qed.
Lemma unstrained_ok : 0 <= feqps unstrained /\ det3 (Fpinv unstrained) <> 0.
Proof. cbn [unstrained feqps Fpinv]. rewrite det3_ident. lra. Qed.
Theorem steel_yields : exists r a, j2_finite steel unstrained pull = FReturned r /\ f_status r = Some a /\ a_converged a = true /\ exact_step steel unstrained pull r.
Proof.
  destruct unstrained_ok as [P D2]. assert (M := steel_sound). assert (SM := as_small_sound steel M). assert (SS := at_rest_sound unstrained P).
  destruct (finite_call steel unstrained pull M P pull_det D2) as [r [L [r0 [E C]]]]. exists r.
  assert (EE : meq 3 (elastic unstrained pull) (axial 1 (exp 1))) by (unfold elastic; cbn [unstrained Fpinv]; rewrite mmul_ident_r; apply pull_deformation).
  assert (ES : meq 3 (stretch unstrained pull) (axial (1 * 1) (exp 1 * exp 1))) by (unfold stretch; apply axial_mul; [now apply axial_transpose|exact EE]).
  assert (EL := axial_log _ _ _ _ ES (cl_log _ _ _ _ _ _ C)). rewrite Rmult_1_l, ln_1, ln_mult, ln_exp in EL by apply exp_pos.
  assert (SL := log_symmetric _ _ (cl_log _ _ _ _ _ _ C)).
  assert (Es : meq 3 (mscal (2 * shear (f_E steel) (f_nu steel)) (dev 3 (strain L)))
    (axial (2 * shear (f_E steel) (f_nu steel) * ((0.5 * 0 - 0.5 * (1 + 1)) / 3)) (2 * shear (f_E steel) (f_nu steel) * (2 * (0.5 * (1 + 1) - 0.5 * 0) / 3)))).
  { apply axial_scal, axial_dev. unfold strain. now apply axial_scal. }
  assert (G : shear (f_E steel) (f_nu steel) = 1 / 3) by (unfold shear, steel; cbn [f_E f_nu]; lra).
  set (q := mises (mscal (2 * shear (f_E steel) (f_nu steel)) (dev 3 (strain L)))).
  assert (Q2 : q * q = 4 / 9) by (unfold q; rewrite (axial_mises _ _ _ Es), G; lra).
  assert (Qn : 0 <= q) by apply mises_nonneg. assert (Q : q = 2 / 3).
  { assert (Z : (q - 2 / 3) * (q + 2 / 3) = 0) by lra. apply Rmult_integral in Z. lra. }
  assert (E0 := cl_small _ _ _ _ _ _ C). destruct (j2_returns _ SM _ SS (strain L)) as [r0' [E0' D]]. rewrite E0 in E0'. injection E0' as <-.
  rewrite (predictor_same steel unstrained L SL) in D. cbn [t_q] in D. fold (mises (mscal (2 * shear (f_E steel) (f_nu steel)) (dev 3 (strain L)))) in D. fold q in D.
  assert (Tl : tolerance * h_sy (f_h steel) < 1 / 10).
  { cbn [steel f_h linear_hardening h_sy]. unfold tolerance. assert (1 < 10 ^ 10) by (apply Rlt_pow_R1; [lra|lia]).
    assert (/ 10 ^ 10 < 1) by (rewrite <- Rinv_1; apply Rinv_lt_contravar; lra). lra. }
  destruct D as [[Le _]|[_ [a [_ [_ [_ Er]]]]]].
  { exfalso. unfold yield_residual in Le. rewrite Q in Le. cbn [as_small j_E j_nu j_h j_Hk at_rest eqps unstrained feqps steel f_h linear_hardening h_Y h_sy] in Le, Tl. lra. }
  assert (Ha : f_status r = Some a) by (rewrite (cl_status _ _ _ _ _ _ C), Er; reflexivity).
  exists a. split; [exact E|]. split; [exact Ha|]. split.
  { apply (finite_linear_converges steel (1 / 10) 1 unstrained pull r a M eq_refl); auto using pull_det; lra. }
  (* all matrices of the step are axial *)
  assert (FD : exists x y, meq 3 (flow_direction steel L) (axial x y)).
  { unfold flow_direction. cbv zeta. fold (strain L). eexists. eexists. apply axial_scal. exact Es. }
  destruct FD as [x [y FD]]. split; [|split].
  - exact (axial_exact _ _ _ ES).
  - destruct (cl_flow _ _ _ _ _ _ C a Ha) as [A [EA [SA [_ FP]]]].
    assert (EX : meq 3 (mscal (-1) (ep (r_state r0))) (axial (-1 * (a_x a * x)) (-1 * (a_x a * y)))).
    { apply axial_scal. rewrite Er. cbn [r_state ep at_rest]. eapply meq_trans; [|apply axial_scal, FD].
      intros i j Hi Hj. unfold madd. unfold flow. rewrite (predictor_same steel unstrained L SL). cbn [t_q t_eta]. unfold flow_direction. cbv zeta. fold (strain L). unfold mises, mscal. ring. }
    assert (AX := axial_exp _ _ _ _ EX EA).
    assert (E1 : meq 3 (elastic (f_state r) pull) (axial (1 * exp (-1 * (a_x a * x))) (exp 1 * exp (-1 * (a_x a * y))))).
    { unfold elastic. rewrite FP. cbn [unstrained Fpinv]. rewrite mmul_ident_l. apply axial_mul; [apply pull_deformation|exact AX]. }
    eapply axial_exact. unfold stretch. apply axial_mul; [apply axial_transpose|]; exact E1.
  - intros _ L2 E2. rewrite (cl_log _ _ _ _ _ _ C) in E2. injection E2 as <-. eapply axial_exact, axial_scal, FD.
Qed.
