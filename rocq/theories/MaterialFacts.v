(** * Facts about the elastic materials (C22, C41, C42, C47) *)
From Coq Require Import Reals Lra Lia Bool Setoid Morphisms.
From Coquelicot Require Import Coquelicot.
From Verif Require Import Sums Dual Tensor LU LUDeriv MatAlg Materials.
Local Open Scope R_scope.

(** ** algebra of inner products *)
Lemma inner_sym_part n S A : symmetric n S -> inner n n S (mscal 0.5 (madd A (transpose A))) = inner n n S A.
Proof.
  intros HS.
  assert (E : inner n n S (transpose A) = inner n n S A).
  { unfold inner. rewrite sumn_swap. apply sumn_ext. intros i Hi. apply sumn_ext. intros j Hj. unfold transpose.
    rewrite <- (HS i j Hi Hj). reflexivity. }
  assert (L : inner n n S (mscal 0.5 (madd A (transpose A))) = 0.5 * (inner n n S A + inner n n S (transpose A))).
  { unfold inner. rewrite <- sumn_plus, <- sumn_scal_l. apply sumn_ext. intros i _. rewrite <- sumn_plus, <- sumn_scal_l.
    apply sumn_ext. intros j _. unfold mscal, madd. ring. }
  rewrite L, E. lra.
Qed.
Lemma inner_add_l n A B C : inner n n (madd A B) C = inner n n A C + inner n n B C.
Proof.
  unfold inner. rewrite <- sumn_plus. apply sumn_ext. intros i _. rewrite <- sumn_plus. apply sumn_ext. intros j _. unfold madd. ring.
Qed.
Lemma inner_sub_l n A B C : inner n n (msub A B) C = inner n n A C - inner n n B C.
Proof.
  unfold inner. rewrite <- sumn_minus. apply sumn_ext. intros i _. rewrite <- sumn_minus. apply sumn_ext. intros j _. unfold msub. ring.
Qed.
Lemma inner_scal_l n c A B : inner n n (mscal c A) B = c * inner n n A B.
Proof.
  unfold inner. rewrite <- sumn_scal_l. apply sumn_ext. intros i _. rewrite <- sumn_scal_l. apply sumn_ext. intros j _. unfold mscal. ring.
Qed.
Lemma inner_ident_l n A : inner n n ident A = tr n A.
Proof.
  assert (E := inner_ident n A 1). rewrite Rmult_1_l in E. rewrite <- E. apply inner_proper; [|reflexivity].
  intros i j _ _. ring.
Qed.
Lemma inner_dev_dev n A B : (0 < n)%nat -> inner n n (dev n A) (dev n B) = inner n n (dev n A) B.
Proof.
  intros Hn.
  assert (E : meq n B (madd (dev n B) (mscal (tr n B / INR n) ident))).
  { intros i j _ _. unfold madd, mscal. now rewrite dev_spherical. }
  transitivity (inner n n (dev n A) (madd (dev n B) (mscal (tr n B / INR n) ident))); [|now rewrite <- E].
  rewrite (inner_comm n (dev n A) (madd _ _)), inner_add_l, inner_scal_l, inner_ident_l, tr_dev by exact Hn.
  rewrite (inner_comm n (dev n B)). ring.
Qed.
Lemma tr_inner n A B : tr n (mmul n A B) = inner n n (transpose A) B.
Proof. now rewrite inner_tr, transpose_twice. Qed.

(** ** derivatives of energies along any curve of displacement gradients *)
Lemma defgrad_derive n H t0 D : mderive n H t0 D -> mderive n (fun t => defgrad (H t)) t0 D.
Proof.
  intros HD. eapply mderive_ext; [apply (madd_derive n H (fun _ => ident) t0 D _ HD (mconst_derive n ident t0))|].
  intros i j _ _. unfold madd. ring.
Qed.

Lemma small_strain_derive n H t0 D : mderive n H t0 D ->
  mderive n (fun t => small_strain (H t)) t0 (mscal 0.5 (madd D (transpose D))).
Proof.
  intros HD. unfold small_strain. eapply mderive_ext.
  - apply (mscal_derive n 0.5). apply madd_derive; [apply transpose_derive|]; exact HD.
  - intros i j _ _. unfold mscal, madd, transpose. ring.
Qed.

Lemma green_derive n H t0 D : mderive n H t0 D ->
  mderive n (fun t => green_strain n (H t)) t0
    (mscal 0.5 (madd (mmul n (transpose (defgrad (H t0))) D) (transpose (mmul n (transpose (defgrad (H t0))) D)))).
Proof.
  intros HD. unfold green_strain. eapply mderive_ext.
  - apply (mscal_derive n 0.5). apply (madd_derive n (fun t => madd (H t) (transpose (H t)))).
    + apply madd_derive; [exact HD|apply transpose_derive; exact HD].
    + apply (mmul_derive n (fun t => transpose (H t)) H); [apply transpose_derive; exact HD|exact HD].
  - f_equiv. rewrite transpose_mul, transpose_twice. unfold defgrad. rewrite transpose_add.
    rewrite mmul_add_l, mmul_add_r, transpose_ident, mmul_ident_l, mmul_ident_r.
    intros i j _ _. unfold madd. ring.
Qed.

Lemma d_square (f : R -> R) x l : is_derive f x l -> is_derive (fun t => f t * f t) x (2 * f x * l).
Proof. intros H. eapply d_ext; [apply (d_mult f f); exact H|ring]. Qed.

Theorem linear_energy n K G H t0 D : mderive n H t0 D ->
  is_derive (fun t => energy_linear n K G (H t)) t0 (inner n n (linear_isotropic n K G (H t0)) D).
Proof.
  intros HD. assert (HE := small_strain_derive n H t0 D HD). unfold energy_linear. eapply d_ext.
  - apply d_plus; apply d_scal.
    + apply d_square. exact (tr_derive n _ t0 _ HE).
    + exact (squared_norm_derive n _ t0 _ HE).
  - assert (S : symmetric n (small_strain (H t0))).
    { intros i j _ _. unfold transpose, small_strain, mscal, madd, transpose. ring. }
    rewrite inner_sym_part by exact S. unfold linear_isotropic, iso_stress.
    rewrite inner_add_l, !inner_scal_l, inner_ident_l.
    assert (T : tr n (mscal 0.5 (madd D (transpose D))) = tr n D).
    { unfold tr. apply sumn_ext. intros i _. unfold mscal, madd, transpose. lra. }
    rewrite T. lra.
Qed.

(** energy in terms of Green's strain, its derivative is the Piola stress F S *)
Lemma svk_energy_derive n K G H t0 D : (0 < n)%nat -> mderive n H t0 D ->
  is_derive (fun t => energy_stvk n K G (H t)) t0 (inner n n (mmul n (defgrad (H t0)) (svk_S n K G (H t0))) D).
Proof.
  intros Hn HD. assert (HE := green_derive n H t0 D HD). unfold energy_stvk. eapply d_ext.
  - apply d_plus; apply d_scal.
    + apply d_square. exact (tr_derive n _ t0 _ HE).
    + exact (squared_norm_derive n _ t0 _ (dev_derive n _ t0 _ HE)).
  - cbv beta. rewrite inner_dev_dev by exact Hn. rewrite inner_mul_l. unfold svk_S. rewrite inner_add_l, !inner_scal_l, inner_ident_l.
    rewrite inner_sym_part by (apply dev_symmetric, green_symmetric).
    assert (T : forall A, tr n (mscal 0.5 (madd A (transpose A))) = tr n A).
    { intros A. unfold tr. apply sumn_ext. intros i _. unfold mscal, madd, transpose. lra. }
    rewrite T. lra.
Qed.

Theorem stvk_energy n K G H t0 D s : dim23 n -> mderive n H t0 D -> stvk n K G (H t0) = Some s ->
  exists P, cauchy_to_piola n s (H t0) = Some P /\
    is_derive (fun t => energy_stvk n K G (H t)) t0 (inner n n P D).
Proof.
  intros Dm HD E. destruct (push_piola n (H t0) _ s Dm E) as [P [EP HP]]. exists P. split; [exact EP|].
  eapply d_ext; [apply svk_energy_derive; [dims Dm; lia|exact HD]|].
  apply inner_proper; [|reflexivity]. assert (SS := svk_S_symmetric n K G (H t0)). unfold symmetric in SS. rewrite SS in HP. now rewrite HP.
Qed.

(** neo-Hookean *)
Lemma neo_some n lambda G H s : dim23 n -> neo n lambda G H = Some s ->
  0 < detn n (defgrad H) /\
  meq n s (mscal (/ detn n (defgrad H)) (madd (mscal (lambda * ln (detn n (defgrad H))) ident) (mscal G (b_minus_i n H)))).
Proof.
  intros Dm E. unfold neo in E. rewrite (detApIm1n_ok n H Dm) in E. fold (defgrad H) in E. unfold log1p in E.
  replace (1 + (detn n (defgrad H) - 1)) with (detn n (defgrad H)) in E by ring.
  replace (detn n (defgrad H) - 1 + 1) with (detn n (defgrad H)) in E by ring.
  destruct (Rlt_dec 0 (detn n (defgrad H))) as [P|]; [|discriminate].
  destruct (Req_EM_T (detn n (defgrad H)) 0) as [|]; [discriminate|]. injection E as <-. split; [exact P|reflexivity].
Qed.
Lemma neo_defined n lambda G H : dim23 n -> 0 < detn n (defgrad H) -> exists s, neo n lambda G H = Some s.
Proof.
  intros Dm P. unfold neo. rewrite (detApIm1n_ok n H Dm). fold (defgrad H). unfold log1p.
  replace (1 + (detn n (defgrad H) - 1)) with (detn n (defgrad H)) by ring.
  replace (detn n (defgrad H) - 1 + 1) with (detn n (defgrad H)) by ring.
  destruct (Rlt_dec 0 (detn n (defgrad H))); [|contradiction].
  destruct (Req_EM_T (detn n (defgrad H)) 0); [lra|]. eauto.
Qed.

Lemma d_ln_det n H t0 D B : dim23 n -> invn n (defgrad (H t0)) = Some B -> mderive n H t0 D -> 0 < detn n (defgrad (H t0)) ->
  is_derive (fun t => ln (detn n (defgrad (H t)))) t0 (tr n (mmul n B D)).
Proof.
  intros Dm E HD P. eapply d_ext.
  - apply (d_comp (fun t => detn n (defgrad (H t))) ln).
    + apply (detn_derive n (fun t => defgrad (H t)) D t0 B Dm E). now apply defgrad_derive.
    + apply is_derive_Reals. apply derivable_pt_lim_ln. exact P.
  - field. lra.
Qed.

Theorem neo_energy n lambda G H t0 D s : dim23 n -> mderive n H t0 D -> neo n lambda G (H t0) = Some s ->
  exists P, cauchy_to_piola n s (H t0) = Some P /\
    is_derive (fun t => energy_neo n lambda G (H t)) t0 (inner n n P D).
Proof.
  intros Dm HD E. destruct (neo_some n lambda G _ s Dm E) as [J Es].
  destruct (invn_works n (defgrad (H t0)) Dm) as [B EB]; [lra|]. destruct (invn_some n _ B Dm EB) as [B1 [B2 N]].
  unfold cauchy_to_piola, kirchhoff_to_piola. rewrite EB. eexists. split; [reflexivity|].
  assert (L := d_ln_det n H t0 D B Dm EB HD J).
  assert (FD := defgrad_derive n H t0 D HD).
  unfold energy_neo. cbv zeta. eapply d_ext.
  - apply d_minus; [apply d_plus|].
    + apply d_scal. apply d_square. exact L.
    + apply d_scal. apply d_minus; [exact (squared_norm_derive n _ t0 _ FD)|apply d_const].
    + apply d_scal. exact L.
  - assert (Q : meq n (mmul n B (mscal (detn n (defgrad (H t0))) s))
      (madd (mscal (lambda * ln (detn n (defgrad (H t0)))) B) (mscal G (msub (transpose (defgrad (H t0))) B)))).
    { assert (C : meq n (mscal (detn n (defgrad (H t0))) s)
        (madd (mscal (lambda * ln (detn n (defgrad (H t0)))) ident) (mscal G (b_minus_i n (H t0))))).
      { rewrite Es. intros i j _ _. unfold mscal, madd. field. exact N. }
      rewrite C, b_alt, mmul_add_r, !mmul_scal_r, mmul_sub_r, !mmul_ident_r, <- mmul_assoc, B2, mmul_ident_l. reflexivity. }
    rewrite Q, transpose_add, !transpose_scal, inner_add_l, !inner_scal_l.
    assert (Q2 : inner n n (transpose (msub (transpose (defgrad (H t0))) B)) D
                 = inner n n (defgrad (H t0)) D - inner n n (transpose B) D).
    { rewrite <- inner_sub_l. reflexivity. }
    rewrite Q2, tr_inner. field.
Qed.

(** thermoelastic *)
Lemma gsv_S_svk m H theta : meq 3 (gsv_S m H theta)
  (madd (svk_S 3 (bulk (g_E m) (g_nu m)) (shear (g_E m) (g_nu m)) H)
        (mscal (-3 * bulk (g_E m) (g_nu m) * g_alpha m * (theta - g_theta_ref m)) ident)).
Proof. intros i j _ _. unfold gsv_S, svk_S, madd, mscal. ring. Qed.

Lemma gsv_S_symmetric m H theta : symmetric 3 (gsv_S m H theta).
Proof.
  unfold symmetric. rewrite gsv_S_svk, transpose_add, transpose_scal, transpose_ident.
  assert (SS := svk_S_symmetric 3 (bulk (g_E m) (g_nu m)) (shear (g_E m) (g_nu m)) H). unfold symmetric in SS. now rewrite SS.
Qed.

Lemma gsv_some m old H theta g out : gsv_response m old H theta g = Some out ->
  push 3 H (gsv_S m H theta) = Some (o_stress out) /\ o_capacity out = g_Cv m /\
  o_source out = -3 * bulk (g_E m) (g_nu m) * g_alpha m * theta * (tr 3 (green_strain 3 H) - old) /\
  (forall i, o_flux out i = - g_k m * g i) /\ o_trace out = tr 3 (green_strain 3 H).
Proof.
  unfold gsv_response. destruct (finite_moduli_dec (g_nu m)) as [_|]; [|discriminate].
  destruct (push 3 H (gsv_S m H theta)) as [s|]; [|discriminate]. intros E. injection E as <-.
  cbn [o_stress o_capacity o_source o_flux o_trace]. auto.
Qed.

Lemma gsv_finite m old H theta g out : gsv_response m old H theta g = Some out -> finite_moduli (g_nu m).
Proof. unfold gsv_response. destruct (finite_moduli_dec (g_nu m)); [auto|discriminate]. Qed.

Lemma gsv_energy_svk m H theta psi : gsv_energy m H theta = Some psi ->
  0 < theta / g_theta_ref m /\
  psi = energy_stvk 3 (bulk (g_E m) (g_nu m)) (shear (g_E m) (g_nu m)) H
        + g_Cv m * (theta - g_theta_ref m - theta * ln (theta / g_theta_ref m))
        + -3 * bulk (g_E m) (g_nu m) * g_alpha m * (theta - g_theta_ref m) * tr 3 (green_strain 3 H).
Proof.
  unfold gsv_energy. cbv zeta. destruct (finite_moduli_dec (g_nu m)) as [_|]; [|discriminate].
  destruct (Rlt_dec 0 (theta / g_theta_ref m)) as [P|]; [|discriminate]. intros E. injection E as <-. split; [exact P|]. unfold energy_stvk. lra.
Qed.

Theorem gsv_stress_energy m old H t0 D theta g out : mderive 3 H t0 D -> 0 < theta / g_theta_ref m ->
  gsv_response m old (H t0) theta g = Some out ->
  exists P psi, cauchy_to_piola 3 (o_stress out) (H t0) = Some P /\
    (forall t, gsv_energy m (H t) theta = Some (psi t)) /\ is_derive psi t0 (inner 3 3 P D).
Proof.
  intros HD Pt E. assert (FM := gsv_finite _ _ _ _ _ _ E). apply gsv_some in E. destruct E as [E _].
  destruct (push_piola 3 (H t0) _ _ (or_intror eq_refl) E) as [P [EP HP]].
  exists P, (fun t => energy_stvk 3 (bulk (g_E m) (g_nu m)) (shear (g_E m) (g_nu m)) (H t)
        + g_Cv m * (theta - g_theta_ref m - theta * ln (theta / g_theta_ref m))
        + -3 * bulk (g_E m) (g_nu m) * g_alpha m * (theta - g_theta_ref m) * tr 3 (green_strain 3 (H t))).
  split; [exact EP|]. split.
  - intros t. destruct (gsv_energy m (H t) theta) as [psi|] eqn:Q.
    + apply gsv_energy_svk in Q. destruct Q as [_ ->]. reflexivity.
    + unfold gsv_energy in Q. cbv zeta in Q. destruct (finite_moduli_dec (g_nu m)); [|contradiction]. destruct (Rlt_dec 0 (theta / g_theta_ref m)); [discriminate|contradiction].
  - eapply d_ext.
    + apply d_plus; [apply d_plus; [apply svk_energy_derive; [lia|exact HD]|apply d_const]|].
      apply d_scal. exact (tr_derive 3 _ t0 _ (green_derive 3 H t0 D HD)).
    + set (TD := mmul 3 (transpose (defgrad (H t0))) D).
      assert (T : tr 3 (mscal 0.5 (madd TD (transpose TD))) = tr 3 TD).
      { unfold tr. apply sumn_ext. intros i _. unfold mscal, madd, transpose. lra. }
      assert (HP' : meq 3 P (mmul 3 (defgrad (H t0)) (gsv_S m (H t0) theta))).
      { assert (SS := gsv_S_symmetric m (H t0) theta). unfold symmetric in SS. now rewrite SS in HP. }
      rewrite T, HP', gsv_S_svk, mmul_add_r, inner_add_l. rewrite (inner_mul_l 3 (defgrad (H t0)) (mscal _ ident)).
      rewrite inner_scal_l, inner_ident_l. fold TD. ring.
Qed.

(** the heat source is temperature times the entropy change at fixed temperature, with the sign of a cooling expansion;
    the entropy is minus the temperature derivative of the free energy, and the capacity is theta times its slope *)
Definition gsv_entropy (m : gsv) (H : mat) (theta : R) : R :=
  g_Cv m * ln (theta / g_theta_ref m) + 3 * bulk (g_E m) (g_nu m) * g_alpha m * tr 3 (green_strain 3 H).

Theorem gsv_entropy_ok m H theta : finite_moduli (g_nu m) -> 0 < theta -> 0 < g_theta_ref m ->
  (exists psi, locally theta (fun t => gsv_energy m H t = Some (psi t)) /\ is_derive psi theta (- gsv_entropy m H theta)) /\
  is_derive (fun t => gsv_entropy m H t) theta (g_Cv m / theta).
Proof.
  intros FM Pt Pr.
  assert (DL : is_derive (fun t => ln (t / g_theta_ref m)) theta (/ theta)).
  { eapply d_ext.
    - apply (d_comp (fun t => t / g_theta_ref m) ln).
      + unfold Rdiv. apply (d_mult (fun t => t) (fun _ => / g_theta_ref m)); [apply d_id|apply d_const].
      + apply is_derive_Reals. apply derivable_pt_lim_ln. apply Rdiv_lt_0_compat; lra.
    - cbv beta. field. lra. }
  split.
  - exists (fun t => energy_stvk 3 (bulk (g_E m) (g_nu m)) (shear (g_E m) (g_nu m)) H
        + g_Cv m * (t - g_theta_ref m - t * ln (t / g_theta_ref m))
        + -3 * bulk (g_E m) (g_nu m) * g_alpha m * (t - g_theta_ref m) * tr 3 (green_strain 3 H)).
    split.
    + assert (L := locally_gt theta 0 Pt). generalize L. apply filter_imp. intros t Ht.
      destruct (gsv_energy m H t) as [psi|] eqn:Q.
      * apply gsv_energy_svk in Q. destruct Q as [_ ->]. reflexivity.
      * unfold gsv_energy in Q. cbv zeta in Q. destruct (finite_moduli_dec (g_nu m)); [|contradiction]. destruct (Rlt_dec 0 (t / g_theta_ref m)) as [|N]; [discriminate|].
        exfalso. apply N. now apply Rdiv_lt_0_compat.
    + eapply d_ext.
      * apply d_plus; [apply d_plus; [apply d_const|apply d_scal; apply d_minus]|].
        -- apply d_minus; [apply d_id|apply d_const].
        -- apply (d_mult (fun t => t) (fun t => ln (t / g_theta_ref m))); [apply d_id|exact DL].
        -- apply (d_mult (fun t => -3 * bulk (g_E m) (g_nu m) * g_alpha m * (t - g_theta_ref m)) (fun _ => tr 3 (green_strain 3 H)));
             [apply d_scal; apply d_minus; [apply d_id|apply d_const]|apply d_const].
      * cbv beta. unfold gsv_entropy. field. lra.
  - unfold gsv_entropy. eapply d_ext; [apply d_plus; [apply d_scal; exact DL|apply d_const]|]. field. lra.
Qed.

Theorem gsv_source_ok m H0 H theta g out : gsv_response m (tr 3 (green_strain 3 H0)) H theta g = Some out ->
  o_source out = - theta * (gsv_entropy m H theta - gsv_entropy m H0 theta) /\
  o_trace out = tr 3 (green_strain 3 H).
Proof.
  intros E. apply gsv_some in E. destruct E as [_ [_ [E [_ T]]]]. split; [|exact T]. rewrite E. unfold gsv_entropy. ring.
Qed.
(** heat flows against the temperature gradient *)
Theorem gsv_flux_ok m old H theta g out : 0 <= g_k m -> gsv_response m old H theta g = Some out ->
  o_capacity out = g_Cv m /\ vdot 3 (o_flux out) g <= 0.
Proof.
  intros Hk E. apply gsv_some in E. destruct E as [_ [C [_ [F _]]]]. split; [exact C|].
  unfold vdot. rewrite (sumn_ext 3 _ (fun i => - g_k m * (g i * g i))) by (intros i _; rewrite F; ring).
  rewrite sumn_scal_l. assert (0 <= sumn 3 (fun i => g i * g i)) by (apply sumn_nonneg; intros; nra). nra.
Qed.

(** ** zero displacement gradient *)
Definition zero : mat := fun _ _ => 0.
Lemma tr_zero n A : meq n A zero -> tr n A = 0.
Proof. intros H. unfold tr. apply sumn_zero. intros i Hi. now apply H. Qed.
Lemma green_zero n : meq n (green_strain n zero) zero.
Proof.
  intros i j _ _. unfold green_strain, mscal, madd, mmul, transpose, zero.
  rewrite sumn_zero by (intros; ring). ring.
Qed.
Lemma dev_zero n : meq n (dev n zero) zero.
Proof.
  intros i j _ _. unfold dev. rewrite (tr_zero n zero) by (intros ? ? _ _; reflexivity). unfold zero, Rdiv.
  destruct (Nat.eqb i j); ring.
Qed.
Lemma svk_S_zero n K G : meq n (svk_S n K G zero) zero.
Proof.
  unfold svk_S. rewrite (tr_zero n _ (green_zero n)), green_zero, dev_zero.
  intros i j _ _. unfold madd, mscal, zero. ring.
Qed.
Lemma defgrad_zero n : meq n (defgrad zero) ident.
Proof. intros i j _ _. unfold defgrad, madd, zero. ring. Qed.
Lemma push_zero n S : dim23 n -> meq n S zero -> exists s, push n zero S = Some s /\ meq n s zero.
Proof.
  intros Dm E. unfold push. rewrite (detn_ext n _ _ Dm (defgrad_zero n)), detn_ident by exact Dm.
  destruct (Req_EM_T 1 0); [lra|]. eexists. split; [reflexivity|]. rewrite E, defgrad_zero, mmul_ident_l.
  intros i j _ _. unfold mscal, mmul, zero. rewrite sumn_zero by (intros; ring). ring.
Qed.

Theorem linear_zero n K G : meq n (linear_isotropic n K G zero) zero.
Proof.
  assert (Z : meq n (small_strain zero) zero) by (intros i j _ _; unfold small_strain, mscal, madd, transpose, zero; ring).
  unfold linear_isotropic, iso_stress. rewrite (tr_zero n _ Z), Z. intros i j _ _. unfold madd, mscal, zero. ring.
Qed.
Theorem stvk_zero n K G : dim23 n -> exists s, stvk n K G zero = Some s /\ meq n s zero.
Proof. intros Dm. apply push_zero; [exact Dm|apply svk_S_zero]. Qed.
Theorem neo_zero n lambda G : dim23 n -> exists s, neo n lambda G zero = Some s /\ meq n s zero.
Proof.
  intros Dm.
  assert (D1 : detn n (defgrad zero) = 1) by (rewrite (detn_ext n _ _ Dm (defgrad_zero n)); now apply detn_ident).
  destruct (neo_defined n lambda G zero Dm) as [s E]; [lra|]. exists s. split; [exact E|].
  destruct (neo_some n lambda G zero s Dm E) as [_ ->]. rewrite D1, ln_1.
  assert (Z : meq n (b_minus_i n zero) zero).
  { intros i j _ _. unfold b_minus_i, madd, mmul, transpose, zero. rewrite sumn_zero by (intros; ring). ring. }
  rewrite Z. intros i j _ _. unfold mscal, madd, zero. ring.
Qed.
Theorem gsv_zero m old g : finite_moduli (g_nu m) -> exists out, gsv_response m old zero (g_theta_ref m) g = Some out /\ meq 3 (o_stress out) zero.
Proof.
  intros FM. destruct (push_zero 3 (gsv_S m zero (g_theta_ref m)) (or_intror eq_refl)) as [s [E Z]].
  - rewrite gsv_S_svk, svk_S_zero. intros i j _ _. unfold madd, mscal, zero. ring.
  - unfold gsv_response. destruct (finite_moduli_dec (g_nu m)); [|contradiction]. rewrite E. eexists. split; [reflexivity|exact Z].
Qed.

(** ** symmetry of the Cauchy stress *)
Theorem linear_symmetric n lambda G H : symmetric n (iso_stress n lambda G H).
Proof.
  intros i j _ _. unfold transpose, iso_stress, madd, mscal, small_strain, mscal, madd, transpose. rewrite (ident_comm j i). ring.
Qed.
Theorem stvk_symmetric n K G H s : stvk n K G H = Some s -> symmetric n s.
Proof. apply push_symmetric. apply svk_S_symmetric. Qed.
Theorem neo_symmetric n lambda G H s : neo n lambda G H = Some s -> symmetric n s.
Proof.
  unfold neo. destruct (log1p (detApIm1n n H)) as [l|]; [|discriminate].
  destruct (Req_EM_T (detApIm1n n H + 1) 0); [discriminate|]. intros E. injection E as <-.
  unfold symmetric. rewrite !transpose_scal, transpose_add, !transpose_scal, transpose_ident. f_equiv. f_equiv. f_equiv.
  unfold b_minus_i. rewrite !transpose_add, transpose_mul, !transpose_twice. intros i j _ _. unfold madd. ring.
Qed.
Theorem gsv_symmetric m old H theta g out : gsv_response m old H theta g = Some out -> symmetric 3 (o_stress out).
Proof. intros E. apply gsv_some in E. destruct E as [E _]. exact (push_symmetric 3 H _ _ (gsv_S_symmetric m H theta) E). Qed.

(** ** superposed rotations *)
Lemma svk_S_rotated n K G Q H : rotation n Q -> meq n (svk_S n K G (rotated n Q H)) (svk_S n K G H).
Proof. intros HQ. unfold svk_S. now rewrite (green_rotated n Q H HQ). Qed.
Theorem stvk_objective n K G Q H s : dim23 n -> rotation n Q -> stvk n K G H = Some s ->
  exists s', stvk n K G (rotated n Q H) = Some s' /\ meq n s' (mmul n (mmul n Q s) (transpose Q)).
Proof. intros Dm HQ E. apply (push_rotated n Q H (svk_S n K G H)); auto. now apply svk_S_rotated. Qed.
Theorem neo_objective n lambda G Q H s : dim23 n -> rotation n Q -> neo n lambda G H = Some s ->
  exists s', neo n lambda G (rotated n Q H) = Some s' /\ meq n s' (mmul n (mmul n Q s) (transpose Q)).
Proof.
  intros Dm HQ E. destruct (neo_some n lambda G H s Dm E) as [J Es]. destruct HQ as [Q1 [Q2 Q3]].
  assert (Dt : detn n (defgrad (rotated n Q H)) = detn n (defgrad H)).
  { rewrite (detn_ext n _ _ Dm (defgrad_rotated n Q H)), detn_mul, Q3 by exact Dm. ring. }
  destruct (neo_defined n lambda G (rotated n Q H) Dm) as [s' E']; [lra|]. exists s'. split; [exact E'|].
  destruct (neo_some n lambda G _ s' Dm E') as [_ ->]. rewrite Dt, Es, mmul_scal_r, mmul_scal_l. f_equiv.
  rewrite mmul_add_r, mmul_add_l, !mmul_scal_r, !mmul_scal_l, mmul_ident_r, Q2. f_equiv. f_equiv.
  rewrite !b_alt, defgrad_rotated, transpose_mul, mmul_sub_r, mmul_sub_l, mmul_ident_r, Q2. f_equiv. now rewrite !mmul_assoc.
Qed.
Theorem gsv_objective m old H theta g out Q : rotation 3 Q -> gsv_response m old H theta g = Some out ->
  exists out', gsv_response m old (rotated 3 Q H) theta g = Some out' /\
    meq 3 (o_stress out') (mmul 3 (mmul 3 Q (o_stress out)) (transpose Q)) /\
    o_source out' = o_source out /\ o_trace out' = o_trace out.
Proof.
  intros HQ E. assert (FM := gsv_finite _ _ _ _ _ _ E). apply gsv_some in E. destruct E as [E [_ [E2 [_ E4]]]].
  destruct (push_rotated 3 Q H (gsv_S m H theta) (gsv_S m (rotated 3 Q H) theta) (o_stress out) (or_intror eq_refl) HQ) as [s' [P HP]]; [|exact E|].
  { rewrite !gsv_S_svk. now rewrite svk_S_rotated. }
  unfold gsv_response. destruct (finite_moduli_dec (g_nu m)); [|contradiction]. rewrite P. eexists. split; [reflexivity|]. cbn [o_stress o_source o_trace].
  rewrite (tr_proper 3 _ _ (green_rotated 3 Q H HQ)). auto.
Qed.

(** ** isotropy: rotating the body before the deformation changes nothing *)
Definition prerotated (n : nat) (Q H : mat) : mat := msub (mmul n (defgrad H) Q) ident.
Lemma defgrad_prerotated n Q H : meq n (defgrad (prerotated n Q H)) (mmul n (defgrad H) Q).
Proof. intros i j _ _. unfold defgrad at 1, prerotated, madd, msub. ring. Qed.
Lemma green_prerotated n Q H : rotation n Q ->
  meq n (green_strain n (prerotated n Q H)) (mmul n (mmul n (transpose Q) (green_strain n H)) Q).
Proof.
  intros [Q1 _]. rewrite !green_alt, defgrad_prerotated, transpose_mul.
  rewrite mmul_scal_r, mmul_scal_l. f_equiv. rewrite mmul_sub_r, mmul_sub_l, mmul_ident_r, Q1. f_equiv. now rewrite !mmul_assoc.
Qed.
Lemma tr_conj n Q A : rotation n Q -> tr n (mmul n (mmul n (transpose Q) A) Q) = tr n A.
Proof.
  intros [_ [Q2 _]]. rewrite tr_mul_comm. apply tr_proper. rewrite <- mmul_assoc, Q2. apply mmul_ident_l.
Qed.
Lemma dev_conj n Q A : rotation n Q ->
  meq n (dev n (mmul n (mmul n (transpose Q) A) Q)) (mmul n (mmul n (transpose Q) (dev n A)) Q).
Proof.
  intros HQ.
  assert (E : forall B, meq n (dev n B) (msub B (mscal (tr n B / INR n) ident))).
  { intros B i j _ _. unfold msub, mscal. assert (X := dev_spherical n B i j). lra. }
  rewrite !E, tr_conj by exact HQ. rewrite mmul_sub_r, mmul_sub_l, mmul_scal_r, mmul_scal_l, mmul_ident_r.
  destruct HQ as [Q1 _]. now rewrite Q1.
Qed.
Lemma svk_S_prerotated n K G Q H : rotation n Q ->
  meq n (svk_S n K G (prerotated n Q H)) (mmul n (mmul n (transpose Q) (svk_S n K G H)) Q).
Proof.
  intros HQ. unfold svk_S. rewrite (tr_proper n _ _ (green_prerotated n Q H HQ)), tr_conj by exact HQ.
  rewrite (green_prerotated n Q H HQ), dev_conj by exact HQ.
  rewrite mmul_add_r, mmul_add_l, !mmul_scal_r, !mmul_scal_l, mmul_ident_r. destruct HQ as [Q1 _]. now rewrite Q1.
Qed.
Theorem stvk_isotropic n K G Q H s : dim23 n -> rotation n Q -> stvk n K G H = Some s ->
  exists s', stvk n K G (prerotated n Q H) = Some s' /\ meq n s' s.
Proof.
  intros Dm HQ E. unfold stvk, push in *.
  assert (Dt : detn n (defgrad (prerotated n Q H)) = detn n (defgrad H)).
  { rewrite (detn_ext n _ _ Dm (defgrad_prerotated n Q H)), detn_mul by exact Dm. destruct HQ as [_ [_ ->]]. ring. }
  rewrite Dt. destruct (Req_EM_T (detn n (defgrad H)) 0); [discriminate|]. injection E as <-. eexists. split; [reflexivity|].
  f_equiv. rewrite (svk_S_prerotated n K G Q H HQ), defgrad_prerotated, transpose_mul. destruct HQ as [Q1 [Q2 _]].
  rewrite !mmul_assoc, <- (mmul_assoc n Q (transpose Q)), Q2, mmul_ident_l.
  rewrite <- (mmul_assoc n Q (transpose Q)), Q2, mmul_ident_l. reflexivity.
Qed.
Theorem neo_isotropic n lambda G Q H s : dim23 n -> rotation n Q -> neo n lambda G H = Some s ->
  exists s', neo n lambda G (prerotated n Q H) = Some s' /\ meq n s' s.
Proof.
  intros Dm HQ E. destruct (neo_some n lambda G H s Dm E) as [J Es]. destruct HQ as [Q1 [Q2 Q3]].
  assert (Dt : detn n (defgrad (prerotated n Q H)) = detn n (defgrad H)).
  { rewrite (detn_ext n _ _ Dm (defgrad_prerotated n Q H)), detn_mul, Q3 by exact Dm. ring. }
  destruct (neo_defined n lambda G (prerotated n Q H) Dm) as [s' E']; [lra|]. exists s'. split; [exact E'|].
  destruct (neo_some n lambda G _ s' Dm E') as [_ ->]. rewrite Dt, Es. do 3 f_equiv.
  rewrite !b_alt, defgrad_prerotated, transpose_mul. f_equiv.
  now rewrite mmul_assoc, <- (mmul_assoc n Q (transpose Q)), Q2, mmul_ident_l.
Qed.

(** ** stress measures (C42) *)
Lemma flux_dx on n H : meq n (if on : bool then madd (madd (mscal 0 H) ident) H else madd (mscal 0 H) ident)
  (if on then defgrad H else ident).
Proof. destruct on; intros i j _ _; unfold defgrad, madd, mscal; ring. Qed.

Lemma flux_some n on stress H P : dim23 n -> flux n on stress H = Some P ->
  exists B, meq n (mmul n (if on then defgrad H else ident) B) ident /\ meq n (mmul n B (if on then defgrad H else ident)) ident /\
    meq n P (mscal (detn n (if on then defgrad H else ident)) (mmul n stress (transpose B))).
Proof.
  intros Dm E. unfold flux in E. cbv zeta in E.
  set (dx := if on then madd (madd (mscal 0 H) ident) H else madd (mscal 0 H) ident) in *.
  destruct (invn n dx) as [B|] eqn:EB; [|discriminate]. injection E as <-.
  destruct (invn_some n dx B Dm EB) as [B1 [B2 _]]. exists B. assert (X := flux_dx on n H). fold dx in X.
  assert (X' := meq_sym _ _ _ X). split; [now rewrite X'|]. split; [now rewrite X'|]. now rewrite <- (detn_ext n _ _ Dm X).
Qed.
Lemma flux_works n on stress H : dim23 n -> (on = true -> detn n (defgrad H) <> 0) -> exists P, flux n on stress H = Some P.
Proof.
  intros Dm N. unfold flux. cbv zeta.
  destruct (invn_works n (if on then madd (madd (mscal 0 H) ident) H else madd (mscal 0 H) ident) Dm) as [B ->]; [|eauto].
  rewrite (detn_ext n _ _ Dm (flux_dx on n H)). destruct on; [now apply N|rewrite detn_ident by exact Dm; lra].
Qed.

(** with geometric nonlinearity: flux = det(F) sigma F^-T *)
Theorem flux_on n sigma H : dim23 n -> detn n (defgrad H) <> 0 ->
  exists P B, flux n true sigma H = Some P /\ meq n (mmul n (defgrad H) B) ident /\
    meq n P (mscal (detn n (defgrad H)) (mmul n sigma (transpose B))).
Proof.
  intros Dm N. destruct (flux_works n true sigma H Dm) as [P E]; [auto|]. destruct (flux_some n true sigma H P Dm E) as [B [B1 [_ HP]]].
  exists P, B. auto.
Qed.
Theorem flux_off n sigma H : dim23 n -> exists P, flux n false sigma H = Some P /\ meq n P sigma.
Proof.
  intros Dm. destruct (flux_works n false sigma H Dm) as [P E]; [discriminate|]. exists P. split; [exact E|].
  destruct (flux_some n false sigma H P Dm E) as [B [B1 [_ ->]]]. rewrite mmul_ident_l in B1. rewrite B1, transpose_ident, mmul_ident_r.
  rewrite detn_ident by exact Dm. intros i j _ _. unfold mscal. ring.
Qed.
Theorem piola_conversions n sigma H : dim23 n -> detn n (defgrad H) <> 0 -> symmetric n sigma ->
  exists P1 P2 P3, flux n true sigma H = Some P1 /\ cauchy_to_piola n sigma H = Some P2 /\
    kirchhoff_to_piola n (mscal (detn n (defgrad H)) sigma) H = Some P3 /\ meq n P1 P2 /\ meq n P1 P3.
Proof.
  intros Dm N S. destruct (flux_works n true sigma H Dm) as [P E]; [auto|].
  destruct (flux_some n true sigma H P Dm E) as [B [B1 [B2 HP]]].
  unfold cauchy_to_piola, kirchhoff_to_piola. destruct (invn_works n (defgrad H) Dm N) as [B' EB]. rewrite EB.
  exists P. eexists. eexists. split; [exact E|]. split; [reflexivity|]. split; [reflexivity|].
  assert (X : meq n P (transpose (mmul n B' (mscal (detn n (defgrad H)) sigma)))).
  { rewrite HP. rewrite (invn_unique n _ _ _ Dm EB B2), transpose_mul, transpose_scal, mmul_scal_l. unfold symmetric in S. now rewrite S. }
  split; exact X.
Qed.
(** the two conversions disagree on a stress that is not symmetric *)
Theorem piola_nonsymmetric : exists sigma P1 P2, flux 2 true sigma zero = Some P1 /\ cauchy_to_piola 2 sigma zero = Some P2 /\
  P1 0%nat 1%nat <> P2 0%nat 1%nat.
Proof.
  assert (Dm : dim23 2) by now left.
  assert (D1 : detn 2 (defgrad zero) = 1) by (rewrite (detn_ext 2 _ _ Dm (defgrad_zero 2)); now apply detn_ident).
  exists (mat2 0 1 0 0). destruct (flux_works 2 true (mat2 0 1 0 0) zero Dm) as [P E]; [intros _; lra|].
  destruct (flux_some 2 true _ zero P Dm E) as [B [B1 [B2 HP]]].
  unfold cauchy_to_piola, kirchhoff_to_piola. destruct (invn_works 2 (defgrad zero) Dm) as [B' EB]; [lra|]. rewrite EB.
  exists P. eexists. split; [exact E|]. split; [reflexivity|].
  assert (B3 : meq 2 B ident) by (rewrite (defgrad_zero 2), mmul_ident_r in B2; exact B2).
  assert (B4 : meq 2 B' ident) by (rewrite <- B3; symmetry; exact (invn_unique 2 _ _ _ Dm EB B2)).
  rewrite (HP 0%nat 1%nat) by lia. rewrite D1.
  assert (X1 : mscal 1 (mmul 2 (mat2 0 1 0 0) (transpose B)) 0%nat 1%nat = 1).
  { unfold mscal, mmul, transpose. cbn [sumn]. rewrite (B3 1%nat 0%nat), (B3 1%nat 1%nat) by lia. unfold mat2, ident. cbn [Nat.eqb]. ring. }
  assert (X2 : transpose (mmul 2 B' (mscal 1 (mat2 0 1 0 0))) 0%nat 1%nat = 0).
  { unfold mscal, mmul, transpose. cbn [sumn]. rewrite (B4 1%nat 0%nat), (B4 1%nat 1%nat) by lia. unfold mat2, ident. cbn [Nat.eqb]. ring. }
  rewrite X1, X2. lra.
Qed.

(** ** parameterized materials (C41) *)
Theorem param_linear_3d K G dK dG H : param_linear 3 K G dK dG H = linear_isotropic 3 (K + dK) (G + dG) H.
Proof.
  unfold param_linear, linear_isotropic, lame. replace (INR 3) with 3 by (cbn [INR]; lra). reflexivity.
Qed.
Theorem param_neo_3d K G dK dG H : param_neo 3 K G dK dG H = neo_hookean 3 (K + dK) (G + dG) H.
Proof.
  unfold param_neo, neo_hookean, lame. replace (INR 3) with 3 by (cbn [INR]; lra). reflexivity.
Qed.
Theorem param_gsv_unscaled m old H theta g : gsv_response (param_gsv m 1) old H theta g = gsv_response m old H theta g.
Proof. unfold param_gsv. rewrite Rmult_1_r. destruct m. reflexivity. Qed.
Definition same_but_expansion (m m' : gsv) : Prop := g_E m = g_E m' /\ g_nu m = g_nu m' /\ g_Cv m = g_Cv m' /\ g_theta_ref m = g_theta_ref m' /\ g_k m = g_k m'.
Theorem param_gsv_scaled m m' scale old H theta g : same_but_expansion m m' -> g_alpha m' = scale * g_alpha m ->
  gsv_response (param_gsv m scale) old H theta g = gsv_response m' old H theta g /\ gsv_energy (param_gsv m scale) H theta = gsv_energy m' H theta.
Proof.
  intros [E1 [E2 [E3 [E4 E5]]]] E6. assert (E : param_gsv m scale = m') by (destruct m'; unfold param_gsv; cbn in *; subst; f_equal; ring).
  now rewrite E.
Qed.
Theorem param_linear_2d : exists K G H, param_linear 2 K G 0 0 H 0%nat 0%nat <> linear_isotropic 2 K G H 0%nat 0%nat.
Proof.
  exists 1, 1, (mat2 1 0 0 0). unfold param_linear, linear_isotropic, iso_stress, lame, tr, small_strain, mscal, madd, transpose, mat2, ident.
  cbn [sumn Nat.eqb INR]. lra.
Qed.

(** ** small strains: the finite-strain models linearise to the linear isotropic one (C47) *)
Definition svk_linear (n : nat) (K G : R) (D : mat) : mat :=
  madd (mscal (K * tr n (small_strain D)) ident) (mscal (2 * G) (dev n (small_strain D))).

Lemma svk_linear_3d K G D : meq 3 (svk_linear 3 K G D) (linear_isotropic 3 K G D).
Proof.
  intros i j _ _. unfold svk_linear, linear_isotropic, iso_stress, madd, mscal, lame.
  assert (X := dev_spherical 3 (small_strain D) i j). replace (INR 3) with 3 in X by (cbn [INR]; lra).
  set (e := small_strain D i j) in *. set (d := dev 3 (small_strain D) i j) in *. rewrite <- X. field.
Qed.

Lemma det_near n H D : dim23 n -> mderive n H 0 D -> meq n (H 0) zero ->
  detn n (defgrad (H 0)) = 1 /\ locally 0 (fun t => 0 < detn n (defgrad (H t))) /\
  is_derive (fun t => detn n (defgrad (H t))) 0 (tr n D).
Proof.
  intros Dm HD Z.
  assert (F0 : meq n (defgrad (H 0)) ident) by (unfold defgrad; rewrite Z; intros i j _ _; unfold madd, zero; ring).
  assert (D1 : detn n (defgrad (H 0)) = 1) by (rewrite (detn_ext n _ _ Dm F0); now apply detn_ident).
  destruct (invn_works n (defgrad (H 0)) Dm) as [B EB]; [lra|].
  assert (DD : is_derive (fun t => detn n (defgrad (H t))) 0 (tr n D)).
  { eapply d_ext; [apply (detn_derive n (fun t => defgrad (H t)) D 0 B Dm EB); now apply defgrad_derive|].
    cbv beta. rewrite D1, Rmult_1_l. apply tr_proper. destruct (invn_some n _ B Dm EB) as [B1 _].
    rewrite F0, mmul_ident_l in B1. now rewrite B1, mmul_ident_l. }
  split; [exact D1|]. split; [|exact DD].
  assert (C := cont_of_derive _ _ _ DD). apply (C (fun y => 0 < y)). cbv beta. rewrite D1. apply locally_gt. lra.
Qed.

(** a factor that vanishes at the point only contributes through its own slope *)
Lemma mscal_vanishing n (c : R -> R) (A : R -> mat) t0 dc DA : is_derive c t0 dc -> mderive n A t0 DA -> meq n (A t0) zero ->
  mderive n (fun t => mscal (c t) (A t)) t0 (mscal (c t0) DA).
Proof.
  intros Hc HA Z i j Hi Hj. unfold mscal. eapply d_ext; [apply (d_mult c (fun t => A t i j)); [exact Hc|now apply HA]|].
  cbv beta. rewrite (Z i j Hi Hj). unfold zero. ring.
Qed.
Lemma d_inv_at (f : R -> R) x l : is_derive f x l -> f x <> 0 -> exists l', is_derive (fun t => / f t) x l'.
Proof. intros H N. eexists. apply is_derive_inv; [exact H|exact N]. Qed.

Theorem stvk_linearised n K G H D : dim23 n -> mderive n H 0 D -> meq n (H 0) zero ->
  exists s, locally 0 (fun t => stvk n K G (H t) = Some (s t)) /\ mderive n s 0 (svk_linear n K G D).
Proof.
  intros Dm HD Z. destruct (det_near n H D Dm HD Z) as [D1 [L DD]].
  exists (fun t => mscal (/ detn n (defgrad (H t))) (mmul n (mmul n (defgrad (H t)) (svk_S n K G (H t))) (transpose (defgrad (H t))))).
  split.
  - generalize L. apply filter_imp. intros t P. unfold stvk, push. destruct (Req_EM_T (detn n (defgrad (H t))) 0); [lra|reflexivity].
  - assert (F0 : meq n (defgrad (H 0)) ident) by (unfold defgrad; rewrite Z; intros i j _ _; unfold madd, zero; ring).
    assert (S0 : meq n (svk_S n K G (H 0)) zero).
    { assert (G0 : meq n (green_strain n (H 0)) zero).
      { unfold green_strain. rewrite Z. apply green_zero. }
      unfold svk_S. rewrite (tr_zero n _ G0), G0, dev_zero. intros i j _ _. unfold madd, mscal, zero. ring. }
    destruct (d_inv_at _ _ _ DD) as [l Dl]; [lra|].
    assert (FD := defgrad_derive n H 0 D HD).
    assert (GD := green_derive n H 0 D HD).
    assert (SD : mderive n (fun t => svk_S n K G (H t)) 0 (svk_linear n K G D)).
    { eapply mderive_ext.
      - unfold svk_S. apply madd_derive.
        + intros i j Hi Hj. unfold mscal. apply (d_mult (fun t => K * tr n (green_strain n (H t))) (fun _ => ident i j)).
          * apply d_scal. exact (tr_derive n _ 0 _ GD).
          * apply d_const.
        + apply mscal_derive. exact (dev_derive n _ 0 _ GD).
      - assert (E : meq n (mscal 0.5 (madd (mmul n (transpose (defgrad (H 0))) D) (transpose (mmul n (transpose (defgrad (H 0))) D)))) (small_strain D)).
        { rewrite F0, transpose_ident, mmul_ident_l. intros i j _ _. unfold small_strain, mscal, madd, transpose. ring. }
        rewrite E. unfold svk_linear. intros i j Hi Hj. unfold madd, mscal. assert (T := tr_proper n _ _ E). unfold mscal, madd in T. rewrite T. ring. }
    eapply mderive_ext.
    + eapply (mscal_vanishing n (fun t => / detn n (defgrad (H t)))); [exact Dl| |].
      * exact (mmul_derive n (fun t => mmul n (defgrad (H t)) (svk_S n K G (H t))) (fun t => transpose (defgrad (H t))) 0 _ _
          (mmul_derive n (fun t => defgrad (H t)) (fun t => svk_S n K G (H t)) 0 _ _ FD SD) (transpose_derive n (fun t => defgrad (H t)) 0 D FD)).
      * cbv beta. rewrite S0, F0. rewrite mmul_ident_l, transpose_ident, mmul_ident_r. reflexivity.
    + cbv beta. rewrite D1, S0, F0, transpose_ident, !mmul_ident_l, !mmul_ident_r.
      intros i j _ _. unfold mscal, madd, mmul, zero. rewrite !sumn_zero by (intros; ring). field.
Qed.

Theorem neo_linearised n lambda G H D : dim23 n -> mderive n H 0 D -> meq n (H 0) zero ->
  exists s, locally 0 (fun t => neo n lambda G (H t) = Some (s t)) /\ mderive n s 0 (iso_stress n lambda G D).
Proof.
  intros Dm HD Z. destruct (det_near n H D Dm HD Z) as [D1 [L DD]].
  exists (fun t => mscal (/ detn n (defgrad (H t)))
     (madd (mscal (lambda * ln (detn n (defgrad (H t)))) ident) (mscal G (b_minus_i n (H t))))).
  split.
  - generalize L. apply filter_imp. intros t P. unfold neo. rewrite (detApIm1n_ok n (H t) Dm). fold (defgrad (H t)). unfold log1p.
    replace (1 + (detn n (defgrad (H t)) - 1)) with (detn n (defgrad (H t))) by ring.
    replace (detn n (defgrad (H t)) - 1 + 1) with (detn n (defgrad (H t))) by ring.
    destruct (Rlt_dec 0 (detn n (defgrad (H t)))); [|contradiction].
    destruct (Req_EM_T (detn n (defgrad (H t))) 0); [lra|reflexivity].
  - assert (F0 : meq n (defgrad (H 0)) ident) by (unfold defgrad; rewrite Z; intros i j _ _; unfold madd, zero; ring).
    destruct (d_inv_at _ _ _ DD) as [l Dl]; [lra|].
    assert (LD : is_derive (fun t => ln (detn n (defgrad (H t)))) 0 (tr n D)).
    { eapply d_ext.
      - apply (d_comp (fun t => detn n (defgrad (H t))) ln); [exact DD|]. apply is_derive_Reals. apply derivable_pt_lim_ln. lra.
      - cbv beta. rewrite D1. field. }
    assert (BD : mderive n (fun t => b_minus_i n (H t)) 0 (madd D (transpose D))).
    { eapply mderive_ext.
      - exact (madd_derive n (fun t => madd (mmul n (H t) (transpose (H t))) (transpose (H t))) H 0 _ _
          (madd_derive n (fun t => mmul n (H t) (transpose (H t))) (fun t => transpose (H t)) 0 _ _
            (mmul_derive n H (fun t => transpose (H t)) 0 _ _ HD (transpose_derive n H 0 D HD)) (transpose_derive n H 0 D HD)) HD).
      - cbv beta. rewrite Z. intros i j _ _. unfold madd, mmul, transpose, zero. rewrite !sumn_zero by (intros; ring). ring. }
    eapply mderive_ext.
    + eapply (mscal_vanishing n (fun t => / detn n (defgrad (H t)))); [exact Dl| |].
      * apply (madd_derive n (fun t => mscal (lambda * ln (detn n (defgrad (H t)))) ident) (fun t => mscal G (b_minus_i n (H t))) 0
          (mscal (lambda * tr n D) ident) (mscal G (madd D (transpose D)))); [|exact (mscal_derive n G _ 0 _ BD)].
        intros i j Hi Hj. unfold mscal. eapply d_ext; [apply (d_mult (fun t => lambda * ln (detn n (defgrad (H t)))) (fun _ => ident i j))|].
        -- apply d_scal. exact LD.
        -- apply d_const.
        -- ring.
      * cbv beta. rewrite D1, ln_1, b_alt, F0, transpose_ident, mmul_ident_l. intros i j _ _. unfold madd, mscal, msub, zero. ring.
    + cbv beta. rewrite D1. intros i j _ _. unfold iso_stress, madd, mscal, small_strain, mscal, madd, transpose.
      assert (T : tr n (fun i j => 0.5 * (D j i + D i j)) = tr n D) by (unfold tr; apply sumn_ext; intros; lra).
      rewrite T. lra.
Qed.

Theorem svk_linear_2d : exists K G D, svk_linear 2 K G D 0%nat 0%nat <> linear_isotropic 2 K G D 0%nat 0%nat.
Proof.
  exists 1, 1, (mat2 1 0 0 0). unfold svk_linear, linear_isotropic, iso_stress, lame, dev, tr, small_strain, mscal, madd, transpose, mat2, ident.
  cbn [sumn Nat.eqb INR]. lra.
Qed.
