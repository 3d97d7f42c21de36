(** * Hardening laws, convergence for linear hardening, a law with a jump, and the parameterized variant (C23, C41) *)
From Coq Require Import Reals Lra Lia Bool FunctionalExtensionality.
From Coquelicot Require Import Coquelicot.
From Verif Require Import Sums Dual Tensor LU LUDeriv MatAlg Materials MaterialFacts ScalarSolve ScalarSolveDeriv Plasticity.
Local Open Scope R_scope.

(** ** the three hardening laws *)
Definition sound_hardening (h : hardening) : Prop :=
  0 < h_sy h /\ h_Y h 0 = h_sy h /\ forall e, 0 <= e ->
    0 < h_Y h e /\ 0 <= h_dY h e /\ is_derive (h_Y h) e (h_dY h e) /\ forall e', e <= e' -> h_Y h e <= h_Y h e'.

Lemma linear_sound sy Hi : 0 < sy -> 0 <= Hi -> sound_hardening (linear_hardening sy Hi).
Proof.
  intros P Q. unfold sound_hardening, linear_hardening. cbn [h_sy h_Y h_dY]. split; [exact P|]. split; [ring|].
  intros e He. split; [nra|]. split; [exact Q|]. split.
  - eapply d_ext; [apply d_plus; [apply d_const|apply d_scal; apply d_id]|ring].
  - intros e' L. nra.
Qed.

Lemma voce_sound sy sat c : 0 < sy -> sy <= sat -> 0 < c -> sound_hardening (voce_hardening sy sat c).
Proof.
  intros P Q C. unfold sound_hardening, voce_hardening. cbn [h_sy h_Y h_dY]. split; [exact P|]. split.
  - replace (- 0 / c) with 0 by (field; lra). rewrite exp_0. ring.
  - intros e He. assert (Ep := exp_pos (- e / c)).
    assert (E1 : exp (- e / c) <= 1).
    { rewrite <- exp_0. destruct (Req_dec e 0) as [->|]; [replace (- 0 / c) with 0 by (field; lra); lra|].
      apply Rlt_le, exp_increasing. unfold Rdiv. assert (0 < / c) by now apply Rinv_0_lt_compat. nra. }
    split; [nra|]. split.
    { replace (- ((sat - sy) * (exp (- e / c) * (-1 / c)))) with ((sat - sy) * exp (- e / c) * / c) by (field; lra).
      assert (0 < / c) by now apply Rinv_0_lt_compat. apply Rmult_le_pos; [nra|lra]. }
    split.
    { eapply d_ext.
      - apply d_minus; [apply d_const|]. apply d_scal. apply (d_comp (fun t => - t / c) exp).
        + unfold Rdiv. apply (d_mult (fun t => - t) (fun _ => / c)); [apply d_opp; apply d_id|apply d_const].
        + apply is_derive_Reals. apply derivable_pt_lim_exp.
      - cbv beta. field. lra. }
    intros e' L. assert (E2 : exp (- e' / c) <= exp (- e / c)).
    { destruct (Req_dec e e') as [->|]; [lra|]. apply Rlt_le, exp_increasing. unfold Rdiv.
      assert (0 < / c) by now apply Rinv_0_lt_compat. nra. }
    nra.
Qed.

Lemma power_sound sy n eps0 : 0 < sy -> 0 < n -> 0 < eps0 -> sound_hardening (power_hardening sy n eps0).
Proof.
  intros P Hn He0. unfold sound_hardening, power_hardening. cbn [h_sy h_Y h_dY]. split; [exact P|]. split.
  - replace (1 + 0 / eps0) with 1 by (field; lra). unfold Rpower. rewrite ln_1, Rmult_0_r, exp_0. ring.
  - intros e He. assert (Ie : 0 < / eps0) by now apply Rinv_0_lt_compat. assert (In : 0 < / n) by now apply Rinv_0_lt_compat.
    assert (B : 0 < 1 + e / eps0) by (unfold Rdiv; nra).
    split; [apply Rmult_lt_0_compat; [exact P|apply exp_pos]|]. split.
    { assert (X := exp_pos ((1 / n - 1) * ln (1 + e / eps0))). fold (Rpower (1 + e / eps0) (1 / n - 1)) in X.
      apply Rmult_le_pos; [lra|]. apply Rmult_le_pos; [|unfold Rdiv; lra]. apply Rmult_le_pos; [unfold Rdiv; lra|lra]. }
    split.
    { apply d_scal. eapply d_ext.
      - apply (d_comp (fun t => 1 + t / eps0) (fun y => Rpower y (1 / n))).
        + apply d_plus; [apply d_const|]. unfold Rdiv. apply (d_mult (fun t => t) (fun _ => / eps0)); [apply d_id|apply d_const].
        + apply is_derive_Reals. apply derivable_pt_lim_power. exact B.
      - cbv beta. field. lra. }
    intros e' L. apply Rmult_le_compat_l; [lra|]. destruct (Req_dec e e') as [->|]; [lra|].
    assert (B' : 1 + e / eps0 < 1 + e' / eps0) by (unfold Rdiv; nra).
    unfold Rpower. apply Rlt_le, exp_increasing. apply Rmult_lt_compat_l; [unfold Rdiv; lra|]. now apply ln_increasing.
Qed.

Lemma sound_from_hardening E nu h Hk : sound_hardening h -> 0 < E -> -1 < nu < 1 / 2 -> 0 <= Hk ->
  sound_material {| j_E := E; j_nu := nu; j_h := h; j_Hk := Hk |}.
Proof.
  intros [Hs [_ Hh]] HE Hn HK. split; cbn [j_E j_nu j_h j_Hk].
  - split; lra.
  - unfold shear. apply Rdiv_lt_0_compat; lra.
  - exact HK.
  - exact Hs.
  - intros e He. now destruct (Hh e He).
  - intros e e' He L. destruct (Hh e He) as [_ [_ [_ X]]]. now apply X.
  - intros e He. now destruct (Hh e He) as [_ [X _]].
Qed.

(** ** linear hardening: the scalar solve is exact after at most two iterations *)
Lemma affine_converges F0 B o U a : 0 < F0 -> 0 < B -> 0 < U -> F0 <= B * U -> 0 < rtol o -> (2 <= max_iter o)%nat ->
  solve_scalar_equation (fun x => F0 - B * x) (fun _ => - B) o 0 0 U = Answer a -> a_converged a = true.
Proof.
  intros PF PB PU FU Pr Mi E. set (f := fun x => F0 - B * x) in *. unfold solve_scalar_equation in E.
  assert (Pn : is_pos (f 0 * f U) = false).
  { unfold is_pos, f. destruct (Rlt_dec 0 ((F0 - B * 0) * (F0 - B * U))); [exfalso; nra|reflexivity]. }
  rewrite Pn in E. assert (N0 : is_eq (f 0) 0 = false) by (unfold is_eq, f; destruct (Req_EM_T (F0 - B * 0) 0); [lra|reflexivity]).
  rewrite N0 in E. destruct (is_eq (f U) 0) eqn:NU; [now injection E as <-|].
  destruct (max_iter o) as [|[|k]]; [lia|lia|].
  set (s0 := initial f 0 0 U) in *.
  assert (X0 : sx s0 = 0) by (unfold s0, initial, is_lt; cbn [sx]; decide_real; reflexivity).
  assert (Pf : is_pos (f 0) = true) by (unfold is_pos, f; destruct (Rlt_dec 0 (F0 - B * 0)); [reflexivity|lra]).
  assert (Xl : sxl s0 = U) by (unfold s0, initial; cbn [sxl]; now rewrite Pf).
  assert (Xh : sxh s0 = 0) by (unfold s0, initial; cbn [sxh]; now rewrite Pf).
  assert (Xd : s_dx s0 = U) by (unfold s0, initial; cbn [s_dx]; rewrite Rminus_0_r; apply Rabs_pos_eq; lra).
  assert (Xo : s_old s0 = U) by (unfold s0, initial; cbn [s_old]; rewrite Rminus_0_r; apply Rabs_pos_eq; lra).
  assert (Xc : s_conv s0 = false) by reflexivity.
  assert (root : forall s, bisects f (fun _ => - B) s = false -> exists s', step f (fun _ => - B) o s = Some s' /\ s_conv s' = true).
  { intros s Bs. unfold step. rewrite Bs. unfold odiv. destruct (Req_EM_T (- B) 0); [lra|]. cbn [obind]. eexists. split; [reflexivity|].
    unfold finish. cbn [s_conv]. apply orb_true_intro. right. unfold is_lt.
    replace (f (sx s - f (sx s) / - B)) with 0 by (unfold f; field; lra). rewrite Rabs_R0. destruct (Rlt_dec 0 (rtol o)); [reflexivity|lra]. }
  rewrite run_S, Xc in E.
  destruct (bisects f (fun _ => - B) s0) eqn:B0.
  2:{ destruct (root s0 B0) as [s' [Es Cs]]. rewrite Es in E. cbn [obind] in E. rewrite (run_done _ _ _ _ s' _ Cs) in E.
      injection E as <-. exact Cs. }
  (* the first step bisects, so 2 F0 > B U *)
  assert (Half : B * U < 2 * F0).
  { unfold bisects in B0. rewrite X0, Xl, Xh, Xo in B0. apply Bool.orb_prop in B0. destruct B0 as [B0|B0].
    - apply Bool.orb_prop in B0. destruct B0 as [B0|B0].
      + apply is_pos_true in B0. unfold f in B0. lra.
      + apply is_neg_true in B0. unfold f in B0. lra.
    - apply is_lt_true in B0. unfold f in B0. rewrite (Rabs_left (U * - B)) in B0 by nra.
      rewrite (Rabs_pos_eq (2 * (F0 - B * 0))) in B0 by lra. lra. }
  assert (St : step f (fun _ => - B) o s0 = Some (finish f o s0 (0.5 * (0 - U)) (U + 0.5 * (0 - U)) (is_eq (U + 0.5 * (0 - U)) U))).
  { unfold step. rewrite B0. cbv zeta. now rewrite Xl, Xh. }
  rewrite St in E. cbn [obind] in E.
  set (s1 := finish f o s0 (0.5 * (0 - U)) (U + 0.5 * (0 - U)) (is_eq (U + 0.5 * (0 - U)) U)) in *.
  destruct (s_conv s1) eqn:C1; [rewrite (run_done _ _ _ _ s1 _ C1) in E; now injection E as <-|].
  rewrite run_S, C1 in E.
  assert (Y0 : sx s1 = U / 2) by (unfold s1, finish; cbn [sx]; lra).
  assert (Nf : is_neg (f (U + 0.5 * (0 - U))) = false) by (unfold is_neg, f; destruct (Rlt_dec _ _); [exfalso; nra|reflexivity]).
  assert (Yl : sxl s1 = U) by (unfold s1, finish; cbn [sxl]; now rewrite Nf).
  assert (Yh : sxh s1 = U / 2) by (unfold s1, finish; cbn [sxh]; rewrite Nf; lra).
  assert (Yo : s_old s1 = U) by (unfold s1, finish; cbn [s_old]; exact Xd).
  assert (B1 : bisects f (fun _ => - B) s1 = false).
  { unfold bisects. rewrite Y0, Yl, Yh, Yo. unfold f. apply Bool.orb_false_intro; [apply Bool.orb_false_intro|].
    - unfold is_pos. destruct (Rlt_dec _ _); [exfalso; nra|reflexivity].
    - unfold is_neg. destruct (Rlt_dec _ _); [exfalso; nra|reflexivity].
    - unfold is_lt. rewrite (Rabs_left (U * - B)) by nra. rewrite (Rabs_pos_eq (2 * (F0 - B * (U / 2)))) by nra.
      destruct (Rlt_dec _ _); [exfalso; nra|reflexivity]. }
  destruct (root s1 B1) as [s' [Es Cs]]. rewrite Es in E. cbn [obind] in E. rewrite (run_done _ _ _ _ s' _ Cs) in E.
  injection E as <-. exact Cs.
Qed.

Lemma solve_ext f g fd gd o x0 l u : (forall x, f x = g x) -> (forall x, fd x = gd x) ->
  solve_scalar_equation f fd o x0 l u = solve_scalar_equation g gd o x0 l u.
Proof. intros E1 E2. apply functional_extensionality in E1, E2. now subst. Qed.

Theorem linear_converges E nu sy Hi Hk st H r a : 0 < E -> -1 < nu < 1 / 2 -> 0 < sy -> 0 <= Hi -> 0 <= Hk -> sound_state st ->
  j2_small {| j_E := E; j_nu := nu; j_h := linear_hardening sy Hi; j_Hk := Hk |} st H = Returned r ->
  r_status r = Some a -> a_converged a = true.
Proof.
  intros PE Pn Ps PH PK S Er Ea.
  set (m := {| j_E := E; j_nu := nu; j_h := linear_hardening sy Hi; j_Hk := Hk |}) in *.
  assert (M : sound_material m) by (apply sound_from_hardening; auto using linear_sound).
  destruct (j2_returns m M st S H) as [r' [Er' D]]. rewrite Er in Er'. injection Er' as <-.
  destruct D as [[_ ->]|[L [a' [Sa [B [Q ->]]]]]]; [discriminate|]. cbn [r_status] in Ea. injection Ea as ->.
  assert (F0 : 0 < yield_residual m (eqps st) (t_q (predictor m st H)) 0) by (assert (X := rtol_pos m M); lra).
  destruct (entered m M st S H F0) as [U0 [_ [FU EU]]]. assert (P := A_pos m M).
  rewrite (solve_ext _ (fun x => yield_residual m (eqps st) (t_q (predictor m st H)) 0
      - (3 * shear (j_E m) (j_nu m) + j_Hk m + Hi) * x) _ (fun _ => - (3 * shear (j_E m) (j_nu m) + j_Hk m + Hi))) in Sa.
  - eapply affine_converges; [exact F0| |exact U0| | | |exact Sa].
    + lra.
    + rewrite <- EU. nra.
    + exact (rtol_pos m M).
    + cbn [solver_options max_iter]. lia.
  - intros x. unfold yield_residual. unfold m. cbn [j_h h_Y linear_hardening]. ring.
  - intros x. unfold yield_slope. unfold m. cbn [j_h h_dY linear_hardening]. ring.
Qed.

(** ** a non-decreasing law with a jump: the update ends far from the yield surface, whatever the solver does *)
Definition jump : hardening := {| h_sy := 1; h_Y := fun e => if Rle_dec 1 e then 100 else 1; h_dY := fun _ => 0 |}.
Definition jumpy : j2 := {| j_E := 2 / 3; j_nu := 0; j_h := jump; j_Hk := 0 |}.
Definition virgin : pstate := {| ep := zero; eqps := 0 |}.
Lemma virgin_sound : sound_state virgin.
Proof. split; cbn [ep eqps virgin]; [lra|intros i j _ _; reflexivity|apply tr_zero; intros i j _ _; reflexivity]. Qed.
Lemma jumpy_sound : sound_material jumpy.
Proof.
  assert (G : shear (j_E jumpy) (j_nu jumpy) = 1 / 3) by (unfold shear, jumpy; cbn [j_E j_nu]; lra).
  split; try rewrite G; cbn [jumpy j_h jump h_sy h_Y h_dY j_Hk j_nu]; try lra.
  - split; lra.
  - intros e He. destruct (Rle_dec 1 e); lra.
  - intros e e' He L. destruct (Rle_dec 1 e), (Rle_dec 1 e'); lra.
  - intros e He. lra.
Qed.
(** pure shear with equivalent stress 10: q = sqrt 1.5 * 2 G * sqrt 2 * g = g / sqrt 3 * 2 ... chosen as 10 *)
Definition pure_shear (g : R) : mat := mat3 0 g 0 g 0 0 0 0 0.
Lemma jumpy_q g : 0 <= g -> t_q (predictor jumpy virgin (pure_shear g)) * t_q (predictor jumpy virgin (pure_shear g)) = 4 / 3 * (g * g).
Proof.
  intros _. rewrite q_is_mises, mises_sq.
  unfold predictor. cbn [t_eta ep virgin].
  assert (G : shear (j_E jumpy) (j_nu jumpy) = 1 / 3) by (unfold shear, jumpy; cbn [j_E j_nu]; lra). rewrite G.
  unfold squared_norm, msub, mscal, dev, tr, sym, pure_shear, zero, mat3. cbn [sumn Nat.eqb j_Hk jumpy INR]. lra.
Qed.
Theorem jump_misses : exists r, j2_small jumpy virgin (pure_shear 10) = Returned r /\
  1 <= Rabs (overstress jumpy (r_state r) (r_stress r)).
Proof.
  set (q := t_q (predictor jumpy virgin (pure_shear 10))).
  assert (Qs := jumpy_q 10 ltac:(lra)). fold q in Qs.
  assert (Qn : 0 <= q) by (unfold q; rewrite q_is_mises; apply mises_nonneg).
  assert (Q1 : 11 < q < 12) by nra.
  assert (G : shear (j_E jumpy) (j_nu jumpy) = 1 / 3) by (unfold shear, jumpy; cbn [j_E j_nu]; lra).
  assert (F : forall d, 0 <= d -> 1 <= Rabs (yield_residual jumpy (eqps virgin) q d)).
  { intros d Hd. unfold yield_residual. rewrite G. cbn [jumpy j_Hk j_h jump h_Y virgin eqps].
    destruct (Rle_dec 1 (0 + d)).
    - rewrite Rabs_left by lra. lra.
    - rewrite Rabs_pos_eq by lra. lra. }
  destruct (j2_returns jumpy jumpy_sound virgin virgin_sound (pure_shear 10)) as [r [Er D]]. exists r. split; [exact Er|].
  fold q in D. assert (T : tolerance * h_sy (j_h jumpy) < 1).
  { unfold tolerance. cbn [jumpy j_h jump h_sy]. lra. }
  destruct D as [[L _]|[L [a [_ [B [_ Ea]]]]]].
  - exfalso. unfold yield_residual in L. cbn [jumpy j_Hk j_h jump h_Y virgin eqps h_sy] in L, T. unfold jump in L. cbn [h_Y] in L.
    destruct (Rle_dec 1 (0 + 0)); lra.
  - destruct (j2_overstress jumpy jumpy_sound virgin virgin_sound (pure_shear 10) r a Er) as [_ X]; [now rewrite Ea|].
    rewrite X. fold q. apply F. lra.
Qed.

(** ** the parameterized variant is J2SmallStrain with Voce hardening and no kinematic hardening *)
Theorem param_j2_same E nu sy sat c st H :
  param_j2 E nu sy sat c st H = j2_small {| j_E := E; j_nu := nu; j_h := voce_hardening sy sat c; j_Hk := 0 |} st H.
Proof.
  unfold param_j2, j2_small, predictor, solver_options, yield_residual, yield_slope, upper_bound, voce_hardening.
  cbv zeta. cbn [t_p t_s t_eta t_q j_E j_nu j_h j_Hk h_sy h_Y h_dY].
  assert (Eta : msub (mscal (2 * shear E nu) (dev 3 (msub (sym H) (ep st)))) (mscal (2 / 3 * 0) (ep st))
                = mscal (2 * shear E nu) (dev 3 (msub (sym H) (ep st)))).
  { apply functional_extensionality. intros i. apply functional_extensionality. intros j. unfold msub, mscal. ring. }
  rewrite Eta, (Rplus_0_r (3 * shear E nu)). reflexivity.
Qed.

(** ** a plastic step: linear hardening, shear beyond yield *)
Definition metal : j2 := {| j_E := 2 / 3; j_nu := 0; j_h := linear_hardening 1 1; j_Hk := 1 |}.
Lemma metal_sound : sound_material metal.
Proof. apply sound_from_hardening; try lra. apply linear_sound; lra. Qed.
Theorem metal_yields : exists r a, j2_small metal virgin (pure_shear 10) = Returned r /\ r_status r = Some a /\
  a_converged a = true /\ 0 < eqps (r_state r).
Proof.
  set (q := t_q (predictor metal virgin (pure_shear 10))).
  assert (G : shear (j_E metal) (j_nu metal) = 1 / 3) by (unfold shear, metal; cbn [j_E j_nu]; lra).
  assert (Qs : q * q = 4 / 3 * (10 * 10)).
  { unfold q. rewrite q_is_mises, mises_sq. unfold predictor. cbn [t_eta ep virgin]. rewrite G.
    unfold squared_norm, msub, mscal, dev, tr, sym, pure_shear, zero, mat3. cbn [sumn Nat.eqb j_Hk metal INR]. lra. }
  assert (Qn : 0 <= q) by (unfold q; rewrite q_is_mises; apply mises_nonneg).
  assert (Q1 : 11 < q < 12) by nra.
  destruct (j2_returns metal metal_sound virgin virgin_sound (pure_shear 10)) as [r [Er D]]. fold q in D.
  assert (T : tolerance * h_sy (j_h metal) < 1) by (unfold tolerance; cbn [metal j_h linear_hardening h_sy]; lra).
  destruct D as [[L _]|[L [a [Sa [B [_ Ea]]]]]].
  - exfalso. unfold yield_residual in L. cbn [metal j_Hk j_h linear_hardening h_Y virgin eqps h_sy] in L, T. lra.
  - exists r, a. split; [exact Er|]. split; [now rewrite Ea|].
    assert (C : a_converged a = true).
    { apply (linear_converges (2 / 3) 0 1 1 1 virgin (pure_shear 10) r a); try lra; [apply virgin_sound|exact Er|now rewrite Ea]. }
    split; [exact C|].
    assert (On := j2_on_surface metal metal_sound virgin virgin_sound (pure_shear 10) r a Er ltac:(now rewrite Ea) C).
    destruct (j2_overstress metal metal_sound virgin virgin_sound (pure_shear 10) r a Er ltac:(now rewrite Ea)) as [_ Ov].
    rewrite Ov in On. fold q in On. rewrite Ea. cbn [r_state eqps virgin].
    destruct (Req_dec (a_x a) 0) as [Z|]; [|lra]. exfalso. rewrite Z in On. unfold yield_residual in On.
    cbn [metal j_Hk j_h linear_hardening h_Y virgin eqps h_sy] in On, T. assert (X := Rle_abs (q - (3 * shear (j_E metal) (j_nu metal) + 1) * 0 - (1 + 1 * (0 + 0)))).
    unfold metal in X at 1 2. cbn [j_E j_nu] in *. lra.
Qed.
