(** * Properties C22 (elastic materials), C41 (parameterized materials), C42 (stress measures), C47 (small-strain limit) *)
From Coq Require Import Reals.
From Coquelicot Require Import Coquelicot.
From Verif Require Import Sums Dual Tensor LU MatAlg Materials MaterialFacts MaterialEx.
Local Open Scope R_scope.

(** C22, energy: along every differentiable curve H(t) of displacement gradients, d(energy)/dt = stress : dH/dt, where the
    stress is the one work-conjugate to the displacement gradient (for the finite-strain models, the Piola stress the
    returned Cauchy stress converts to). *)
Theorem C22_linear_energy : forall n K G H t0 D, mderive n H t0 D ->
  is_derive (fun t => energy_linear n K G (H t)) t0 (inner n n (linear_isotropic n K G (H t0)) D).
Proof. exact linear_energy. Qed.
Print Assumptions C22_linear_energy.

Theorem C22_stvk_energy : forall n K G H t0 D s, dim23 n -> mderive n H t0 D -> stvk n K G (H t0) = Some s ->
  exists P, cauchy_to_piola n s (H t0) = Some P /\
    is_derive (fun t => energy_stvk n K G (H t)) t0 (inner n n P D).
Proof. exact stvk_energy. Qed.
Print Assumptions C22_stvk_energy.

Theorem C22_neo_energy : forall n lambda G H t0 D s, dim23 n -> mderive n H t0 D -> neo n lambda G (H t0) = Some s ->
  exists P, cauchy_to_piola n s (H t0) = Some P /\
    is_derive (fun t => energy_neo n lambda G (H t)) t0 (inner n n P D).
Proof. exact neo_energy. Qed.
Print Assumptions C22_neo_energy.

Theorem C22_thermoelastic_energy : forall m old H t0 D theta g out, mderive 3 H t0 D -> 0 < theta / g_theta_ref m ->
  gsv_response m old (H t0) theta g = Some out ->
  exists P psi, cauchy_to_piola 3 (o_stress out) (H t0) = Some P /\
    (forall t, gsv_energy m (H t) theta = Some (psi t)) /\ is_derive psi t0 (inner 3 3 P D).
Proof. exact gsv_stress_energy. Qed.
Print Assumptions C22_thermoelastic_energy.

(** thermal side: entropy is minus the temperature slope of the code's own free energy, the internal source is minus
    temperature times the entropy change at fixed temperature, heat flows down the temperature gradient *)
Theorem C22_thermoelastic_entropy : forall m H theta, finite_moduli (g_nu m) -> 0 < theta -> 0 < g_theta_ref m ->
  (exists psi, locally theta (fun t => gsv_energy m H t = Some (psi t)) /\ is_derive psi theta (- gsv_entropy m H theta)) /\
  is_derive (fun t => gsv_entropy m H t) theta (g_Cv m / theta).
Proof. exact gsv_entropy_ok. Qed.
Print Assumptions C22_thermoelastic_entropy.
Theorem C22_thermoelastic_source : forall m H0 H theta g out,
  gsv_response m (tr 3 (green_strain 3 H0)) H theta g = Some out ->
  o_source out = - theta * (gsv_entropy m H theta - gsv_entropy m H0 theta) /\ o_trace out = tr 3 (green_strain 3 H).
Proof. exact gsv_source_ok. Qed.
Print Assumptions C22_thermoelastic_source.
Theorem C22_thermoelastic_flux : forall m old H theta g out, 0 <= g_k m -> gsv_response m old H theta g = Some out ->
  o_capacity out = g_Cv m /\ vdot 3 (o_flux out) g <= 0.
Proof. exact gsv_flux_ok. Qed.
Print Assumptions C22_thermoelastic_flux.

(** C22, no stress without displacement *)
Theorem C22_linear_zero : forall n K G, meq n (linear_isotropic n K G zero) zero.
Proof. exact linear_zero. Qed.
Print Assumptions C22_linear_zero.
Theorem C22_stvk_zero : forall n K G, dim23 n -> exists s, stvk n K G zero = Some s /\ meq n s zero.
Proof. exact stvk_zero. Qed.
Print Assumptions C22_stvk_zero.
Theorem C22_neo_zero : forall n lambda G, dim23 n -> exists s, neo n lambda G zero = Some s /\ meq n s zero.
Proof. exact neo_zero. Qed.
Print Assumptions C22_neo_zero.
Theorem C22_thermoelastic_zero : forall m old g, finite_moduli (g_nu m) ->
  exists out, gsv_response m old zero (g_theta_ref m) g = Some out /\ meq 3 (o_stress out) zero.
Proof. exact gsv_zero. Qed.
Print Assumptions C22_thermoelastic_zero.

(** C22, symmetry *)
Theorem C22_linear_symmetric : forall n lambda G H, symmetric n (iso_stress n lambda G H).
Proof. exact linear_symmetric. Qed.
Print Assumptions C22_linear_symmetric.
Theorem C22_stvk_symmetric : forall n K G H s, stvk n K G H = Some s -> symmetric n s.
Proof. exact stvk_symmetric. Qed.
Print Assumptions C22_stvk_symmetric.
Theorem C22_neo_symmetric : forall n lambda G H s, neo n lambda G H = Some s -> symmetric n s.
Proof. exact neo_symmetric. Qed.
Print Assumptions C22_neo_symmetric.
Theorem C22_thermoelastic_symmetric : forall m old H theta g out,
  gsv_response m old H theta g = Some out -> symmetric 3 (o_stress out).
Proof. exact gsv_symmetric. Qed.
Print Assumptions C22_thermoelastic_symmetric.

(** C22, superposed rotation (of the deformed body: stress rotates; of the reference body: stress unchanged) *)
Theorem C22_stvk_objective : forall n K G Q H s, dim23 n -> rotation n Q -> stvk n K G H = Some s ->
  exists s', stvk n K G (rotated n Q H) = Some s' /\ meq n s' (mmul n (mmul n Q s) (transpose Q)).
Proof. exact stvk_objective. Qed.
Print Assumptions C22_stvk_objective.
Theorem C22_neo_objective : forall n lambda G Q H s, dim23 n -> rotation n Q -> neo n lambda G H = Some s ->
  exists s', neo n lambda G (rotated n Q H) = Some s' /\ meq n s' (mmul n (mmul n Q s) (transpose Q)).
Proof. exact neo_objective. Qed.
Print Assumptions C22_neo_objective.
Theorem C22_thermoelastic_objective : forall m old H theta g out Q, rotation 3 Q -> gsv_response m old H theta g = Some out ->
  exists out', gsv_response m old (rotated 3 Q H) theta g = Some out' /\
    meq 3 (o_stress out') (mmul 3 (mmul 3 Q (o_stress out)) (transpose Q)) /\
    o_source out' = o_source out /\ o_trace out' = o_trace out.
Proof. exact gsv_objective. Qed.
Print Assumptions C22_thermoelastic_objective.
Theorem C22_stvk_isotropic : forall n K G Q H s, dim23 n -> rotation n Q -> stvk n K G H = Some s ->
  exists s', stvk n K G (prerotated n Q H) = Some s' /\ meq n s' s.
Proof. exact stvk_isotropic. Qed.
Print Assumptions C22_stvk_isotropic.
Theorem C22_neo_isotropic : forall n lambda G Q H s, dim23 n -> rotation n Q -> neo n lambda G H = Some s ->
  exists s', neo n lambda G (prerotated n Q H) = Some s' /\ meq n s' s.
Proof. exact neo_isotropic. Qed.
Print Assumptions C22_neo_isotropic.

Theorem C22_neo_defined : forall n lambda G H, dim23 n -> 0 < detn n (defgrad H) -> exists s, neo n lambda G H = Some s.
Proof. exact neo_defined. Qed.
Print Assumptions C22_neo_defined.

Example C22_shear_example : exists s, neo 2 1 2 shear2 = Some s /\
  s 0%nat 0%nat = 2 /\ s 0%nat 1%nat = 2 /\ s 1%nat 0%nat = 2 /\ s 1%nat 1%nat = 0.
Proof. exact neo_shear. Qed.
Example C22_stvk_example : exists s, stvk 2 3 1 shear2 = Some s /\ s 0%nat 1%nat <> 0.
Proof. exact stvk_shear. Qed.
Example C22_rotation_example : rotation 2 (mat2 0 (-1) 1 0).
Proof. exact quarter_turn. Qed.
Example C22_curve_example : forall t0 : R, mderive 2 (fun t => mat2 0 t 0 0) t0 shear2.
Proof. exact shear_curve. Qed.
Example C22_heated_example : exists out, gsv_response rubber 0 zero 2 (fun _ => 1) = Some out /\
  o_stress out 0%nat 0%nat = -1 /\ o_source out = 0.
Proof. exact gsv_heated. Qed.

(** C42: with geometric nonlinearity the residual's flux is det(F) sigma F^-T; without it, the stress itself; and a
    symmetric Cauchy stress gives the same Piola stress by each of the three routes. *)
Theorem C42_flux_is_piola : forall n sigma H, dim23 n -> detn n (defgrad H) <> 0 ->
  exists P B, flux n true sigma H = Some P /\ meq n (mmul n (defgrad H) B) ident /\
    meq n P (mscal (detn n (defgrad H)) (mmul n sigma (transpose B))).
Proof. exact flux_on. Qed.
Print Assumptions C42_flux_is_piola.
Theorem C42_flux_linear : forall n sigma H, dim23 n -> exists P, flux n false sigma H = Some P /\ meq n P sigma.
Proof. exact flux_off. Qed.
Print Assumptions C42_flux_linear.
Theorem C42_conversions_agree_partial : forall n sigma H, dim23 n -> detn n (defgrad H) <> 0 -> symmetric n sigma ->
  exists P1 P2 P3, flux n true sigma H = Some P1 /\ cauchy_to_piola n sigma H = Some P2 /\
    kirchhoff_to_piola n (mscal (detn n (defgrad H)) sigma) H = Some P3 /\ meq n P1 P2 /\ meq n P1 P3.
Proof. exact piola_conversions. Qed.
Print Assumptions C42_conversions_agree_partial.
(** they disagree on a stress that is not symmetric: KirchhoffToPiola transposes it *)
Theorem C42_conversions_agree_refuted : exists sigma P1 P2,
  flux 2 true sigma zero = Some P1 /\ cauchy_to_piola 2 sigma zero = Some P2 /\ P1 0%nat 1%nat <> P2 0%nat 1%nat.
Proof. exact piola_nonsymmetric. Qed.
Print Assumptions C42_conversions_agree_refuted.

(** C41 *)
Theorem C41_linear_3d_partial : forall K G dK dG H, param_linear 3 K G dK dG H = linear_isotropic 3 (K + dK) (G + dG) H.
Proof. exact param_linear_3d. Qed.
Print Assumptions C41_linear_3d_partial.
Theorem C41_neo_3d_partial : forall K G dK dG H, param_neo 3 K G dK dG H = neo_hookean 3 (K + dK) (G + dG) H.
Proof. exact param_neo_3d. Qed.
Print Assumptions C41_neo_3d_partial.
Theorem C41_thermoelastic : forall m old H theta g, gsv_response (param_gsv m 1) old H theta g = gsv_response m old H theta g.
Proof. exact param_gsv_unscaled. Qed.
Print Assumptions C41_thermoelastic.
Theorem C41_thermoelastic_scaled : forall m m' scale old H theta g, same_but_expansion m m' -> g_alpha m' = scale * g_alpha m ->
  gsv_response (param_gsv m scale) old H theta g = gsv_response m' old H theta g /\ gsv_energy (param_gsv m scale) H theta = gsv_energy m' H theta.
Proof. exact param_gsv_scaled. Qed.
Print Assumptions C41_thermoelastic_scaled.
(** in two dimensions the parameterized material uses lambda = K - G, the plain one K - 2/3 G *)
Theorem C41_linear_2d_refuted : exists K G H, param_linear 2 K G 0 0 H 0%nat 0%nat <> linear_isotropic 2 K G H 0%nat 0%nat.
Proof. exact param_linear_2d. Qed.
Print Assumptions C41_linear_2d_refuted.

(** C47 *)
Theorem C47_neo_small_strain : forall n lambda G H D, dim23 n -> mderive n H 0 D -> meq n (H 0) zero ->
  exists s, locally 0 (fun t => neo n lambda G (H t) = Some (s t)) /\ mderive n s 0 (iso_stress n lambda G D).
Proof. exact neo_linearised. Qed.
Print Assumptions C47_neo_small_strain.
Theorem C47_stvk_small_strain : forall n K G H D, dim23 n -> mderive n H 0 D -> meq n (H 0) zero ->
  exists s, locally 0 (fun t => stvk n K G (H t) = Some (s t)) /\ mderive n s 0 (svk_linear n K G D).
Proof. exact stvk_linearised. Qed.
Print Assumptions C47_stvk_small_strain.
Theorem C47_stvk_3d_partial : forall K G D, meq 3 (svk_linear 3 K G D) (linear_isotropic 3 K G D).
Proof. exact svk_linear_3d. Qed.
Print Assumptions C47_stvk_3d_partial.
Theorem C47_stvk_2d_refuted : exists K G D, svk_linear 2 K G D 0%nat 0%nat <> linear_isotropic 2 K G D 0%nat 0%nat.
Proof. exact svk_linear_2d. Qed.
Print Assumptions C47_stvk_2d_refuted.
Example C47_curve_example : mderive 2 (fun t => mat2 0 t 0 0) 0 shear2 /\ meq 2 (mat2 0 0 0 0) zero.
Proof. exact (conj (shear_curve 0) shear_curve_zero). Qed.
