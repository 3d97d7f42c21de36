(** * Properties C23 (J2 plasticity) and C41 (parameterized J2) *)
From Coq Require Import Reals.
From Coquelicot Require Import Coquelicot.
From Verif Require Import Sums Tensor MatAlg Materials ScalarSolve Plasticity PlasticityEx.
Local Open Scope R_scope.

(** the shipped hardening laws meet the assumption: positive, non-decreasing flow stress with the slope the code computes *)
Theorem C23_linear_law : forall sy Hi, 0 < sy -> 0 <= Hi -> sound_hardening (linear_hardening sy Hi).
Proof. exact linear_sound. Qed.
Print Assumptions C23_linear_law.
Theorem C23_power_law : forall sy n eps0, 0 < sy -> 0 < n -> 0 < eps0 -> sound_hardening (power_hardening sy n eps0).
Proof. exact power_sound. Qed.
Print Assumptions C23_power_law.
Theorem C23_voce_law : forall sy sat c, 0 < sy -> sy <= sat -> 0 < c -> sound_hardening (voce_hardening sy sat c).
Proof. exact voce_sound. Qed.
Print Assumptions C23_voce_law.
Theorem C23_material_from_law : forall E nu h Hk, sound_hardening h -> 0 < E -> -1 < nu < 1 / 2 -> 0 <= Hk ->
  sound_material {| j_E := E; j_nu := nu; j_h := h; j_Hk := Hk |}.
Proof. exact sound_from_hardening. Qed.
Print Assumptions C23_material_from_law.

(** every call returns: the scalar problem is always bracketed and no division by zero happens.  Either the trial is within
    tolerance of the elastic range, and stress and state are the trial ones; or the solver's answer lies in its interval. *)
Theorem C23_always_returns : forall m, sound_material m -> forall st, sound_state st -> forall H,
  exists r, j2_small m st H = Returned r /\
  ((yield_residual m (eqps st) (t_q (predictor m st H)) 0 <= tolerance * h_sy (j_h m) /\
    r = {| r_stress := total (t_s (predictor m st H)) (t_p (predictor m st H)); r_state := st; r_status := None |}) \/
   (tolerance * h_sy (j_h m) < yield_residual m (eqps st) (t_q (predictor m st H)) 0 /\ exists a,
      solve_scalar_equation (yield_residual m (eqps st) (t_q (predictor m st H))) (yield_slope m (eqps st)) (solver_options m)
        0 0 (upper_bound m (eqps st) (t_q (predictor m st H))) = Answer a /\
      0 <= a_x a <= upper_bound m (eqps st) (t_q (predictor m st H)) /\ 0 < t_q (predictor m st H) /\
      r = {| r_stress := total (msub (t_s (predictor m st H)) (mscal (2 * shear (j_E m) (j_nu m) * a_x a) (flow m st H)))
                               (t_p (predictor m st H));
             r_state := {| ep := madd (ep st) (mscal (a_x a) (flow m st H)); eqps := eqps st + a_x a |};
             r_status := Some a |})).
Proof. exact j2_returns. Qed.
Print Assumptions C23_always_returns.

(** elastic trial: nothing changes *)
Theorem C23_elastic : forall m st H, finite_moduli (j_nu m) ->
  overstress m st (total (t_s (predictor m st H)) (t_p (predictor m st H))) <= tolerance * h_sy (j_h m) ->
  j2_small m st H = Returned {| r_stress := total (t_s (predictor m st H)) (t_p (predictor m st H));
                                r_state := st; r_status := None |}.
Proof. exact j2_elastic. Qed.
Print Assumptions C23_elastic.

(** invariants: plastic strain stays symmetric and traceless, accumulated strain never decreases and measures the plastic
    increment, the pressure is the elastic one, stress is symmetric *)
Theorem C23_state : forall m, sound_material m -> forall st, sound_state st -> forall H r, j2_small m st H = Returned r ->
  sound_state (r_state r) /\ eqps st <= eqps (r_state r) /\
  equivalent_strain (msub (ep (r_state r)) (ep st)) = eqps (r_state r) - eqps st /\
  tr 3 (r_stress r) = 3 * t_p (predictor m st H) /\ symmetric 3 (r_stress r).
Proof. exact j2_state. Qed.
Print Assumptions C23_state.

Theorem C23_dissipation : forall m, sound_material m -> forall st, sound_state st -> forall H r, j2_small m st H = Returned r ->
  0 <= inner 3 3 (msub (dev 3 (r_stress r)) (back_stress m (r_state r))) (msub (ep (r_state r)) (ep st)).
Proof. exact j2_dissipation. Qed.
Print Assumptions C23_dissipation.

(** yield surface and repeated call, given that the scalar solve converged (missing: the code ignores the status) *)
Theorem C23_on_surface_partial : forall m, sound_material m -> forall st, sound_state st -> forall H r a,
  j2_small m st H = Returned r -> r_status r = Some a -> a_converged a = true ->
  Rabs (overstress m (r_state r) (r_stress r)) <= tolerance * h_sy (j_h m).
Proof. exact j2_on_surface. Qed.
Print Assumptions C23_on_surface_partial.
Theorem C23_repeat_partial : forall m, sound_material m -> forall st, sound_state st -> forall H r,
  j2_small m st H = Returned r -> (forall a, r_status r = Some a -> a_converged a = true) ->
  exists r', j2_small m (r_state r) H = Returned r' /\ r_status r' = None /\ r_state r' = r_state r /\
    meq 3 (r_stress r') (r_stress r).
Proof. exact j2_repeat. Qed.
Print Assumptions C23_repeat_partial.
(** with linear hardening the solve always converges *)
Theorem C23_linear_converges : forall E nu sy Hi Hk st H r a, 0 < E -> -1 < nu < 1 / 2 -> 0 < sy -> 0 <= Hi -> 0 <= Hk -> sound_state st ->
  j2_small {| j_E := E; j_nu := nu; j_h := linear_hardening sy Hi; j_Hk := Hk |} st H = Returned r ->
  r_status r = Some a -> a_converged a = true.
Proof. exact linear_converges. Qed.
Print Assumptions C23_linear_converges.
(** with a non-decreasing law that jumps, the state returned is far from the yield surface *)
Theorem C23_on_surface_refuted : sound_material jumpy /\ sound_state virgin /\
  exists r, j2_small jumpy virgin (pure_shear 10) = Returned r /\ 1 <= Rabs (overstress jumpy (r_state r) (r_stress r)).
Proof. exact (conj jumpy_sound (conj virgin_sound jump_misses)). Qed.
Print Assumptions C23_on_surface_refuted.

Example C23_example : sound_material metal /\ sound_state virgin /\
  exists r a, j2_small metal virgin (pure_shear 10) = Returned r /\ r_status r = Some a /\ a_converged a = true /\
    0 < eqps (r_state r).
Proof. exact (conj metal_sound (conj virgin_sound metal_yields)). Qed.

(** C41 *)
Theorem C41_j2 : forall E nu sy sat c st H,
  param_j2 E nu sy sat c st H = j2_small {| j_E := E; j_nu := nu; j_h := voce_hardening sy sat c; j_Hk := 0 |} st H.
Proof. exact param_j2_same. Qed.
Print Assumptions C41_j2.
