(** * C54: operator-split thermomechanics *)
From Coq Require Import String List ZArith Reals.
Import ListNotations.
From Verif Require Import Prelude Ledger Tensor Materials Thermomech.
Local Open Scope R_scope.

(** ** a run of steps is the staggered scheme: the thermal solve uses the displacement before the step, the solid solve the
    temperature after it.  Integrators whose clock moves by dt; the full statement has all integrators *)
Theorem C54_staggered_partial : forall V zero tc sc thermal solid, (forall t dt, stage_time tc t dt = t + dt) -> (forall t dt, stage_time sc t dt = t + dt) ->
  forall dts (s : coupled V) t, l_time V (c_thermal V s) = t -> l_time V (c_solid V s) = t ->
  exists s', crun V zero tc sc thermal solid (advances V dts) s = Ok s' /\
    (l_fields V (c_thermal V s'), l_fields V (c_solid V s')) =
      staggered V thermal solid dts t (l_fields V (c_thermal V s)) (l_fields V (c_solid V s)).
Proof. exact staggered_ok. Qed.
Print Assumptions C54_staggered_partial.
Example C54_two_steps : exists s, crun R 0 ex_cfg ex_cfg ex_thermal ex_solid (advances R [1; 1]) (construct R 0 ex_cfg ex_cfg 0 0) = Ok s /\
  coupled_state R s "temperature" = Ok 4 /\ coupled_state R s "displacement" = Ok 8.
Proof. exact ex_two_steps. Qed.

(** ** time and cycle of the three modules agree in every history that starts at cycle 0, time 0 *)
Theorem C54_clocks_partial : forall V zero tc sc thermal solid, (forall t dt, stage_time tc t dt = t + dt) -> (forall t dt, stage_time sc t dt = t + dt) ->
  forall l (s s' : coupled V), in_step V s -> crun V zero tc sc thermal solid l s = Ok s' -> in_step V s'.
Proof. exact in_step_run. Qed.
Print Assumptions C54_clocks_partial.
Example C54_clocks_start : forall V (zero : V) tc sc, in_step V (construct V zero tc sc 0 0).
Proof. exact in_step_construct. Qed.
(** created at cycle c and time t (a restart), the module itself still counts from 0: its state files carry cycle n and the
    elapsed time instead of c + n and t + elapsed *)
Theorem C54_restart_refuted : forall V zero tc sc thermal solid, (forall t dt, stage_time tc t dt = t + dt) -> (forall t dt, stage_time sc t dt = t + dt) ->
  forall c t dts, exists s : coupled V, crun V zero tc sc thermal solid (advances V dts) (construct V zero tc sc c t) = Ok s /\
    c_time V s = Rsum dts /\ c_cycle V s = Z.of_nat (length dts) /\
    l_time V (c_thermal V s) = t + Rsum dts /\ l_cycle V (c_thermal V s) = (c + Z.of_nat (length dts))%Z.
Proof. exact restarted. Qed.
Print Assumptions C54_restart_refuted.

(** ** after a reset the module repeats the run of a new one *)
Theorem C54_reset_repeats : forall V zero tc sc thermal solid l c t before (s s1 s2 : coupled V),
  crun V zero tc sc thermal solid before (construct V zero tc sc c t) = Ok s ->
  crun V zero tc sc thermal solid l (construct V zero tc sc c t) = Ok s1 ->
  crun V zero tc sc thermal solid l (coupled_reset V zero tc sc c t s) = Ok s2 ->
  c_thermal V s1 = c_thermal V s2 /\ c_solid V s1 = c_solid V s2.
Proof. exact reset_repeats. Qed.
Print Assumptions C54_reset_repeats.

(** ** fields by name *)
Theorem C54_names : forall V (s : coupled V) n, In n ["displacement"; "velocity"; "temperature"]%string <-> exists v, coupled_state V s n = Ok v.
Proof. exact states_by_name. Qed.
Print Assumptions C54_names.
Theorem C54_set_state : forall V (s : coupled V) n v s', coupled_set_state V n v s = Ok s' ->
  coupled_state V s' n = Ok v /\ forall m, m <> n -> coupled_state V s' m = coupled_state V s m.
Proof. exact set_then_get. Qed.
Print Assumptions C54_set_state.

(** ** no history makes a checkpoint or a time step available *)
Theorem C54_checkpoints_refuted : forall V zero tc sc thermal solid l c t (s : coupled V),
  crun V zero tc sc thermal solid l (construct V zero tc sc c t) = Ok s ->
  (forall n k, load_state V (c_own V s) n k = Refused) /\ (forall k, (1 <= k)%Z -> get_timestep V (c_own V s) k = Refused).
Proof. exact no_checkpoints. Qed.
Print Assumptions C54_checkpoints_refuted.

(** ** a module with parameter spaces of its own cannot be created *)
Theorem C54_user_parameters_refuted : forall V (zero : V) tc sc k c t, construct_with V zero tc sc (S k) c t = Refused.
Proof. reflexivity. Qed.
Print Assumptions C54_user_parameters_refuted.
Example C54_no_parameters : forall V (zero : V) tc sc c t, construct_with V zero tc sc 0 c t = Ok (construct V zero tc sc c t).
Proof. reflexivity. Qed.

(** ** the material: the solid module gets the material's stress and state, the thermal module its capacity and flux *)
Theorem C54_solid_material : forall m trace H theta g o, gsv_response m trace H theta g = Some o -> solid_adaptor m trace H theta g = Some (o_stress o, o_trace o).
Proof. exact solid_adaptor_stress. Qed.
Print Assumptions C54_solid_material.
(** whatever heat the material reports is lost *)
Theorem C54_heat_source_refuted : forall m trace H theta g o, gsv_response m trace H theta g = Some o -> thermal_adaptor m H theta g = Some (o_capacity o, o_flux o).
Proof. exact thermal_adaptor_no_source. Qed.
Print Assumptions C54_heat_source_refuted.
Example C54_heat_is_reported : exists o, gsv_response ex_gsv 0 stretch 1 (fun _ => 0) = Some o /\ o_source o <> 0.
Proof. exact ex_heat_of_straining. Qed.

(** ** from an input file only the solver options take effect *)
Theorem C54_input_refuted : forall M (thermal solid thermal' solid' : sub_input M) e e', si_solver M thermal = si_solver M thermal' -> si_solver M solid = si_solver M solid' ->
  thermomech_from_input thermal solid e = thermomech_from_input thermal' solid' e'.
Proof. exact @input_ignored. Qed.
Print Assumptions C54_input_refuted.
