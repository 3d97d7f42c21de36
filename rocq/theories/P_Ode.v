(** * Properties C24 (second-order integration), C48 (backward Euler) and C05 (integrator memory) *)
From Coq Require Import Reals List.
From Verif Require Import Sums Tensor Ode OdeEx.
Local Open Scope R_scope.

(** For every problem, every solver that meets its contract, every state and step: the step exists, the Newmark relations hold,
    the equation of motion holds at the end of the step at free dofs, and constrained dofs follow the motion. *)
Theorem C24_newmark_direct : forall p solver, solves p solver -> extensional p ->
  forall beta gamma mem told t dt x v, 0 < beta -> dt <> 0 ->
  exists a0 x' v' a', newmark_step p solver beta gamma DirectControl mem told t dt x v = Some (x', v', a') /\
    start_acceleration p solver mem told x v a0 DirectControl /\
    newmark_relations p beta gamma dt x v a0 x' v' a' /\
    motion_at_free p (t + dt) x' a' /\
    (forall i, (i < p_n p)%nat -> p_ess p i = true -> x' i = p_g p (t + dt) i).
Proof. exact newmark_direct. Qed.
Print Assumptions C24_newmark_direct.

Theorem C24_newmark_rate : forall p solver, solves p solver -> extensional p ->
  forall beta gamma mem told t dt x v, 0 <= beta -> gamma * dt <> 0 ->
  exists a0 x' v' a', newmark_step p solver beta gamma RateControl mem told t dt x v = Some (x', v', a') /\
    start_acceleration p solver mem told x v a0 RateControl /\
    newmark_relations p beta gamma dt x v a0 x' v' a' /\
    motion_at_free p (t + dt) x' a' /\
    (forall i, (i < p_n p)%nat -> p_ess p i = true -> v' i = rate p eps2 (t + dt) i).
Proof. exact newmark_rate. Qed.
Print Assumptions C24_newmark_rate.

(** any number of steps *)
Theorem C24_run_rate : forall p solver, solves p solver -> extensional p ->
  forall beta gamma dts, 0 <= beta -> List.Forall (fun dt => gamma * dt <> 0) dts ->
  forall mem told t x v a0, start_acceleration p solver mem told x v a0 RateControl ->
  exists states, newmark_run p solver beta gamma RateControl mem told t x v dts = Some states /\
    trajectory p beta gamma (rate_held p) t x v a0 dts states.
Proof. exact newmark_run_rate. Qed.
Print Assumptions C24_run_rate.
Theorem C24_run_direct : forall p solver, solves p solver -> extensional p ->
  forall beta gamma dts, 0 < beta -> List.Forall (fun dt => dt <> 0) dts ->
  forall mem told t x v a0, start_acceleration p solver mem told x v a0 DirectControl ->
  exists states, newmark_run p solver beta gamma DirectControl mem told t x v dts = Some states /\
    trajectory p beta gamma (value_held p) t x v a0 dts states.
Proof. exact newmark_run_direct. Qed.
Print Assumptions C24_run_direct.

(** the acceleration a fresh integrator starts from: it satisfies the equation of motion at the operator's time, with the
    prescribed displacement on constrained dofs *)
Theorem C24_start : forall p solver, solves p solver -> extensional p -> forall en t u v,
  exists a, solve2 p solver en t 0 0 u v = Some a /\
  motion_at_free p t (merge p (U p t) u) a /\
  (forall i, (i < p_n p)%nat -> p_ess p i = true -> a i = second p eps2 t i).
Proof. exact explicit_solve. Qed.
Print Assumptions C24_start.

(** the difference quotients are the derivatives for quadratic motion *)
Theorem C24_rate_quadratic : forall p eps t i a b c, eps <> 0 -> p_ess p i = true ->
  (forall s, p_g p s i = a + b * s + c * (s * s)) -> rate p eps t i = b + 2 * c * t /\ second p eps t i = 2 * c.
Proof. exact rate_quadratic. Qed.
Print Assumptions C24_rate_quadratic.

(** FullControl: right only when the essential dofs are the first ones *)
Theorem C24_newmark_full_partial : forall p solver, solves p solver -> extensional p ->
  forall beta gamma mem told t dt x v, 0 <= beta -> gamma * dt <> 0 ->
  (forall i, (i < p_n p)%nat -> (p_ess p i = true <-> (i < length (ess_dofs p))%nat)) ->
  exists x' v' a', newmark_step p solver beta gamma FullControl mem told t dt x v = Some (x', v', a') /\
    motion_at_free p (t + dt) x' a' /\
    (forall i, (i < p_n p)%nat -> p_ess p i = true -> x' i = p_g p (t + dt) i /\ v' i = rate p eps2 (t + dt) i).
Proof. exact newmark_full. Qed.
Print Assumptions C24_newmark_full_partial.
(** otherwise it overwrites free dofs *)
Theorem C24_full_control_refuted : exists x v a0 x' v' a',
  newmark_step pair pair_solver (1 / 4) (1 / 2) FullControl (Some a0) 0 0 1 x v = Some (x', v', a') /\
  p_ess pair 0 = false /\ p_res pair 1 x' a' 0%nat <> 0 /\ x' 0%nat = 0.
Proof. exact full_control_wrong. Qed.
Print Assumptions C24_full_control_refuted.
(** and central differences (beta = 0) with DirectControl divide by zero in every step *)
Theorem C24_central_difference_direct_refuted : forall mem told t dt x v, dt <> 0 ->
  newmark_step pair pair_solver 0 (1 / 2) DirectControl mem told t dt x v = None.
Proof. exact central_difference_direct. Qed.
Print Assumptions C24_central_difference_direct_refuted.
Example C24_hypotheses : solves pair pair_solver /\ extensional pair /\ p_ess pair 1 = true /\
  (forall i, (i < p_n pair0)%nat -> (p_ess pair0 i = true <-> (i < length (ess_dofs pair0))%nat)).
Proof. exact (conj pair_solves (conj pair_extensional (conj eq_refl pair0_first))). Qed.

(** ** backward Euler *)
Theorem C48_second_order : forall p solver, solves p solver -> extensional p -> forall t dt x v, dt <> 0 ->
  (exists x' v' a', backward_euler2 p solver DirectControl t dt x v = Some (x', v', a') /\ euler2_relations p dt x v x' v' a' /\
     motion_at_free p (t + dt) x' a' /\
     forall i, (i < p_n p)%nat -> p_ess p i = true -> x' i = p_g p (t + dt) i) /\
  (exists x' v' a', backward_euler2 p solver RateControl t dt x v = Some (x', v', a') /\ euler2_relations p dt x v x' v' a' /\
     motion_at_free p (t + dt) x' a' /\
     forall i, (i < p_n p)%nat -> p_ess p i = true -> v' i = rate p eps2 (t + dt) i).
Proof. exact euler2_ok. Qed.
Print Assumptions C48_second_order.
Theorem C48_first_order : forall p solver, solves p solver -> forall t dt x, 0 < dt ->
  (let (x', k) := backward_euler1 p solver DirectControl t dt x in
     (forall i, x' i = x i + dt * k i) /\ motion_at_free p (t + dt) x' k /\
     forall i, (i < p_n p)%nat -> p_ess p i = true -> x' i = p_g p (t + dt) i) /\
  (let (x', k) := backward_euler1 p solver RateControl t dt x in
     (forall i, x' i = x i + dt * k i) /\ motion_at_free p (t + dt) x' k /\
     forall i, (i < p_n p)%nat -> p_ess p i = true -> k i = rate p eps1 (t + dt) i).
Proof. exact euler1_ok. Qed.
Print Assumptions C48_first_order.
(** FullControl promises the prescribed value at the end of the step; the first-order integrator does not deliver it *)
Theorem C48_full_control_refuted : forall solver, solves drift solver ->
  fst (backward_euler1 drift solver FullControl 0 1 (fun _ => 0)) 0%nat <> p_g drift (0 + 1) 0%nat.
Proof. exact full_control_first_order. Qed.
Print Assumptions C48_full_control_refuted.
Example C48_hypotheses : solves drift (fun _ _ _ g => g).
Proof. exact drift_solves. Qed.

(** ** the integrator keeps its acceleration across a reset: the same initial state gives another answer *)
Theorem C05_integrator_memory_refuted : exists x v x1 v1 a1 x2 v2 a2,
  newmark_step spring spring_solver (1 / 4) (1 / 2) RateControl None 0 0 1 x v = Some (x1, v1, a1) /\
  second_run x v = Some (x2, v2, a2) /\ x1 0%nat <> x2 0%nat.
Proof. exact reset_keeps_memory. Qed.
Print Assumptions C05_integrator_memory_refuted.
