(** * C76: transient runs of a solid and of a heat conductor *)
From Coq Require Import NArith ZArith Reals List Lia Bool.
From Coquelicot Require Import Coquelicot.
From Verif Require Import Prelude DofCodec Sums Restriction Csr Kernels FunctionalModel FunctionalGrad FunctionalTotal Assembly FunctionalEx Tensor MatAlg BoundaryElim Newton Adjoint AdjointDeriv Ode
  QuasiStatic QuasiNewton QuasiBalance QuasiAdjoint QuasiEx Transient TransientFacts TransientEx.
Import ListNotations.
Local Open Scope R_scope.

(** every dynamic step succeeds, for any nonlinear solver, and does what [moves] says: times, cycle and checkpoints advance, the solves are those of
    the integrator, and the reactions and the material state are those of one evaluation at the new displacement, acceleration and time *)
Theorem C76_step : forall St (f : functional St) n c cm bc target tsize it en ld s, ready f n c tsize -> ready_for f n tsize 0 n cm ->
  params_fit tsize (k_params ld) -> step_defined it en (k_dt ld) ->
  exists s' ok, dynamic_step f n c cm bc target it en ld s = Ok (s', ok) /\ moves f n c cm bc target it en ld s s' ok.
Proof. exact (fun St f n c cm bc target tsize it en ld s R0 Rm => @dynamic_step_ok St f n c cm bc target tsize R0 Rm it en ld s). Qed.
Print Assumptions C76_step.
Example C76_step_nonvacuous : exists c s', ready beam 3 c bar_sizes /\ ready_for beam 3 bar_sizes 0 3 c /\
  dynamic_step beam 3 c c ends moving_end average_acceleration DirectControl two_seconds beam_start = Ok (s', true) /\
  d_u s' = [0; 13 / 5; 6] /\ d_v s' = [0; 13 / 5; 6] /\ d_a s' = [0; 3 / 5; 6] /\ d_react s' = [- 59 / 20; 0; 91 / 20] /\
  creep (d_mem s') 0%nat = 13 / 10 /\ creep (d_mem s') 1%nat = 17 / 10.
Proof. exact beam_newmark. Qed.

(** during a solve the nonlinear solver meets residuals and Jacobians which are functions of the unknown rate alone *)
Theorem C76_solver_sees : forall St (f : functional St) n c cm bc tsize t params c0 w m0 F J, ready f n c tsize -> ready_for f n tsize 0 n cm ->
  params_fit tsize params -> of_motion f n c cm bc m0 t params c0 w F J ->
  forall s m, same_material m m0 -> exists m', solve_rate f n c cm bc t params c0 w s m = Ok (pure F J s, m') /\ same_material m' m0.
Proof. exact (fun St f n c cm bc tsize t params c0 w m0 F J R0 Rm => @solve_rate_pure St f n c cm bc tsize R0 Rm t params c0 w m0 F J). Qed.
Print Assumptions C76_solver_sees.
Theorem C76_solver_input : forall St (f : functional St) n c cm bc tsize t params c0 w m, ready f n c tsize -> ready_for f n tsize 0 n cm ->
  params_fit tsize params -> exists F J, of_motion f n c cm bc m t params c0 w F J.
Proof. exact (fun St f n c cm bc tsize t params c0 w m R0 Rm => @motion_exists St f n c cm bc tsize R0 Rm t params c0 w m). Qed.
Print Assumptions C76_solver_input.
Example C76_params_nonvacuous : params_fit bar_sizes no_params.
Proof. exact no_params_fit. Qed.

(** and the Jacobian is the derivative of the residual *)
Theorem C76_jacobian : forall St (f : functional St) n c cm tsize t params c0 w m x dx K M (L : R -> list R) i, ready f n c tsize -> ready_for f n tsize 0 n cm ->
  params_fit tsize params -> ad_joint f t (inputs (inputs params (tab n x)) (tab n (vadd c0 w x))) m ->
  tangent f n c t (inputs params (tab n x)) m (tab n (vadd c0 w x)) K -> param_tangent f n 0 cm t (inputs params (tab n x)) m (tab n (vadd c0 w x)) M ->
  (forall eps, force f n t (inputs params (tab n (fun j => x j + eps * dx j))) m (tab n (vadd c0 w (fun j => x j + eps * dx j))) (L eps)) -> (i < n)%nat ->
  is_derive (fun eps : R => nth i (L eps) 0) 0 (mvec n (fun i j => M i j + c0 * K i j) dx i).
Proof. exact (fun St f n c cm tsize t params c0 w m x dx K M L i R0 Rm => @motion_jacobian St f n c cm tsize R0 Rm t params c0 w m x dx K M L i). Qed.
Print Assumptions C76_jacobian.
Example C76_jacobian_nonvacuous : forall t Ls m, ad_joint beam t Ls m.
Proof. exact beam_joint. Qed.

(** a converged step satisfies the update formulas of the integrator, the boundary conditions, and the equation of motion at the new time,
    displacement and acceleration, as far as the solver promises; the reactions are the nodal forces of that equation *)
Theorem C76_motion : forall St (f : functional St) n c cm bc target tsize it en ld s s' accept, ready f n c tsize -> ready_for f n tsize 0 n cm ->
  en <> FullControl -> params_fit tsize (k_params ld) -> step_allowed it en (k_dt ld) ->
  trustworthy n bc accept (k_solver ld) -> dynamic_step f n c cm bc target it en ld s = Ok (s', true) ->
  (exists a, match it with Newmark _ _ => first_acceleration f n c cm bc target en ld s a true | BackwardEuler => True end /\
     kinematics n it (k_dt ld) (d_u s) (d_v s) a (d_u s') (d_v s') (d_a s')) /\
  (forall i, (i < n)%nat -> bc i = true -> obeys en target (d_t s') (d_u s') (d_v s') i) /\
  force f n (d_t s') (inputs (k_params ld) (d_a s')) (d_mem s) (d_u s') (d_react s') /\
  exists L0, let a1 := fun i => if bc i then nth i (d_a s') 0 else 0 in
    force f n (d_t s') (inputs (k_params ld) (tab n a1)) (d_mem s) (tab n (fun i => nth i (d_u s') 0 + lead it (k_dt ld) * (a1 i - nth i (d_a s') 0))) L0 /\
    accept (zeroed bc (entries L0)) (zeroed bc (entries (d_react s'))).
Proof. exact (fun St f n c cm bc target tsize it en ld s s' accept R0 Rm => @motion_balance St f n c cm bc target tsize R0 Rm it en ld s s' accept). Qed.
Print Assumptions C76_motion.
(** with serac's Newton solver: the out-of-balance force at every free dof is within the tolerance *)
Theorem C76_newton : forall St (f : functional St) n c cm bc target tsize it en ld s s' o lin, ready f n c tsize -> ready_for f n tsize 0 n cm ->
  en <> FullControl -> params_fit tsize (k_params ld) -> step_allowed it en (k_dt ld) ->
  keeps_unit_rows n bc lin -> k_solver ld = newton_solver n lin o -> dynamic_step f n c cm bc target it en ld s = Ok (s', true) ->
  exists L0, let a1 := fun i => if bc i then nth i (d_a s') 0 else 0 in
    force f n (d_t s') (inputs (k_params ld) (tab n a1)) (d_mem s) (tab n (fun i => nth i (d_u s') 0 + lead it (k_dt ld) * (a1 i - nth i (d_a s') 0))) L0 /\
    forall i, (i < n)%nat -> bc i = false -> Rabs (nth i (d_react s') 0) <= Rmax (o_rel o * norm2 n (zeroed bc (entries L0))) (o_abs o).
Proof. exact (fun St f n c cm bc target tsize it en ld s s' o lin R0 Rm => @newton_motion St f n c cm bc target tsize R0 Rm it en ld s s' o lin). Qed.
Print Assumptions C76_newton.
Example C76_newton_nonvacuous : keeps_unit_rows 3 ends middle_inverse.
Proof. exact middle_keeps. Qed.

(** the acceleration from which the first Newmark step starts balances the forces at the operator's time *)
Theorem C76_start : forall St (f : functional St) n c cm bc target tsize en t u v params sv m accept a, ready f n c tsize -> ready_for f n tsize 0 n cm ->
  params_fit tsize params -> trustworthy n bc accept sv -> rate_found f n c cm bc target en t 0 0 u v params sv m a true ->
  exists L0 L, let x := tab n (fun i => if bc i then target t i else u i) in
    force f n t (inputs params (tab n (fun i => if bc i then a i else 0))) m x L0 /\ force f n t (inputs params (tab n a)) m x L /\
    accept (zeroed bc (entries L0)) (zeroed bc (entries L)) /\ forall i, (i < n)%nat -> bc i = true -> a i = curvature target eps2 t i.
Proof. exact (fun St f n c cm bc target tsize en t u v params sv m accept a R0 Rm => @initial_balance St f n c cm bc target tsize R0 Rm en t u v params sv m accept a). Qed.
Print Assumptions C76_start.
(** but the operator's time is 0 before the first step, whatever time the module starts at: a body in equilibrium at start time 5, which no
    acceleration should leave, is given one, which leaves an out-of-balance force of 15 *)
Theorem C76_start_time_refuted : exists c, ready beam 3 c bar_sizes /\ ready_for beam 3 bar_sizes 0 3 c /\
  (forall i, (i < 3)%nat -> ends i = true -> nth i (d_u at_five) 0 = moving_end (d_t at_five) i) /\
  (exists L, force beam 3 (d_t at_five) (inputs no_params (tab 3 (fun i => curvature moving_end eps2 (d_t at_five) i))) (d_mem at_five) (d_u at_five) L /\ nth 1 L 0 = 0) /\
  exists s' a L, dynamic_step beam 3 c c ends moving_end average_acceleration DirectControl two_seconds at_five = Ok (s', true) /\
    first_acceleration beam 3 c c ends moving_end DirectControl two_seconds at_five a true /\
    kinematics 3 average_acceleration 2 (d_u at_five) (d_v at_five) a (d_u s') (d_v s') (d_a s') /\
    force beam 3 (d_t at_five) (inputs no_params (tab 3 a)) (d_mem at_five) (d_u at_five) L /\ nth 1 L 0 = - 15.
Proof. exact start_time_ignored. Qed.
Print Assumptions C76_start_time_refuted.

(** a Newmark step of length zero keeps displacement and velocity and finds the acceleration which balances the forces at the module's time, whatever
    time the operator held *)
Theorem C76_still : forall St (f : functional St) n c cm bc target tsize beta gamma en ld s s' accept, ready f n c tsize -> ready_for f n tsize 0 n cm ->
  en <> FullControl -> params_fit tsize (k_params ld) -> k_dt ld = 0 -> trustworthy n bc accept (k_solver ld) ->
  dynamic_step f n c cm bc target (Newmark beta gamma) en ld s = Ok (s', true) ->
  d_t s' = d_t s /\ (forall i, (i < n)%nat -> nth i (d_u s') 0 = nth i (d_u s) 0 /\ nth i (d_v s') 0 = nth i (d_v s) 0) /\
  exists L0 L, let x := tab n (fun i => if bc i then target (d_t s') i else nth i (d_u s') 0) in
    force f n (d_t s') (inputs (k_params ld) (tab n (fun i => if bc i then nth i (d_a s') 0 else 0))) (d_mem s) x L0 /\
    force f n (d_t s') (inputs (k_params ld) (d_a s')) (d_mem s) x L /\
    accept (zeroed bc (entries L0)) (zeroed bc (entries L)) /\ forall i, (i < n)%nat -> bc i = true -> nth i (d_a s') 0 = curvature target eps2 (d_t s') i.
Proof. exact (fun St f n c cm bc target tsize beta gamma en ld s s' accept R0 Rm => @still_balance St f n c cm bc target tsize R0 Rm beta gamma en ld s s' accept). Qed.
Print Assumptions C76_still.
Example C76_still_nonvacuous : exists c s', ready beam 3 c bar_sizes /\ ready_for beam 3 bar_sizes 0 3 c /\
  dynamic_step beam 3 c c ends moving_end average_acceleration DirectControl no_time off_five = Ok (s', true) /\
  d_u s' = [0; 9; 15] /\ d_v s' = [0; 0; 0] /\ d_a s' = [0; -4; 0].
Proof. exact beam_still. Qed.

(** over a run, the material of a quadrature point is called exactly once per step, with the displacement and the acceleration found in that step *)
Theorem C76_material_history : forall St (f : functional St) n c cm bc target tsize it en loads s l, ready f n c tsize -> ready_for f n tsize 0 n cm ->
  pushes_fit tsize it en loads -> dynamic_run f n c cm bc target it en loads s = Ok l ->
  forall k Ig g G e q, nth_error (f_integrals f) k = Some Ig -> nth_error (i_geoms Ig) g = Some G -> (e < length (gk_elems G))%nat -> (q < gk_nq G)%nat ->
  m_q (d_mem (last_motion s l)) k g e q = motion_history f Ig G g e q loads l (m_q (d_mem s) k g e q).
Proof. exact (fun St f n c cm bc target tsize it en loads s l R0 Rm => @motion_material_history St f n c cm bc target tsize R0 Rm it en loads s l). Qed.
Print Assumptions C76_material_history.
Theorem C76_run : forall St (f : functional St) n c cm bc target tsize it en loads, ready f n c tsize -> ready_for f n tsize 0 n cm ->
  pushes_fit tsize it en loads -> forall s, exists l, dynamic_run f n c cm bc target it en loads s = Ok l /\ motions f n c cm bc target it en loads s l.
Proof. exact (fun St f n c cm bc target tsize it en loads R0 Rm => @dynamic_run_ok St f n c cm bc target tsize R0 Rm it en loads). Qed.
Print Assumptions C76_run.
(** two runs which find the same displacements and accelerations agree in reactions, material state, times and cycles, whatever integrators,
    boundary condition treatments and solvers found them *)
Theorem C76_solver_invisible : forall St (f : functional St) n c cm bc target tsize it it' en en' loads loads' s1 s2 l1 l2, ready f n c tsize -> ready_for f n tsize 0 n cm ->
  pushes_fit tsize it en loads -> pushes_fit tsize it' en' loads' -> List.Forall2 same_push loads loads' -> same_motion s1 s2 ->
  dynamic_run f n c cm bc target it en loads s1 = Ok l1 -> dynamic_run f n c cm bc target it' en' loads' s2 = Ok l2 ->
  map d_u l1 = map d_u l2 -> map d_a l1 = map d_a l2 -> List.Forall2 same_motion l1 l2.
Proof.
  exact (fun St f n c cm bc target tsize it it' en en' loads loads' s1 s2 l1 l2 R0 Rm =>
    @dynamics_solver_invisible St f n c cm bc target tsize R0 Rm it it' en en' loads loads' s1 s2 l1 l2).
Qed.
Print Assumptions C76_solver_invisible.
Example C76_run_nonvacuous : pushes_fit bar_sizes average_acceleration DirectControl [two_seconds; one_second].
Proof. exact beam_pushes. Qed.

(** heat: a converged transient step satisfies the backward Euler formula, the boundary conditions and the heat balance at the new time *)
Theorem C76_heat : forall St (f : functional St) n c cm bc target tsize en ld s s' accept, ready f n c tsize -> ready_for f n tsize 0 n cm ->
  en <> FullControl -> params_fit tsize (k_params ld) -> k_dt ld <> 0 -> trustworthy n bc accept (k_solver ld) ->
  heat_step f n c cm bc target en ld s = Ok (s', true) ->
  (forall i, (i < n)%nat -> nth i (w_u s') 0 = nth i (w_u s) 0 + k_dt ld * nth i (w_rate s') 0) /\
  (forall i, (i < n)%nat -> bc i = true -> heat_obeys target en (w_t s') (w_u s') (w_rate s') i) /\
  exists L0 L, let r0 := fun i => if bc i then nth i (w_rate s') 0 else nth i (w_rate s) 0 in
    force f n (w_t s') (inputs (k_params ld) (tab n r0)) (w_mem s) (tab n (fun i => nth i (w_u s) 0 + k_dt ld * r0 i)) L0 /\
    force f n (w_t s') (inputs (k_params ld) (w_rate s')) (w_mem s) (w_u s') L /\
    accept (zeroed bc (entries L0)) (zeroed bc (entries L)).
Proof. exact (fun St f n c cm bc target tsize en ld s s' accept R0 Rm => @heat_balance St f n c cm bc target tsize R0 Rm en ld s s' accept). Qed.
Print Assumptions C76_heat.
Theorem C76_heat_step : forall St (f : functional St) n c cm bc target tsize en ld s, ready f n c tsize -> ready_for f n tsize 0 n cm -> params_fit tsize (k_params ld) ->
  exists s' ok, heat_step f n c cm bc target en ld s = Ok (s', ok) /\ w_t s' = w_t s + k_dt ld /\ w_cycle s' = Datatypes.S (w_cycle s) /\
    same_material (w_mem s') (w_mem s) /\ w_saved s' = w_saved s ++ [(w_u s', w_rate s')] /\
    exists k, let g := setup1 (held_dofs n bc target) en (w_t s') (k_dt ld) (entries (w_u s)) in
      (forall F J, of_motion f n c cm bc (w_mem s) (w_t s') (k_params ld) (k_dt ld) (fst g) F J ->
         pure F J (k_solver ld (merge (held_dofs n bc target) (snd g) (entries (w_rate s)))) = (k, ok)) /\
      w_rate s' = tab n k /\ w_u s' = tab n (vadd (k_dt ld) (entries (w_u s)) k).
Proof. exact (fun St f n c cm bc target tsize en ld s R0 Rm => @heat_step_ok St f n c cm bc target tsize R0 Rm en ld s). Qed.
Print Assumptions C76_heat_step.
Example C76_heat_nonvacuous : exists c s', ready beam 3 c bar_sizes /\ ready_for beam 3 bar_sizes 0 3 c /\
  heat_step beam 3 c c ends moving_end DirectControl one_second cold = Ok (s', true) /\ w_u s' = [0; 13 / 10; 3] /\ w_rate s' = [0; 13 / 10; 3].
Proof. exact wall_heats. Qed.

(** steady heat: a converged step satisfies the boundary conditions and the balance at the new time, with the temperature rate which the module holds *)
Theorem C76_steady : forall St (f : functional St) n c cm bc target tsize ld s s' accept, ready f n c tsize -> ready_for f n tsize 0 n cm ->
  params_fit tsize (k_params ld) -> length (w_rate s) = n -> trustworthy n bc accept (k_solver ld) ->
  steady_step f n c bc target ld s = Ok (s', true) ->
  (forall i, (i < n)%nat -> bc i = true -> nth i (w_u s') 0 = target (w_t s') i) /\
  exists L0 L, force f n (w_t s') (inputs (k_params ld) (w_rate s)) (w_mem s) (tab n (fun i => if bc i then target (w_t s') i else nth i (w_u s) 0)) L0 /\
    force f n (w_t s') (inputs (k_params ld) (w_rate s)) (w_mem s) (w_u s') L /\
    accept (zeroed bc (entries L0)) (zeroed bc (entries L)).
Proof. exact (fun St f n c cm bc target tsize ld s s' accept R0 Rm => @steady_balance St f n c cm bc target tsize R0 Rm ld s s' accept). Qed.
Print Assumptions C76_steady.
Theorem C76_steady_step : forall St (f : functional St) n c cm bc target tsize ld s, ready f n c tsize -> ready_for f n tsize 0 n cm ->
  params_fit tsize (k_params ld) -> length (w_rate s) = n ->
  exists s' ok, steady_step f n c bc target ld s = Ok (s', ok) /\ w_t s' = w_t s + k_dt ld /\ w_cycle s' = Datatypes.S (w_cycle s) /\
    same_material (w_mem s') (w_mem s) /\ w_saved s' = w_saved s ++ [(w_u s', w_rate s')] /\ w_rate s' = w_rate s /\
    exists x, (forall F J, of_material f n c bc (w_mem s) (w_t s') (inputs (k_params ld) (w_rate s)) F J ->
         pure F J (k_solver ld (fun i => if bc i then target (w_t s') i else entries (w_u s) i)) = (x, ok)) /\ w_u s' = tab n x.
Proof. exact (fun St f n c cm bc target tsize ld s R0 Rm => @steady_step_ok St f n c cm bc target tsize R0 Rm ld s). Qed.
Print Assumptions C76_steady_step.
Example C76_steady_nonvacuous : exists c s', ready beam 3 c bar_sizes /\ ready_for beam 3 bar_sizes 0 3 c /\
  steady_step beam 3 c ends moving_end one_second cold = Ok (s', true) /\ w_u s' = [0; 2; 3].
Proof. exact wall_steady. Qed.
