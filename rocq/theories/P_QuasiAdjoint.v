(** * C74: sensitivities of quasi-static runs, and C16 for all arguments at once *)
From Coq Require Import NArith ZArith Reals List Lia Bool.
From Coquelicot Require Import Coquelicot.
From Verif Require Import Prelude DofCodec Sums Restriction Csr Kernels FunctionalModel FunctionalGrad FunctionalTotal Assembly FunctionalEx Tensor MatAlg BoundaryElim Adjoint AdjointDeriv
  QuasiStatic QuasiAdjoint QuasiGradient QuasiAdjointEx.
Import ListNotations.
Local Open Scope R_scope.

(** C16.  When all arguments move at once, the derivative of the residual is the sum of the gradients with respect to the single arguments *)
Theorem C16_all_arguments : forall St (f : functional St) lsize tsize t (Lc : R -> nat -> list R) dL (m : mem St) W,
  wf f lsize tsize -> (forall eps w, length (Lc eps w) = tsize w) -> (forall w, length (dL w) = tsize w) ->
  (forall Ig w, In Ig (f_integrals f) -> In w (i_active Ig) -> (w < W)%nat) ->
  (forall w i, is_derive (fun eps => nth i (Lc eps w) 0) 0 (nth i (dL w) 0)) -> ad_joint f t (Lc 0) m ->
  exists (res : R -> list R) (act : nat -> list R),
    (forall eps, exists m', evaluate f t None false (Lc eps) lsize m = Ok (res eps, m')) /\
    (forall w, exists mw, evaluate f t (Some w) false (Lc 0) lsize m = Ok (res 0, mw) /\ action f w mw (dL w) lsize = Ok (act w)) /\
    forall k, (k < lsize)%nat -> is_derive (fun eps => nth k (res eps) 0) 0 (sumn W (fun w => nth k (act w) 0)).
Proof. exact @all_arguments. Qed.
Print Assumptions C16_all_arguments.
Example C16_all_arguments_nonvacuous : exists (res : R -> list R) (act : nat -> list R),
  (forall eps, exists m', evaluate (node elastic) 0 None false (fun w => match w with O => [2 + eps; 1] | _ => [1 + eps * 5; 0] end) 2 (fresh 0) = Ok (res eps, m')) /\
  (forall w, exists mw, evaluate (node elastic) 0 (Some w) false (fun w => match w with O => [2 + 0; 1] | _ => [1 + 0 * 5; 0] end) 2 (fresh 0) = Ok (res 0, mw) /\
     action (node elastic) w mw (match w with O => [1; 0] | _ => [5; 0] end) 2 = Ok (act w)) /\
  forall k, (k < 2)%nat -> is_derive (fun eps => nth k (res eps) 0) 0 (nth k (act 0%nat) 0 + nth k (act 1%nat) 0).
Proof. exact both_arguments. Qed.

(** tangent and assembled parameter gradient are the joint derivative of the nodal forces by displacement and parameter *)
Theorem C74_joint_derivative : forall St (f : functional St) n c tsize w np cw t others m u p A P, ready f n c tsize -> ready_for f n tsize w np cw ->
  fitting tsize others -> length u = n -> length p = np -> ad_joint f t (inputs (with_param others w p) u) m ->
  tangent f n c t (with_param others w p) m u A -> param_tangent f n w cw t (with_param others w p) m u P ->
  jacobian3 n np (fun u _ p => nodal f n w np t others m u p) (entries u) vz (entries p) A (fun _ _ => 0) P.
Proof. exact (fun St f n c tsize w np cw t others m u p A P R0 Rw => @joint_derivative St f n c tsize R0 w np cw Rw t others m u p A P). Qed.
Print Assumptions C74_joint_derivative.

(** going back through all steps adds up, over the steps, the sensitivities of the single equilibria: adjoint system with the tangent at the
    checkpointed displacement and time of the step, parameter gradient at the same place, for every material and history; both are taken with
    the material state and the parameters at the end of the run *)
Theorem C74_pass : forall St (f : functional St) n c bcs tsize w np cw lin dts saved others times us N loads k b,
  ready f n c tsize -> ready_for f n tsize w np cw -> fitting tsize others ->
  (forall k, (k < N)%nat -> exists dt, nth_error dts k = Some dt /\ forall j, (S j = k)%nat -> times j = times k - dt) ->
  (forall k, (k < N)%nat -> nth_error saved (S k) = Some (us k) /\ length (us k) = n) ->
  (k <= N)%nat -> b_cycle b = k -> (forall j, (S j = k)%nat -> b_t b = times j) ->
  exists total, reverse_pass f n c bcs w cw lin dts saved others loads k b = Ok total /\
    exists A P (ms : nat -> mem St), (forall j, (j < k)%nat -> tangent f n c (times j) others (ms j) (us j) (A j) /\
      param_tangent f n w cw (times j) others (ms j) (us j) (P j) /\ same_material (ms j) (b_mem b)) /\
    forall i, total i = sumn k (fun j => sensitivity n (P j) (static_adjoint n bcs lin (A j) (loads j)) i).
Proof. exact (fun St f n c bcs tsize w np cw lin dts saved others times us N loads k b R0 Rw Fo Hd Hs => @pass_sum St f n c bcs tsize R0 w np cw Rw lin dts saved others Fo times us N Hd Hs loads k b). Qed.
Print Assumptions C74_pass.

(** for materials which do not look at their state and parameters which stay, the result is the derivative of the objective along the runs
    (the objective is a sum over steps of functions of displacement and parameter, whose gradients [qu] are the adjoint loads) *)
Theorem C74_gradient_partial : forall St (f : functional St) n c bcs target tsize, ready f n c tsize -> forall w np cw, ready_for f n tsize w np cw ->
  forall others, fitting tsize others ->
  forall lin dts (p : R -> list R) dp (loads : R -> list load) (runs : R -> list (state (St := St))) s0 (Q : nat -> vec -> vec -> R) qu qp du,
  memoryless f -> sound n tsize s0 -> s_cycle s0 = 0%nat -> s_saved s0 = [s_u s0] ->
  (forall eps, length (p eps) = np) -> curve np (fun eps => entries (p eps)) dp ->
  (forall eps, map l_dt (loads eps) = dts /\ List.Forall (fun ld => l_others ld = with_param others w (p eps)) (loads eps)) ->
  (forall eps, run_steps f n c (any bcs) target (loads eps) s0 = Ok (runs eps)) ->
  let N := length dts in let u := fun eps k => s_u (at_step s0 (runs eps) k) in let t := fun k => s_t (at_step s0 (runs 0) k) in
  (forall k, (k < N)%nat -> curve n (fun eps => entries (u eps k)) (du k)) ->
  (forall k i, (k < N)%nat -> (i < n)%nat -> any bcs i = false -> locally 0 (fun eps => nth i (s_react (at_step s0 (runs eps) k)) 0 = 0)) ->
  (forall k i, (k < N)%nat -> (i < n)%nat -> any bcs i = true -> locally 0 (fun eps => nth i (u eps k) 0 = target (t k) i)) ->
  (forall k m, (k < N)%nat -> ad_joint f (t k) (inputs (with_param others w (p 0)) (u 0 k)) m) ->
  (forall k m A, (k < N)%nat -> tangent f n c (t k) (with_param others w (p 0)) m (u 0 k) A -> lin_ok n bcs lin A) ->
  (forall k, (k < N)%nat -> gradient3 n np (fun u _ p => Q k u p) (entries (u 0 k)) vz (entries (p 0)) (qu k) vz (qp k)) ->
  exists total, reverse_pass f n c bcs w cw lin dts (s_saved (final s0 (runs 0))) (with_param others w (p 0)) qu N (turn (final s0 (runs 0))) = Ok total /\
    is_derive (fun eps => sumn N (fun k => Q k (entries (u eps k)) (entries (p eps)))) 0 (vdot np (fun i => total i + sumn N (fun k => qp k i)) dp).
Proof. exact @run_gradient. Qed.
Print Assumptions C74_gradient_partial.
Example C74_gradient_nonvacuous : exists c cw runs total, ready (node elastic) 2 c two /\ ready_for (node elastic) 2 two 0 2 cw /\
  (forall eps, run_steps (node elastic) 2 c held moved (elastic_loads eps) at_rest = Ok (runs eps)) /\
  reverse_pass (node elastic) 2 c [held] 0 cw solve_free [1; 1] (s_saved (final at_rest (runs 0))) (with_p (1 + 0))
    (fun k i => if Nat.eqb i 0 then 2 * (match k with O => 2 | _ => 3 end) else 0) 2 (turn (final at_rest (runs 0))) = Ok total /\
  is_derive (fun eps => sumn 2 (fun k => square k (entries (s_u (at_step at_rest (runs eps) k))) (entries [1 + eps; 0]))) 0 (total 0%nat) /\ total 0%nat = 10.
Proof. exact gradient_case. Qed.

(** reactions of the last step: load, one step back and both sensitivities give their derivative *)
Theorem C74_last_reaction_partial : forall St (f : functional St) n c bcs target tsize, ready f n c tsize -> forall w np cw, ready_for f n tsize w np cw ->
  forall others, fitting tsize others ->
  forall lin dts (p : R -> list R) dp (loads : R -> list load) (runs : R -> list (state (St := St))) s0 d du l,
  memoryless f -> sound n tsize s0 -> s_cycle s0 = 0%nat -> s_saved s0 = [s_u s0] ->
  (forall eps, length (p eps) = np) -> curve np (fun eps => entries (p eps)) dp ->
  (forall eps, map l_dt (loads eps) = dts /\ List.Forall (fun ld => l_others ld = with_param others w (p eps)) (loads eps)) ->
  (forall eps, run_steps f n c (any bcs) target (loads eps) s0 = Ok (runs eps)) ->
  let N := length dts in let u := fun eps k => s_u (at_step s0 (runs eps) k) in let t := fun k => s_t (at_step s0 (runs 0) k) in
  N = S l ->
  curve n (fun eps => entries (u eps l)) du ->
  (forall i, (i < n)%nat -> any bcs i = false -> locally 0 (fun eps => nth i (s_react (at_step s0 (runs eps) l)) 0 = 0)) ->
  (forall i, (i < n)%nat -> any bcs i = true -> locally 0 (fun eps => nth i (u eps l) 0 = target (t l) i)) ->
  (forall m, ad_joint f (t l) (inputs (with_param others w (p 0)) (u 0 l)) m) ->
  (forall m A, tangent f n c (t l) (with_param others w (p 0)) m (u 0 l) A -> lin_ok n bcs lin A) ->
  exists b0 b1 g h, reaction_adjoint_load f n c (with_param others w (p 0)) d (turn (final s0 (runs 0))) = Ok b0 /\
    reverse_step f n c bcs lin dts (s_saved (final s0 (runs 0))) (with_param others w (p 0)) b0 = Ok b1 /\
    timestep_sensitivity f n w cw (with_param others w (p 0)) b1 = Ok g /\
    dual_sensitivity f n w cw (with_param others w (p 0)) d (remember (snd g) b1) = Ok h /\
    is_derive (fun eps => vdot n d (entries (s_react (at_step s0 (runs eps) l)))) 0 (vdot np (fun i => fst g i + fst h i) dp).
Proof. exact @last_reaction. Qed.
Print Assumptions C74_last_reaction_partial.
Example C74_last_reaction_nonvacuous : exists c cw runs, ready (node elastic) 2 c two /\ ready_for (node elastic) 2 two 0 2 cw /\
  (forall eps, run_steps (node elastic) 2 c held moved (elastic_loads eps) at_rest = Ok (runs eps)) /\
  exists b0 b1 g h, reaction_adjoint_load (node elastic) 2 c (with_p (1 + 0)) (at_held 0%nat) (turn (final at_rest (runs 0))) = Ok b0 /\
    reverse_step (node elastic) 2 c [held] solve_free [1; 1] (s_saved (final at_rest (runs 0))) (with_p (1 + 0)) b0 = Ok b1 /\
    timestep_sensitivity (node elastic) 2 0 cw (with_p (1 + 0)) b1 = Ok g /\
    dual_sensitivity (node elastic) 2 0 cw (with_p (1 + 0)) (at_held 0%nat) (remember (snd g) b1) = Ok h /\ fst g 0%nat + fst h 0%nat = 6.
Proof. exact reaction_case. Qed.

(** a material with memory: the derivative of the final displacement by the parameter is 3/2, the reverse pass returns 1 *)
Theorem C74_memory_refuted : exists c cw runs total, ready (node creeping) 2 c two /\ ready_for (node creeping) 2 two 0 2 cw /\
  (forall t Ls m, ad_joint (node creeping) t Ls m) /\
  (forall eps, run_steps (node creeping) 2 c (any [held]) moved (creeping_loads eps) at_rest = Ok (runs eps)) /\
  equilibrium_runs 2 [held] moved runs /\ (forall t m a b A, tangent (node creeping) 2 c t (with_p (1 + 0)) m [a; b] A -> lin_ok 2 [held] solve_free A) /\
  reverse_pass (node creeping) 2 c [held] 0 cw solve_free [1; 1] (s_saved (final at_rest (runs 0))) (with_p (1 + 0)) last_only 2 (turn (final at_rest (runs 0))) = Ok total /\
  is_derive (fun eps => nth 0 (s_u (at_step at_rest (runs eps) 1)) 0) 0 (3 / 2) /\ total 0%nat = 1.
Proof. exact memory_matters. Qed.
Print Assumptions C74_memory_refuted.

(** a parameter changed between the steps: the step is linearised with the parameter of the end of the run *)
Theorem C74_changed_parameters_refuted : exists c cw runs total, ready (node spring) 2 c two /\ ready_for (node spring) 2 two 0 2 cw /\ memoryless (node spring) /\
  (forall t Ls m, ad_joint (node spring) t Ls m) /\
  (forall eps, run_steps (node spring) 2 c (any [held]) moved (spring_loads eps) at_rest = Ok (runs eps)) /\
  (forall eps, -1 < eps -> equilibrium_runs 2 [held] moved (fun _ => runs eps)) /\
  (forall t m a b A, tangent (node spring) 2 c t (with_p 2) m [a; b] A -> lin_ok 2 [held] solve_free A) /\
  reverse_pass (node spring) 2 c [held] 0 cw solve_free [1; 1] (s_saved (final at_rest (runs 0))) (with_p 2) first_only 2 (turn (final at_rest (runs 0))) = Ok total /\
  is_derive (fun eps => nth 0 (s_u (at_step at_rest (runs eps) 0)) 0) 0 (-1) /\ total 0%nat = - (1 / 2).
Proof. exact parameters_in_force. Qed.
Print Assumptions C74_changed_parameters_refuted.

(** reactions of more than one step: the load of a step is made with the displacement of the step after it *)
Theorem C74_reactions_refuted : exists c cw runs total, ready (node elastic) 2 c two /\ ready_for (node elastic) 2 two 0 2 cw /\ memoryless (node elastic) /\
  (forall t Ls m, ad_joint (node elastic) t Ls m) /\
  (forall eps, run_steps (node elastic) 2 c (any [held]) moved (elastic_loads eps) at_rest = Ok (runs eps)) /\
  equilibrium_runs 2 [held] moved runs /\ (forall t m a b A, tangent (node elastic) 2 c t (with_p (1 + 0)) m [a; b] A -> lin_ok 2 [held] solve_free A) /\
  reaction_pass (node elastic) 2 c [held] 0 cw solve_free [1; 1] (s_saved (final at_rest (runs 0))) (with_p (1 + 0)) at_held 2 (turn (final at_rest (runs 0))) = Ok total /\
  is_derive (fun eps => sumn 2 (fun k => vdot 2 (at_held k) (entries (s_react (at_step at_rest (runs eps) k))))) 0 10 /\ total 0%nat = 12.
Proof. exact reactions_lag. Qed.
Print Assumptions C74_reactions_refuted.
