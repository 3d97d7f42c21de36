(** * C78: sensitivities of dynamic runs *)
From Coq Require Import NArith ZArith Reals List Lia Bool.
From Coquelicot Require Import Coquelicot.
From Verif Require Import Prelude DofCodec Sums Restriction Csr Kernels FunctionalModel FunctionalGrad FunctionalTotal Assembly FunctionalEx Tensor MatAlg BoundaryElim Newton Adjoint AdjointDeriv Ode
  QuasiStatic QuasiNewton QuasiBalance QuasiAdjoint QuasiGradient QuasiEx QuasiAdjointEx Transient TransientFacts JointRate HeatBack HeatGradient HeatBackEx MotionBack MotionGradient MotionBackEx.
Import ListNotations.
Local Open Scope R_scope.

(** the reverse pass of the module is the adjoint recursion (C25) on the steps of the run, each linearised at the displacement, the acceleration and the time at
    which that step ended, with the size it had and the size of the step after it *)
Theorem C78_motion_pass : forall St (f : functional St) n c cm bcs tsize w np cw lin dts saved params times us vs acs qu qv qa, ready f n c tsize -> ready_for f n tsize 0 n cm ->
  ready_for f n tsize (S w) np cw -> params_fit tsize params ->
  (forall k, (S k < length dts)%nat -> times k = times (S k) - nth (S k) dts 0) ->
  (forall k, (k < length dts)%nat -> nth_error saved (S k) = Some (us k, vs k, acs k) /\ length (us k) = n /\ length (acs k) = n) ->
  forall k (b : receding St) a, (k <= length dts)%nat -> z_cycle b = k -> (forall j, (S j = k)%nat -> z_t b = times j) ->
  z_U b = na_U a -> z_V b = na_V a -> z_vl b = na_vload a -> z_al b = na_aload a ->
  exists steps total b', motion_pass f n c cm bcs w cw lin dts saved params qu qv qa k b = Ok (total, b') /\ length steps = k /\
    (forall j s, nth_error steps j = Some s -> nth_error dts j = Some (s_dt s) /\ s_qu s = qu j /\ s_qv s = qv j /\ s_qa s = qa j /\
       linearises_motion f n c cm w cw (times j) params (z_mem b) (us j) (acs j) s) /\
    let a' := recede n bcs lin (nth k dts 0) a steps in
    z_U b' = na_U a' /\ z_V b' = na_V a' /\
    forall i, total i = total_sensitivity n s_P steps (na_lambdas a') i.
Proof.
  exact (fun St f n c cm bcs tsize w np cw lin dts saved params times us vs acs qu qv qa R0 Rm Rw Fp Htm Hsv =>
    @motion_pass_ok St f n c cm bcs tsize R0 Rm w np cw Rw lin dts saved params Fp times us vs acs Htm Hsv qu qv qa).
Qed.
Print Assumptions C78_motion_pass.
(** from the end of the run with no load yet, that recursion is the one of C25 *)
Theorem C78_whole_pass : forall n bcs lin steps, recede n bcs lin 0 at_end steps = newmark_reverse n bcs lin steps.
Proof. exact recede_all. Qed.
Print Assumptions C78_whole_pass.

(** for runs which start with a step of length zero, whose parameter, initial displacement and initial velocity vary with [eps], in balance at the free dofs, the total of
    the pass and its two initial condition sensitivities give the derivative of the objective.  Partial: the parameter is the same in all steps of one run, the material
    has no memory (C74_memory_refuted), the objective does not depend on the velocity (C25_velocity_objective_refuted), an acceleration load is given in every step or in
    none, and the first step has length zero (C25_first_step_refuted) *)
Theorem C78_motion_gradient_partial : forall St (f : functional St) n c cm bcs target tsize w np cw en params lin dts dts' (p : R -> list R) dp
  (s0 : R -> motion (St := St)) du0 dv0 (loads : R -> list push) (runs : R -> list (motion (St := St))) (Q : nat -> vec -> vec -> vec -> vec -> R) qu qa qp du dv da,
  ready f n c tsize -> ready_for f n tsize 0 n cm -> ready_for f n tsize (S w) np cw -> en <> FullControl -> params_fit tsize params -> memoryless f ->
  (forall eps, d_cycle (s0 eps) = 0%nat /\ d_saved (s0 eps) = [(d_u (s0 eps), d_v (s0 eps), d_a (s0 eps))] /\ d_t (s0 eps) = d_t (s0 0)) ->
  curve n (fun eps => entries (d_u (s0 eps))) du0 -> curve n (fun eps => entries (d_v (s0 eps))) dv0 ->
  (forall i, (i < n)%nat -> any bcs i = true -> du0 i = 0 /\ dv0 i = 0) ->
  (forall eps, length (p eps) = np) -> curve np (fun eps => entries (p eps)) dp -> dts = 0 :: dts' ->
  (forall eps, map k_dt (loads eps) = dts /\ List.Forall (fun ld => k_params ld = with_param params w (p eps)) (loads eps)) ->
  (forall eps, dynamic_run f n c cm (any bcs) target mean_newmark en (loads eps) (s0 eps) = Ok (runs eps)) ->
  let N := length dts in let x := fun eps k => walked (s0 eps) (runs eps) k in
  let t := fun k => d_t (x 0 k) in let z := walked_end (s0 0) (runs 0) in
  (forall k, (k < N)%nat -> curve n (fun eps => entries (d_u (x eps k))) (du k) /\ curve n (fun eps => entries (d_v (x eps k))) (dv k) /\
     curve n (fun eps => entries (d_a (x eps k))) (da k)) ->
  (forall k i, (k < N)%nat -> (i < n)%nat -> any bcs i = false -> locally 0 (fun eps => nth i (d_react (x eps k)) 0 = 0)) ->
  (forall k dt i, nth_error dts k = Some dt -> (i < n)%nat -> any bcs i = true -> locally 0 (fun eps =>
     (dt = 0 -> nth i (d_a (x eps k)) 0 = curvature target eps2 (t k) i) /\ (dt <> 0 -> obeys en target (t k) (d_u (x eps k)) (d_v (x eps k)) i))) ->
  (forall k, (k < N)%nat -> ad_joint f (t k) (inputs (inputs (with_param params w (p 0)) (d_a (x 0 k))) (d_u (x 0 k))) (d_mem z)) ->
  (forall k dt K M, nth_error dts k = Some dt -> tangent f n c (t k) (inputs (with_param params w (p 0)) (d_a (x 0 k))) (d_mem z) (d_u (x 0 k)) K ->
     param_tangent f n 0 cm (t k) (inputs (with_param params w (p 0)) (d_a (x 0 k))) (d_mem z) (d_u (x 0 k)) M ->
     lin_ok n bcs lin (fun i j => M i j + 1 / 4 * dt * dt * K i j)) ->
  (forall k, (k < N)%nat -> gradient4 n np (Q k) (entries (d_u (x 0 k))) (entries (d_v (x 0 k))) (entries (d_a (x 0 k))) (entries (p 0)) (qu k) vz (rate_part (qa k)) (qp k)) ->
  ((forall k, (k < N)%nat -> qa k <> None) \/ (forall k, (k < N)%nat -> qa k = None)) ->
  exists total b, motion_pass f n c cm bcs w cw lin dts (d_saved z) (with_param params w (p 0)) qu (fun _ => None) qa N (motion_turn z) = Ok (total, b) /\
    is_derive (fun eps => sumn N (fun k => Q k (entries (d_u (x eps k))) (entries (d_v (x eps k))) (entries (d_a (x eps k))) (entries (p eps)))) 0
      (vdot n (z_U b) du0 + vdot n (z_V b) dv0 + vdot np (fun i => total i + sumn N (fun k => qp k i)) dp).
Proof.
  exact (fun St f n c cm bcs target tsize w np cw en params lin dts dts' p dp s0 du0 dv0 loads runs Q qu qa qp du dv da R0 Rm Rw NF =>
    @motion_run_gradient St f n c cm bcs target tsize R0 Rm w np cw Rw en NF params lin dts dts' p dp s0 du0 dv0 loads runs Q qu qa qp du dv da).
Qed.
Print Assumptions C78_motion_gradient_partial.
(** a mass on a spring: two steps, of length 0 and 1; force 1 + eps, initial displacement 2 eps, initial velocity 3 eps; objective: displacement times acceleration at the
    free dof, summed over the steps *)
Example C78_motion_gradient_nonvacuous : exists c cm cw runs total b, ready (node3 wall) 2 c two /\ ready_for (node3 wall) 2 two 0 2 cm /\ ready_for (node3 wall) 2 two 1 2 cw /\
  (forall eps, dynamic_run (node3 wall) 2 c cm (any [held]) moved mean_newmark DirectControl (spring_pushes eps) (spring_start (2 * eps) (3 * eps)) = Ok (runs eps)) /\
  let x := fun eps k => walked (spring_start (2 * eps) (3 * eps)) (runs eps) k in let z := walked_end (spring_start (2 * 0) (3 * 0)) (runs 0) in
  motion_pass (node3 wall) 2 c cm [held] 0 cw solve_free [0; 1] (d_saved z) (given (1 + 0))
    (fun k i => if Nat.eqb i 0 then nth 0 (spring_a 0 k) 0 else 0) (fun _ => None) (fun k => Some (fun i => if Nat.eqb i 0 then nth 0 (spring_u 0 k) 0 else 0)) 2
    (motion_turn z) = Ok (total, b) /\
  is_derive (fun eps => sumn 2 (fun k => nth 0 (d_u (x eps k)) 0 * nth 0 (d_a (x eps k)) 0)) 0
    (2 * z_U b 0%nat + 3 * z_V b 0%nat + total 0%nat) /\ 2 * z_U b 0%nat + 3 * z_V b 0%nat + total 0%nat = 29 / 5.
Proof. exact spring_case. Qed.
