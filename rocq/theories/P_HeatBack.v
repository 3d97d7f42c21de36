(** * C77: sensitivities of transient heat conduction runs *)
From Coq Require Import NArith ZArith Reals List Lia Bool.
From Coquelicot Require Import Coquelicot.
From Verif Require Import Prelude DofCodec Sums Restriction Csr Kernels FunctionalModel FunctionalGrad FunctionalTotal Assembly FunctionalEx Tensor MatAlg BoundaryElim Newton Adjoint AdjointDeriv Ode
  QuasiStatic QuasiNewton QuasiBalance QuasiAdjoint QuasiGradient QuasiEx QuasiAdjointEx Transient TransientFacts JointRate HeatBack HeatGradient HeatBackEx.
Import ListNotations.
Local Open Scope R_scope.

(** the three matrices assembled for one state are the joint derivative of the nodal forces by temperature, temperature rate and parameter *)
Theorem C77_joint_derivative : forall St (f : functional St) n c cm tsize w np cw t params m u r p K M P, ready f n c tsize -> ready_for f n tsize 0 n cm ->
  ready_for f n tsize (S w) np cw -> params_fit tsize params -> length u = n -> length r = n -> length p = np ->
  ad_joint f t (inputs (inputs (with_param params w p) r) u) m ->
  tangent f n c t (inputs (with_param params w p) r) m u K -> param_tangent f n 0 cm t (inputs (with_param params w p) r) m u M ->
  param_tangent f n (S w) cw t (inputs (with_param params w p) r) m u P ->
  jacobian3 n np (forces_of f n w np t params m) (entries u) (entries r) (entries p) K M P.
Proof. exact (fun St f n c cm tsize w np cw t params m u r p K M P R0 Rm Rw => @joint_rate St f n c cm tsize R0 Rm w np cw Rw t params m u r p K M P). Qed.
Print Assumptions C77_joint_derivative.
Example C77_joint_derivative_nonvacuous : exists c cm cw, ready (node3 wall) 2 c two /\ ready_for (node3 wall) 2 two 0 2 cm /\ ready_for (node3 wall) 2 two 1 2 cw /\
  (forall t Ls m, ad_joint (node3 wall) t Ls m).
Proof. exact wall_ready. Qed.

(** the reverse pass of the module is the adjoint recursion (C26) on the steps of the run, each linearised at the temperature, the rate and the time at which
    that step ended, with the step size it had *)
Theorem C77_heat_pass : forall St (f : functional St) n c cm bcs tsize w np cw lin dts saved params times us rs N qu qv, ready f n c tsize -> ready_for f n tsize 0 n cm ->
  ready_for f n tsize (S w) np cw -> params_fit tsize params ->
  (forall k, (k < N)%nat -> exists dt, nth_error dts k = Some dt /\ dt <> 0 /\ forall j, (S j = k)%nat -> times j = times k - dt) ->
  (forall k, (k < N)%nat -> nth_error saved (S k) = Some (us k, rs k) /\ length (us k) = n /\ length (rs k) = n) ->
  forall k (b : cooling St) a, (k <= N)%nat -> q_cycle b = k -> (forall j, (S j = k)%nat -> q_t b = times j) -> q_mu b = ha_mu a -> q_rl b = ha_rate_load a ->
  exists steps total b', heat_pass f n c cm bcs w cw lin dts saved params qu qv k b = Ok (total, b') /\ length steps = k /\
    (forall j s, nth_error steps j = Some s -> nth_error dts j = Some (h_dt s) /\ h_qu s = qu j /\ h_qv s = qv j /\
       linearises f n c cm w cw (times j) params (q_mem b) (us j) (rs j) s) /\
    q_mu b' = ha_mu (back_from n bcs lin a steps) /\
    forall i, total i = total_sensitivity n h_P steps (ha_lambdas (back_from n bcs lin a steps)) i.
Proof.
  exact (fun St f n c cm bcs tsize w np cw lin dts saved params times us rs N qu qv R0 Rm Rw Fp Hdt Hsv =>
    @heat_pass_ok St f n c cm bcs tsize R0 Rm w np cw Rw lin dts saved params Fp times us rs N Hdt Hsv qu qv).
Qed.
Print Assumptions C77_heat_pass.

(** for runs whose parameter varies with [eps], in balance at the free dofs, the total of the pass and its initial condition sensitivity give the derivative
    of the objective.  Partial: the parameter is the same in all steps of one run, and a rate load is given in every step or in none (C26's refuted
    counterparts say what happens otherwise) *)
Theorem C77_heat_gradient_partial : forall St (f : functional St) n c cm bcs target tsize w np cw en params lin dts (p : R -> list R) dp
  (s0 : R -> warmth (St := St)) du0 (loads : R -> list push) (runs : R -> list (warmth (St := St) * bool)) (Q : nat -> vec -> vec -> vec -> R) qu qv qp du dv,
  ready f n c tsize -> ready_for f n tsize 0 n cm -> ready_for f n tsize (S w) np cw -> params_fit tsize params -> en <> FullControl ->
  (forall eps, w_cycle (s0 eps) = 0%nat /\ w_saved (s0 eps) = [(w_u (s0 eps), w_rate (s0 eps))] /\ w_t (s0 eps) = w_t (s0 0)) ->
  curve n (fun eps => entries (w_u (s0 eps))) du0 -> (en = RateControl -> forall i, (i < n)%nat -> any bcs i = true -> du0 i = 0) ->
  (forall eps, length (p eps) = np) -> curve np (fun eps => entries (p eps)) dp -> (forall k dt, nth_error dts k = Some dt -> dt <> 0) ->
  (forall eps, map k_dt (loads eps) = dts /\ List.Forall (fun ld => k_params ld = with_param params w (p eps)) (loads eps)) ->
  (forall eps, heat_run (Transient.heat_step f n c cm (any bcs) target en) (loads eps) (s0 eps) = Ok (runs eps)) ->
  let N := length dts in let u := fun eps k => w_u (hot (s0 eps) (runs eps) k) in let r := fun eps k => w_rate (hot (s0 eps) (runs eps) k) in
  let t := fun k => w_t (hot (s0 0) (runs 0) k) in let m := w_mem (hot_end (s0 0) (runs 0)) in
  (forall k, (k < N)%nat -> curve n (fun eps => entries (u eps k)) (du k) /\ curve n (fun eps => entries (r eps k)) (dv k)) ->
  (forall k i, (k < N)%nat -> (i < n)%nat -> any bcs i = false ->
     locally 0 (fun eps => exists L, force f n (t k) (inputs (with_param params w (p eps)) (r eps k)) m (u eps k) L /\ nth i L 0 = 0)) ->
  (forall k i, (k < N)%nat -> (i < n)%nat -> any bcs i = true -> locally 0 (fun eps => heat_obeys target en (t k) (u eps k) (r eps k) i)) ->
  (forall k, (k < N)%nat -> ad_joint f (t k) (inputs (inputs (with_param params w (p 0)) (r 0 k)) (u 0 k)) m) ->
  (forall k dt K M, nth_error dts k = Some dt -> tangent f n c (t k) (inputs (with_param params w (p 0)) (r 0 k)) m (u 0 k) K ->
     param_tangent f n 0 cm (t k) (inputs (with_param params w (p 0)) (r 0 k)) m (u 0 k) M ->
     lin_ok n bcs lin (fun i j => M i j + dt * K i j) /\ forall i j, (i < n)%nat -> (j < n)%nat -> M i j = M j i) ->
  (forall k, (k < N)%nat -> gradient3 n np (Q k) (entries (u 0 k)) (entries (r 0 k)) (entries (p 0)) (qu k) (rate_part (qv k)) (qp k)) ->
  ((forall k, (k < N)%nat -> qv k <> None) \/ (forall k, (k < N)%nat -> qv k = None)) ->
  exists total b, heat_pass f n c cm bcs w cw lin dts (w_saved (hot_end (s0 0) (runs 0))) (with_param params w (p 0)) qu qv N (heat_turn (hot_end (s0 0) (runs 0))) = Ok (total, b) /\
    is_derive (fun eps => sumn N (fun k => Q k (entries (u eps k)) (entries (r eps k)) (entries (p eps)))) 0
      (vdot n (q_mu b) du0 + vdot np (fun i => total i + sumn N (fun k => qp k i)) dp).
Proof.
  exact (fun St f n c cm bcs target tsize w np cw en params lin dts p dp s0 du0 loads runs Q qu qv qp du dv R0 Rm Rw =>
    @heat_run_gradient St f n c cm bcs target tsize R0 Rm w np cw Rw en params lin dts p dp s0 du0 loads runs Q qu qv qp du dv).
Qed.
Print Assumptions C77_heat_gradient_partial.
(** two steps; source 1 + eps, initial temperature 2 eps; objective: temperature times rate at the free dof, summed over the steps *)
Example C77_heat_gradient_nonvacuous : exists c cm cw runs total b, ready (node3 wall) 2 c two /\ ready_for (node3 wall) 2 two 0 2 cm /\ ready_for (node3 wall) 2 two 1 2 cw /\
  (forall eps, heat_run (Transient.heat_step (node3 wall) 2 c cm (any [held]) moved DirectControl) (wall_pushes eps) (warm_start (2 * eps)) = Ok (runs eps)) /\
  heat_pass (node3 wall) 2 c cm [held] 0 cw solve_free [1; 1] (w_saved (hot_end (warm_start (2 * 0)) (runs 0))) (given (1 + 0))
    (fun k i => if Nat.eqb i 0 then nth 0 (wall_r 0 k) 0 else 0) (fun k => Some (fun i => if Nat.eqb i 0 then nth 0 (wall_u 0 k) 0 else 0)) 2
    (heat_turn (hot_end (warm_start (2 * 0)) (runs 0))) = Ok (total, b) /\
  is_derive (fun eps => sumn 2 (fun k => nth 0 (w_u (hot (warm_start (2 * eps)) (runs eps) k)) 0 * nth 0 (w_rate (hot (warm_start (2 * eps)) (runs eps) k)) 0)) 0
    (2 * q_mu b 0%nat + total 0%nat) /\ 2 * q_mu b 0%nat + total 0%nat = 7 / 4.
Proof. exact wall_case. Qed.
