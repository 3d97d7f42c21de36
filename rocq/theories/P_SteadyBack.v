(** * C77: sensitivities of steady heat conduction runs *)
From Coq Require Import NArith ZArith Reals List Lia Bool.
From Coquelicot Require Import Coquelicot.
From Verif Require Import Prelude DofCodec Sums Restriction Csr Kernels FunctionalModel FunctionalGrad FunctionalTotal Assembly FunctionalEx Tensor MatAlg BoundaryElim Adjoint AdjointDeriv Ode
  QuasiStatic QuasiAdjoint QuasiGradient QuasiAdjointEx Transient TransientFacts JointRate HeatBack HeatGradient HeatBackEx Implicit ImplicitRuns SteadyBack SteadyBackEx.
Import ListNotations.
Local Open Scope R_scope.

(** the reverse pass succeeds with as many steps as the run had, leaves the sensitivity to the initial temperature and the rate alone, whatever rate loads are
    given, and returns the sum of the sensitivities of the single steady problems (C27), each linearised at the temperature and time with which its step ended *)
Theorem C77_steady_pass : forall St (f : functional St) n c cm bcs tsize w np cw lin dts saved params times us N qu qv, ready f n c tsize -> ready_for f n tsize 0 n cm ->
  ready_for f n tsize (S w) np cw -> params_fit tsize params ->
  (forall k, (k < N)%nat -> exists dt, nth_error dts k = Some dt /\ forall j, (S j = k)%nat -> times j = times k - dt) ->
  (forall k, (k < N)%nat -> exists r, nth_error saved (S k) = Some (us k, r) /\ length (us k) = n) ->
  forall k (b : cooling St), (k <= N)%nat -> q_cycle b = k -> (forall j, (S j = k)%nat -> q_t b = times j) -> length (q_rate b) = n ->
  exists total b', steady_pass f n c bcs w cw lin dts saved params qu qv k b = Ok (total, b') /\ q_mu b' = q_mu b /\ q_rate b' = q_rate b /\
    exists A P, (forall j, (j < k)%nat -> tangent f n c (times j) (inputs params (q_rate b)) (q_mem b) (us j) (A j) /\
        param_tangent f n (S w) cw (times j) (inputs params (q_rate b)) (q_mem b) (us j) (P j)) /\
      forall i, total i = sumn k (fun j => sensitivity n (P j) (static_adjoint n bcs lin (A j) (qu j)) i).
Proof.
  exact (fun St f n c cm bcs tsize w np cw lin dts saved params times us N qu qv R0 Rm Rw =>
    @steady_pass_sum St f n c cm bcs tsize R0 Rm w np cw Rw lin dts saved params times us N qu qv).
Qed.
Print Assumptions C77_steady_pass.

(** for runs whose parameter varies with [eps], which start at any temperatures, are in balance at the free dofs and depend continuously or differentiably on
    [eps], the total of the pass is the derivative of the objective, and the sensitivity to the initial temperature is zero.  Partial: the parameter is the same
    in all steps of one run, and balance is exact *)
Theorem C77_steady_gradient_partial : forall St (f : functional St) n c cm bcs target tsize w np cw lin params dts (p : R -> list R) dp rate
  (s0 : R -> warmth (St := St)) (loads : R -> list push) (runs : R -> list (warmth (St := St) * bool)) (Q : nat -> vec -> vec -> R) qu qv qp,
  ready f n c tsize -> ready_for f n tsize 0 n cm -> ready_for f n tsize (S w) np cw -> params_fit tsize params -> length rate = n ->
  (forall eps, w_cycle (s0 eps) = 0%nat /\ w_saved (s0 eps) = [(w_u (s0 eps), w_rate (s0 eps))] /\ w_t (s0 eps) = w_t (s0 0) /\ w_rate (s0 eps) = rate) ->
  (forall eps, length (p eps) = np) -> curve np (fun eps => entries (p eps)) dp ->
  (forall eps, map k_dt (loads eps) = dts /\ List.Forall (fun ld => k_params ld = with_param params w (p eps)) (loads eps)) ->
  (forall eps, heat_run (steady_step f n c (any bcs) target) (loads eps) (s0 eps) = Ok (runs eps)) ->
  let N := length dts in let u := fun eps k => w_u (hot (s0 eps) (runs eps) k) in
  let t := fun k => w_t (hot (s0 0) (runs 0) k) in let m := w_mem (hot_end (s0 0) (runs 0)) in
  (forall k, (k < N)%nat -> continuous_near n (fun eps => entries (u eps k)) \/ exists du, curve n (fun eps => entries (u eps k)) du) ->
  (forall k i, (k < N)%nat -> (i < n)%nat -> any bcs i = false ->
     locally 0 (fun eps => exists L, force f n (t k) (inputs (with_param params w (p eps)) rate) m (u eps k) L /\ nth i L 0 = 0)) ->
  (forall k i, (k < N)%nat -> (i < n)%nat -> any bcs i = true -> locally 0 (fun eps => nth i (u eps k) 0 = target (t k) i)) ->
  (forall k, (k < N)%nat -> ad_joint f (t k) (inputs (inputs (with_param params w (p 0)) rate) (u 0 k)) m) ->
  (forall k A, (k < N)%nat -> tangent f n c (t k) (inputs (with_param params w (p 0)) rate) m (u 0 k) A -> lin_ok n bcs lin A) ->
  (forall k, (k < N)%nat -> gradient3 n np (fun u _ p => Q k u p) (entries (u 0 k)) vz (entries (p 0)) (qu k) vz (qp k)) ->
  exists total b, steady_pass f n c bcs w cw lin dts (w_saved (hot_end (s0 0) (runs 0))) (with_param params w (p 0)) qu qv N (heat_turn (hot_end (s0 0) (runs 0))) = Ok (total, b) /\
    (forall i, q_mu b i = 0) /\
    is_derive (fun eps => sumn N (fun k => Q k (entries (u eps k)) (entries (p eps)))) 0 (vdot np (fun i => total i + sumn N (fun k => qp k i)) dp).
Proof.
  exact (fun St f n c cm bcs target tsize w np cw lin params dts p dp rate s0 loads runs Q qu qv qp R0 Rm Rw =>
    @steady_run_gradient St f n c cm bcs target tsize R0 Rm w np cw Rw lin params dts p dp rate s0 loads runs Q qu qv qp).
Qed.
Print Assumptions C77_steady_gradient_partial.
Example C77_steady_nonvacuous : exists c cm cw runs total b, ready (node3 wall) 2 c two /\ ready_for (node3 wall) 2 two 0 2 cm /\ ready_for (node3 wall) 2 two 1 2 cw /\
  (forall eps, heat_run (steady_step (node3 wall) 2 c (any [held]) moved) (settle_pushes eps) (warm_start (2 * eps)) = Ok (runs eps)) /\
  steady_pass (node3 wall) 2 c [held] 0 cw solve_free [1; 1] (w_saved (hot_end (warm_start (2 * 0)) (runs 0))) (given (1 + 0))
    (fun k i => if Nat.eqb i 0 then 2 * nth 0 (settle_u 0 k) 0 else 0) (fun k => None) 2 (heat_turn (hot_end (warm_start (2 * 0)) (runs 0))) = Ok (total, b) /\
  is_derive (fun eps => sumn 2 (fun k => nth 0 (w_u (hot (warm_start (2 * eps)) (runs eps) k)) 0 * nth 0 (w_u (hot (warm_start (2 * eps)) (runs eps) k)) 0)) 0 (total 0%nat) /\ total 0%nat = 10.
Proof. exact settle_case. Qed.
