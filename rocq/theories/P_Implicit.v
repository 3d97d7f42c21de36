(** * C74, C77, C78: sensitivities of families of runs which are only known to depend continuously on the parameter

    That the runs depend differentiably on the parameter is not assumed, as it is in C74_gradient_partial, C77_heat_gradient_partial and C78_motion_gradient_partial: the derivative of the
    objective exists, and is what the reverse pass returns. *)
From Coq Require Import NArith ZArith Reals List Lia Bool.
From Coquelicot Require Import Coquelicot.
From Verif Require Import Prelude DofCodec Sums Restriction Csr Kernels FunctionalModel FunctionalGrad FunctionalTotal Assembly FunctionalEx Tensor MatAlg BoundaryElim Adjoint AdjointDeriv Ode
  QuasiStatic QuasiAdjoint QuasiGradient QuasiAdjointEx Transient TransientFacts JointRate HeatBack HeatGradient HeatBackEx MotionBack MotionGradient MotionBackEx Implicit ImplicitRuns ImplicitEx.
Import ListNotations.
Local Open Scope R_scope.

(** quasi-static runs: displacements continuous near the value of the parameter *)
Theorem C74_gradient_continuous_partial : forall St (f : functional St) n c bcs target tsize, ready f n c tsize -> forall w np cw, ready_for f n tsize w np cw ->
  forall others, fitting tsize others ->
  forall lin dts (p : R -> list R) dp (loads : R -> list load) (runs : R -> list (state (St := St))) s0 (Q : nat -> vec -> vec -> R) qu qp,
  memoryless f -> sound n tsize s0 -> s_cycle s0 = 0%nat -> s_saved s0 = [s_u s0] ->
  (forall eps, length (p eps) = np) -> curve np (fun eps => entries (p eps)) dp ->
  (forall eps, map l_dt (loads eps) = dts /\ List.Forall (fun ld => l_others ld = with_param others w (p eps)) (loads eps)) ->
  (forall eps, run_steps f n c (any bcs) target (loads eps) s0 = Ok (runs eps)) ->
  let N := length dts in let u := fun eps k => s_u (at_step s0 (runs eps) k) in let t := fun k => s_t (at_step s0 (runs 0) k) in
  (forall k, (k < N)%nat -> continuous_near n (fun eps => entries (u eps k))) ->
  (forall k i, (k < N)%nat -> (i < n)%nat -> any bcs i = false -> locally 0 (fun eps => nth i (s_react (at_step s0 (runs eps) k)) 0 = 0)) ->
  (forall k i, (k < N)%nat -> (i < n)%nat -> any bcs i = true -> locally 0 (fun eps => nth i (u eps k) 0 = target (t k) i)) ->
  (forall k m, (k < N)%nat -> ad_joint f (t k) (inputs (with_param others w (p 0)) (u 0 k)) m) ->
  (forall k m A, (k < N)%nat -> tangent f n c (t k) (with_param others w (p 0)) m (u 0 k) A -> lin_ok n bcs lin A) ->
  (forall k, (k < N)%nat -> gradient3 n np (fun u _ p => Q k u p) (entries (u 0 k)) vz (entries (p 0)) (qu k) vz (qp k)) ->
  exists total, reverse_pass f n c bcs w cw lin dts (s_saved (final s0 (runs 0))) (with_param others w (p 0)) qu N (turn (final s0 (runs 0))) = Ok total /\
    is_derive (fun eps => sumn N (fun k => Q k (entries (u eps k)) (entries (p eps)))) 0 (vdot np (fun i => total i + sumn N (fun k => qp k i)) dp).
Proof. exact @run_gradient_continuous. Qed.
Print Assumptions C74_gradient_continuous_partial.
(** the other hypotheses: see the example beside C74_gradient_partial, whose family of runs this is *)
Example C74_gradient_continuous_nonvacuous : exists c cw runs, ready (node elastic) 2 c two /\ ready_for (node elastic) 2 two 0 2 cw /\
  (forall eps, run_steps (node elastic) 2 c (any [held]) moved (elastic_loads eps) at_rest = Ok (runs eps)) /\
  (forall k, (k < 2)%nat -> continuous_near 2 (fun eps => entries (s_u (at_step at_rest (runs eps) k)))) /\
  (forall k, (k < 2)%nat -> s_u (at_step at_rest (runs 0) k) <> s_u (at_step at_rest (runs 1) k)).
Proof. exact elastic_near. Qed.

(** reactions of the last step *)
Theorem C74_last_reaction_continuous_partial : forall St (f : functional St) n c bcs target tsize, ready f n c tsize -> forall w np cw, ready_for f n tsize w np cw ->
  forall others, fitting tsize others ->
  forall lin dts (p : R -> list R) dp (loads : R -> list load) (runs : R -> list (state (St := St))) s0 d l,
  memoryless f -> sound n tsize s0 -> s_cycle s0 = 0%nat -> s_saved s0 = [s_u s0] ->
  (forall eps, length (p eps) = np) -> curve np (fun eps => entries (p eps)) dp ->
  (forall eps, map l_dt (loads eps) = dts /\ List.Forall (fun ld => l_others ld = with_param others w (p eps)) (loads eps)) ->
  (forall eps, run_steps f n c (any bcs) target (loads eps) s0 = Ok (runs eps)) ->
  let N := length dts in let u := fun eps k => s_u (at_step s0 (runs eps) k) in let t := fun k => s_t (at_step s0 (runs 0) k) in
  N = S l ->
  continuous_near n (fun eps => entries (u eps l)) ->
  (forall i, (i < n)%nat -> any bcs i = false -> locally 0 (fun eps => nth i (s_react (at_step s0 (runs eps) l)) 0 = 0)) ->
  (forall i, (i < n)%nat -> any bcs i = true -> locally 0 (fun eps => nth i (u eps l) 0 = target (t l) i)) ->
  (forall m, ad_joint f (t l) (inputs (with_param others w (p 0)) (u 0 l)) m) ->
  (forall m A, tangent f n c (t l) (with_param others w (p 0)) m (u 0 l) A -> lin_ok n bcs lin A) ->
  exists b0 b1 g h, reaction_adjoint_load f n c (with_param others w (p 0)) d (turn (final s0 (runs 0))) = Ok b0 /\
    reverse_step f n c bcs lin dts (s_saved (final s0 (runs 0))) (with_param others w (p 0)) b0 = Ok b1 /\
    timestep_sensitivity f n w cw (with_param others w (p 0)) b1 = Ok g /\
    dual_sensitivity f n w cw (with_param others w (p 0)) d (remember (snd g) b1) = Ok h /\
    is_derive (fun eps => vdot n d (entries (s_react (at_step s0 (runs eps) l)))) 0 (vdot np (fun i => fst g i + fst h i) dp).
Proof. exact @last_reaction_continuous. Qed.
Print Assumptions C74_last_reaction_continuous_partial.

(** transient heat conduction: temperatures continuous near the value of the parameter *)
Theorem C77_heat_gradient_continuous_partial : forall St (f : functional St) n c cm bcs target tsize, ready f n c tsize -> ready_for f n tsize 0 n cm -> forall w np cw, ready_for f n tsize (S w) np cw ->
  forall en params lin dts (p : R -> list R) dp (s0 : R -> warmth (St := St)) du0 (loads : R -> list push) (runs : R -> list (warmth (St := St) * bool))
  (Q : nat -> vec -> vec -> vec -> R) qu qv qp,
  params_fit tsize params -> en <> FullControl ->
  (forall eps, w_cycle (s0 eps) = 0%nat /\ w_saved (s0 eps) = [(w_u (s0 eps), w_rate (s0 eps))] /\ w_t (s0 eps) = w_t (s0 0)) ->
  curve n (fun eps => entries (w_u (s0 eps))) du0 -> (en = RateControl -> forall i, (i < n)%nat -> any bcs i = true -> du0 i = 0) ->
  (forall eps, length (p eps) = np) -> curve np (fun eps => entries (p eps)) dp -> (forall k dt, nth_error dts k = Some dt -> dt <> 0) ->
  (forall eps, map k_dt (loads eps) = dts /\ List.Forall (fun ld => k_params ld = with_param params w (p eps)) (loads eps)) ->
  (forall eps, heat_run (Transient.heat_step f n c cm (any bcs) target en) (loads eps) (s0 eps) = Ok (runs eps)) ->
  let N := length dts in let u := fun eps k => w_u (hot (s0 eps) (runs eps) k) in let r := fun eps k => w_rate (hot (s0 eps) (runs eps) k) in
  let t := fun k => w_t (hot (s0 0) (runs 0) k) in let m := w_mem (hot_end (s0 0) (runs 0)) in
  (forall k, (k < N)%nat -> continuous_near n (fun eps => entries (u eps k))) ->
  (forall k i, (k < N)%nat -> (i < n)%nat -> any bcs i = false ->
     locally 0 (fun eps => exists L, force f n (t k) (inputs (with_param params w (p eps)) (r eps k)) m (u eps k) L /\ nth i L 0 = 0)) ->
  (forall k i, (k < N)%nat -> (i < n)%nat -> any bcs i = true -> locally 0 (fun eps => heat_obeys target en (t k) (u eps k) (r eps k) i)) ->
  (forall k, (k < N)%nat -> ad_joint f (t k) (inputs (inputs (with_param params w (p 0)) (r 0 k)) (u 0 k)) m) ->
  (forall k dt K M, nth_error dts k = Some dt -> tangent f n c (t k) (inputs (with_param params w (p 0)) (r 0 k)) m (u 0 k) K ->
     param_tangent f n 0 cm (t k) (inputs (with_param params w (p 0)) (r 0 k)) m (u 0 k) M ->
     lin_ok n bcs lin (fun i j => M i j + dt * K i j) /\ forall i j, (i < n)%nat -> (j < n)%nat -> M i j = M j i) ->
  (forall k, (k < N)%nat -> gradient3 n np (Q k) (entries (u 0 k)) (entries (r 0 k)) (entries (p 0)) (qu k) (rate_part (qv k)) (qp k)) ->
  ((forall k, (k < N)%nat -> qv k <> None) \/ (forall k, (k < N)%nat -> qv k = None)) ->
  exists total b, heat_pass f n c cm bcs w cw lin dts (w_saved (hot_end (s0 0) (runs 0))) (with_param params w (p 0)) qu qv N (heat_turn (hot_end (s0 0) (runs 0))) = Ok (total, b) /\
    is_derive (fun eps => sumn N (fun k => Q k (entries (u eps k)) (entries (r eps k)) (entries (p eps)))) 0
      (vdot n (q_mu b) du0 + vdot np (fun i => total i + sumn N (fun k => qp k i)) dp).
Proof. exact @heat_gradient_continuous. Qed.
Print Assumptions C77_heat_gradient_continuous_partial.
(** the other hypotheses: see the example beside C77_heat_gradient_partial, whose family of runs this is *)
Example C77_heat_gradient_continuous_nonvacuous : exists c cm cw runs, ready (node3 wall) 2 c two /\ ready_for (node3 wall) 2 two 0 2 cm /\ ready_for (node3 wall) 2 two 1 2 cw /\
  (forall eps, heat_run (Transient.heat_step (node3 wall) 2 c cm (any [held]) moved DirectControl) (wall_pushes eps) (warm_start (2 * eps)) = Ok (runs eps)) /\
  (forall k, (k < 2)%nat -> continuous_near 2 (fun eps => entries (w_u (hot (warm_start (2 * eps)) (runs eps) k)))) /\
  (forall k, (k < 2)%nat -> w_u (hot (warm_start (2 * 0)) (runs 0) k) <> w_u (hot (warm_start (2 * 1)) (runs 1) k)).
Proof. exact wall_near. Qed.

(** dynamic runs: accelerations continuous near the value of the parameter *)
Theorem C78_motion_gradient_continuous_partial : forall St (f : functional St) n c cm bcs target tsize, ready f n c tsize -> ready_for f n tsize 0 n cm -> forall w np cw, ready_for f n tsize (S w) np cw ->
  forall en params lin dts dts' (p : R -> list R) dp (s0 : R -> motion (St := St)) du0 dv0 (loads : R -> list push) (runs : R -> list (motion (St := St)))
  (Q : nat -> vec -> vec -> vec -> vec -> R) qu qa qp,
  params_fit tsize params -> memoryless f -> en <> FullControl ->
  (forall eps, d_cycle (s0 eps) = 0%nat /\ d_saved (s0 eps) = [(d_u (s0 eps), d_v (s0 eps), d_a (s0 eps))] /\ d_t (s0 eps) = d_t (s0 0)) ->
  curve n (fun eps => entries (d_u (s0 eps))) du0 -> curve n (fun eps => entries (d_v (s0 eps))) dv0 ->
  (forall i, (i < n)%nat -> any bcs i = true -> du0 i = 0 /\ dv0 i = 0) ->
  (forall eps, length (p eps) = np) -> curve np (fun eps => entries (p eps)) dp -> dts = 0 :: dts' ->
  (forall eps, map k_dt (loads eps) = dts /\ List.Forall (fun ld => k_params ld = with_param params w (p eps)) (loads eps)) ->
  (forall eps, dynamic_run f n c cm (any bcs) target mean_newmark en (loads eps) (s0 eps) = Ok (runs eps)) ->
  let N := length dts in let x := fun eps k => walked (s0 eps) (runs eps) k in
  let t := fun k => d_t (x 0 k) in let z := walked_end (s0 0) (runs 0) in
  (forall k, (k < N)%nat -> continuous_near n (fun eps => entries (d_a (x eps k)))) ->
  (forall k i, (k < N)%nat -> (i < n)%nat -> any bcs i = false -> locally 0 (fun eps => nth i (d_react (x eps k)) 0 = 0)) ->
  (forall k dt i, nth_error dts k = Some dt -> (i < n)%nat -> any bcs i = true -> locally 0 (fun eps =>
     (dt = 0 -> nth i (d_a (x eps k)) 0 = curvature target eps2 (t k) i) /\ (dt <> 0 -> obeys en target (t k) (d_u (x eps k)) (d_v (x eps k)) i))) ->
  (forall k, (k < N)%nat -> ad_joint f (t k) (inputs (inputs (with_param params w (p 0)) (d_a (x 0 k))) (d_u (x 0 k))) (d_mem z)) ->
  (forall k dt K M, nth_error dts k = Some dt -> tangent f n c (t k) (inputs (with_param params w (p 0)) (d_a (x 0 k))) (d_mem z) (d_u (x 0 k)) K ->
     param_tangent f n 0 cm (t k) (inputs (with_param params w (p 0)) (d_a (x 0 k))) (d_mem z) (d_u (x 0 k)) M ->
     lin_ok n bcs lin (fun i j => M i j + 1 / 4 * dt * dt * K i j)) ->
  (forall k, (k < N)%nat -> gradient4 n np (Q k) (entries (d_u (x 0 k))) (entries (d_v (x 0 k))) (entries (d_a (x 0 k))) (entries (p 0)) (qu k) vz (rate_part (qa k)) (qp k)) ->
  ((forall k, (k < N)%nat -> qa k <> None) \/ (forall k, (k < N)%nat -> qa k = None)) ->
  exists total b, motion_pass f n c cm bcs w cw lin dts (d_saved z) (with_param params w (p 0)) qu (fun _ => None) qa N (motion_turn z) = Ok (total, b) /\
    is_derive (fun eps => sumn N (fun k => Q k (entries (d_u (x eps k))) (entries (d_v (x eps k))) (entries (d_a (x eps k))) (entries (p eps)))) 0
      (vdot n (z_U b) du0 + vdot n (z_V b) dv0 + vdot np (fun i => total i + sumn N (fun k => qp k i)) dp).
Proof. exact @motion_gradient_continuous. Qed.
Print Assumptions C78_motion_gradient_continuous_partial.
(** the other hypotheses: see the example beside C78_motion_gradient_partial, whose family of runs this is *)
Example C78_motion_gradient_continuous_nonvacuous : exists c cm cw runs, ready (node3 wall) 2 c two /\ ready_for (node3 wall) 2 two 0 2 cm /\ ready_for (node3 wall) 2 two 1 2 cw /\
  (forall eps, dynamic_run (node3 wall) 2 c cm (any [held]) moved mean_newmark DirectControl (spring_pushes eps) (spring_start (2 * eps) (3 * eps)) = Ok (runs eps)) /\
  let x := fun eps k => walked (spring_start (2 * eps) (3 * eps)) (runs eps) k in
  (forall k, (k < 2)%nat -> continuous_near 2 (fun eps => entries (d_a (x eps k)))) /\ (forall k, (k < 2)%nat -> d_a (x 0 k) <> d_a (x 1 k)).
Proof. exact spring_near. Qed.

