(** * Properties C25, C26, C27: adjoint solutions and sensitivities *)
From Coq Require Import Reals List.
From Coquelicot Require Import Coquelicot.
From Verif Require Import Sums Tensor MatAlg BoundaryElim Adjoint AdjointDeriv AdjointEx.
Import ListNotations.
Local Open Scope R_scope.

(** ** C27, quasi-static *)
Theorem C27_adjoint_equations : forall n bcs lin J qu, lin_ok n bcs lin J ->
  (forall i, (i < n)%nat -> any bcs i = true -> static_adjoint n bcs lin J qu i = 0) /\
  (forall i, (i < n)%nat -> any bcs i = false -> mvec n (transpose J) (static_adjoint n bcs lin J qu) i = - qu i).
Proof. exact static_adjoint_equations. Qed.
Print Assumptions C27_adjoint_equations.
(** explicit part plus reported sensitivity is the derivative of the objective along every family of equilibria *)
Theorem C27_gradient : forall n np bcs lin res Q u p J P qu qp du dp,
  curve n u du -> curve np p dp ->
  jacobian3 n np (fun u _ p => res u p) (u 0) vz (p 0) J (fun _ _ => 0) P ->
  gradient3 n np (fun u _ p => Q u p) (u 0) vz (p 0) qu vz qp ->
  (forall i, (i < n)%nat -> any bcs i = false -> locally 0 (fun s => res (u s) (p s) i = 0)) ->
  (forall i, (i < n)%nat -> any bcs i = true -> locally 0 (fun s => u s i = u 0 i)) ->
  lin_ok n bcs lin J ->
  is_derive (fun s => Q (u s) (p s)) 0
    (vdot np (fun k => qp k + sensitivity n P (static_adjoint n bcs lin J qu) k) dp).
Proof. exact static_gradient. Qed.
Print Assumptions C27_gradient.
(** reactions in a direction d: dual sensitivity plus adjoint sensitivity for the load from computeDualAdjointLoad *)
Theorem C27_reactions : forall n np bcs lin res u p J P d du dp,
  curve n u du -> curve np p dp ->
  jacobian3 n np (fun u _ p => res u p) (u 0) vz (p 0) J (fun _ _ => 0) P ->
  (forall i, (i < n)%nat -> any bcs i = false -> locally 0 (fun s => res (u s) (p s) i = 0)) ->
  (forall i, (i < n)%nat -> any bcs i = true -> locally 0 (fun s => u s i = u 0 i)) ->
  lin_ok n bcs lin J ->
  is_derive (fun s => vdot n d (res (u s) (p s))) 0
    (vdot np (fun k => sensitivity n P (static_adjoint n bcs lin J (reaction_load n J d)) k + sensitivity n P d k) dp).
Proof. exact reaction_gradient. Qed.
Print Assumptions C27_reactions.
Example C27_case : let u := fun s => k1 (3 + 1 * s) in
  curve 1 u (k1 1) /\ jacobian3 1 1 (fun u _ p i => u i - p i) (u 0) vz (u 0) (c1 1) (fun _ _ => 0) (c1 (-1)) /\
  gradient3 1 1 (fun u _ _ => u 0%nat * u 0%nat) (u 0) vz (u 0) (k1 6) vz vz /\
  (forall i s, u s i - u s i = 0) /\ lin_ok 1 [] scalar_solver (c1 1).
Proof. exact static_case. Qed.

(** ** C26, heat conduction with backward Euler, any number of steps *)
Theorem C26_gradient : forall n np bcs lin direct p dp fs u0 du0,
  (forall f, In f fs -> heat_step_ok n bcs lin (hf_step f)) -> uniform_loads (map hf_step fs) ->
  curve np p dp -> curve n u0 du0 ->
  (direct = false -> forall i, (i < n)%nat -> any bcs i = true -> du0 i = 0) ->
  heat_family n np (any bcs) direct p u0 fs ->
  let a := heat_reverse n bcs lin (map hf_step fs) in
  is_derive (heat_total p fs) 0
    (vdot n (ha_mu a) du0 +
     vdot np (fun k => total_sensitivity n h_P (map hf_step fs) (ha_lambdas a) k + explicit_part fs k) dp).
Proof. exact heat_gradient. Qed.
Print Assumptions C26_gradient.
Example C26_case : heat_family 1 1 (any []) true (fun s => k1 (3 + s)) (fun s => k1 (5 + 2 * s)) [oven] /\
  heat_step_ok 1 [] scalar_solver (hf_step oven).
Proof. exact (conj oven_family oven_ok). Qed.
(** a rate load given for one step stays in force for the earlier steps that give none: sensitivity 2 instead of 1 *)
Theorem C26_stale_load_refuted :
  (forall s, In s warm_history -> heat_step_ok 1 [] scalar_solver s) /\
  (forall dp, heat_tangent 1 1 (any []) true vz (k1 dp) warm_history [(k1 dp, k1 dp); (k1 (2 * dp), k1 dp)] /\
              heat_objective 1 warm_history [(k1 dp, k1 dp); (k1 (2 * dp), k1 dp)] = dp) /\
  total_sensitivity 1 h_P warm_history (ha_lambdas (heat_reverse 1 [] scalar_solver warm_history)) 0%nat = 2.
Proof. exact stale_rate_load. Qed.
Print Assumptions C26_stale_load_refuted.
(** with prescribed rates, initial temperatures of constrained dofs do matter, but their sensitivity is reported as 0 *)
Theorem C26_rate_control_refuted :
  heat_step_ok 1 [held1] scalar_solver kept /\
  (forall du0, heat_tangent 1 1 (any [held1]) false (k1 du0) vz [kept] [(k1 du0, vz)] /\
               heat_objective 1 [kept] [(k1 du0, vz)] = du0) /\
  ha_mu (heat_reverse 1 [held1] scalar_solver [kept]) 0%nat = 0.
Proof. exact rate_control_initial_wrong. Qed.
Print Assumptions C26_rate_control_refuted.

(** ** C25, Newmark, any number of steps after a first step of length zero; objectives of displacement and acceleration *)
Theorem C25_gradient_partial : forall n np bcs lin en p dp f fs u0 v0 du0 dv0,
  s_dt (nf_step f) = 0 ->
  (forall g, In g (f :: fs) -> newmark_step_ok n bcs lin (nf_step g)) -> newmark_loads (map nf_step (f :: fs)) ->
  curve np p dp -> curve n u0 du0 -> curve n v0 dv0 ->
  (forall i, (i < n)%nat -> any bcs i = true -> du0 i = 0 /\ dv0 i = 0) ->
  newmark_family n np (any bcs) en p u0 v0 (fun _ => vz) (f :: fs) ->
  let a := newmark_reverse n bcs lin (map nf_step (f :: fs)) in
  is_derive (newmark_total p (f :: fs)) 0
    (vdot n (na_U a) du0 + vdot n (na_V a) dv0 +
     vdot np (fun k => total_sensitivity n s_P (map nf_step (f :: fs)) (na_lambdas a) k + newmark_explicit (f :: fs) k) dp).
Proof. exact newmark_gradient. Qed.
Print Assumptions C25_gradient_partial.
Example C25_case : newmark_family 1 1 (any []) true (fun s => k1 (2 + s)) (fun s => k1 (0 + 1 * s)) (fun s => k1 (1 + - 1 * s)) (fun _ => vz)
  shove_history /\ (forall f, In f shove_history -> newmark_step_ok 1 [] scalar_solver (nf_step f)) /\
  newmark_loads (map nf_step shove_history).
Proof. exact (conj shove_family (conj shove_ok shove_loads)). Qed.
(** objectives of the velocity get wrong sensitivities: v_2 = v_0 + p, reported 0 and 1/2 *)
Theorem C25_velocity_objective_refuted :
  (forall s, In s push_history -> newmark_step_ok 1 [] scalar_solver s) /\
  (forall dv0 dp, newmark_tangent 1 1 (any []) vz (k1 dv0) vz (k1 dp) push_history (push_variation dv0 dp)) /\
  (forall dv0 dp, newmark_objective 1 push_history (push_variation dv0 dp) = dv0 + dp) /\
  na_V (newmark_reverse 1 [] scalar_solver push_history) 0%nat = 0 /\
  total_sensitivity 1 s_P push_history (na_lambdas (newmark_reverse 1 [] scalar_solver push_history)) 0%nat = 1 / 2.
Proof. exact velocity_objective_wrong. Qed.
Print Assumptions C25_velocity_objective_refuted.
(** and the first step must have length zero *)
Theorem C25_first_step_refuted :
  (forall s, In s [launch] -> newmark_step_ok 1 [] scalar_solver s) /\ newmark_loads [launch] /\
  (forall dv0, newmark_tangent 1 1 (any []) vz (k1 dv0) vz vz [launch] [(k1 dv0, k1 dv0, vz)] /\
               newmark_objective 1 [launch] [(k1 dv0, k1 dv0, vz)] = dv0) /\
  na_V (newmark_reverse 1 [] scalar_solver [launch]) 0%nat = 0.
Proof. exact nonzero_first_step_wrong. Qed.
Print Assumptions C25_first_step_refuted.
