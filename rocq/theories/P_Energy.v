(** * Property C68: energy and momentum along runs of the time integrators *)
From Coq Require Import NArith ZArith Reals List Lia Lra Bool.
From Verif Require Import Prelude DofCodec Sums Tensor MatAlg Materials FunctionalModel Kernels Restriction WeakForm WeakFormFacts WeakFormPhysics WeakFormEx Ode OdeEx Energy EnergySolid EnergyRun EnergyEx.
Import ListNotations.
Local Open Scope R_scope.

(** the residual that the solid module evaluates for a linear elastic body is inertia plus elastic forces minus loads: tested
    against any vector it is the mass form of the acceleration plus the stiffness form of the displacement minus the work of the
    body forces, tractions and pressures; both forms are symmetric *)
Theorem C68_elastic_residual : forall St n N (f : functional St) m terms pos jac params t x a L' m' wrt upd, dim23 n -> List.Forall (linear_elastic n) terms ->
  wf f N (fun w => length (arguments N params x a w)) -> all_fit f -> two_spaces n f -> solid_residual n f t (arguments N params x a) m terms pos jac ->
  evaluate f t wrt upd (arguments N params x a) N m = Ok (L', m') ->
  symmetric_form N (mass_form n N f terms jac) /\ symmetric_form N (stiffness_form n N f m terms jac) /\
  forall h, dotn N h (fun i => nth i L' 0) = mass_form n N f terms jac h a + stiffness_form n N f m terms jac h x - dotn N h (load_vector n N f terms pos jac t).
Proof. exact @elastic_residual_forms. Qed.
Print Assumptions C68_elastic_residual.
(** and both are non-negative on elements that are not inverted, with densities and moduli that are not negative *)
Theorem C68_elastic_positive : forall St n N (f : functional St) m terms jac, oriented n f terms jac -> positive n terms ->
  nonnegative (mass_form n N f terms jac) /\ nonnegative (stiffness_form n N f m terms jac).
Proof. exact @elastic_forms_positive. Qed.
Print Assumptions C68_elastic_positive.
(** linear isotropic elasticity is such a material *)
Theorem C68_isotropic : forall St n rho K G, linear_elastic n (SMaterial false rho (fun (_ : St) H => Some (linear_isotropic n K G H))) /\
  (dim23 n -> 0 <= K -> 0 <= G -> forall A, 0 <= inner n n (linear_isotropic n K G A) A).
Proof. exact isotropic_case. Qed.
Print Assumptions C68_isotropic.

(** so the equation of motion that the integrators advance is of that form *)
Theorem C68_elastic_problem : forall St n N (f : functional St) m terms pos jac params ess g, dim23 n -> List.Forall (linear_elastic n) terms ->
  (forall x a, wf f N (fun w => length (arguments N params x a w))) -> all_fit f -> two_spaces n f -> (forall t x a, solid_residual n f t (arguments N params x a) m terms pos jac) ->
  extensional (elastic_problem N f m params ess g) /\
  linear_motion (elastic_problem N f m params ess g) (mass_form n N f terms jac) (stiffness_form n N f m terms jac) (load_vector n N f terms pos jac).
Proof. exact @elastic_case. Qed.
Print Assumptions C68_elastic_problem.
Example C68_elastic_triangle : dim23 2 /\ List.Forall (linear_elastic 2) el_terms /\ (forall x a, wf el_f 6 (fun w => length (arguments 6 no_params x a w))) /\ all_fit el_f /\ two_spaces 2 el_f /\
  (forall t x a, solid_residual 2 el_f t (arguments 6 no_params x a) ex_mem el_terms ex_pos ex_jac) /\ oriented 2 el_f el_terms ex_jac /\ positive 2 el_terms /\
  exists solver, solves (elastic_problem 6 el_f ex_mem no_params (fun i => negb (Nat.eqb i 2)) (fun _ _ => 0)) solver.
Proof. exact elastic_triangle_all. Qed.

(** TimestepMethod::Newmark (beta = 1/4, gamma = 1/2): over any sequence of steps the energy changes by exactly the work of the loads and of
    the supports; work is the trapezoidal rule on forces *)
Theorem C68_work : forall p solver m k f, solves p solver -> extensional p -> symmetric_form (p_n p) m -> symmetric_form (p_n p) k -> linear_motion p m k f ->
  forall en dts mem told t x v, en = DirectControl \/ en = RateControl -> List.Forall (fun dt => dt <> 0) dts -> begins p mem told t x ->
  exists a0 states, newmark_run p solver (1 / 4) (1 / 2) en mem told t x v dts = Some states /\ start_acceleration p solver mem told x v a0 en /\ length states = length dts /\
    let '(x', v', _) := final x v a0 states in energy m k x' v' = energy m k x v + run_work p f t x a0 dts states.
Proof. exact work_run. Qed.
Print Assumptions C68_work.
(** without loads and with supports at rest the energy never changes, whatever the steps *)
Theorem C68_conserved_direct : forall p solver m k f, solves p solver -> extensional p -> symmetric_form (p_n p) m -> symmetric_form (p_n p) k -> linear_motion p m k f ->
  forall g dts mem told t x v, unloaded f -> fixed p g -> List.Forall (fun dt => dt <> 0) dts -> begins p mem told t x -> (forall i, (i < p_n p)%nat -> p_ess p i = true -> x i = g i) ->
  exists states, newmark_run p solver (1 / 4) (1 / 2) DirectControl mem told t x v dts = Some states /\ constant_energy m k x v states.
Proof. exact conserved_direct. Qed.
Print Assumptions C68_conserved_direct.
Theorem C68_conserved_rate : forall p solver m k f, solves p solver -> extensional p -> symmetric_form (p_n p) m -> symmetric_form (p_n p) k -> linear_motion p m k f ->
  forall g dts mem told t x v, unloaded f -> fixed p g -> List.Forall (fun dt => dt <> 0) dts -> begins p mem told t x -> (forall i, (i < p_n p)%nat -> p_ess p i = true -> v i = 0) ->
  exists states, newmark_run p solver (1 / 4) (1 / 2) RateControl mem told t x v dts = Some states /\ constant_energy m k x v states.
Proof. exact conserved_rate. Qed.
Print Assumptions C68_conserved_rate.
Example C68_spring : solves spring spring_solver /\ extensional spring /\ symmetric_form (p_n spring) spring_form /\ linear_motion spring spring_form spring_form (fun _ _ => 0) /\
  nonnegative spring_form /\ unloaded (fun _ _ => 0) /\ fixed spring (fun _ => 0) /\ forall t x, begins spring None t t x.
Proof. exact spring_all. Qed.

(** any gamma >= 1/2 and 2 beta >= gamma: at any fixed step size the energy of every state is bounded by one number known at
    the start *)
Theorem C68_stable : forall p solver m k f, solves p solver -> extensional p -> symmetric_form (p_n p) m -> symmetric_form (p_n p) k -> linear_motion p m k f ->
  forall beta gamma dt g dts mem told t x v, unloaded f -> fixed p g -> dt <> 0 -> List.Forall (fun d => d = dt) dts -> 1 / 2 <= gamma -> gamma / 2 <= beta ->
  nonnegative m -> nonnegative k -> begins p mem told t x -> (forall i, (i < p_n p)%nat -> p_ess p i = true -> x i = g i) ->
  exists a0 states, newmark_run p solver beta gamma DirectControl mem told t x v dts = Some states /\ start_acceleration p solver mem told x v a0 DirectControl /\
    List.Forall (fun s => let '(x', v', a') := s in 0 <= energy m k x' v' <= corrected m k beta gamma dt x v a0) states.
Proof. exact stable_run. Qed.
Print Assumptions C68_stable.
(** smaller beta has no such bound: central differences on a spring of unit frequency, with a step of 3 *)
Theorem C68_stable_needs_beta : exists p solver m k f x v states, solves p solver /\ extensional p /\ symmetric_form (p_n p) m /\ symmetric_form (p_n p) k /\ linear_motion p m k f /\
  unloaded f /\ nonnegative m /\ nonnegative k /\ begins p None 0 0 x /\ newmark_run p solver 0 (1 / 2) RateControl None 0 0 x v [3; 3] = Some states /\
  let '(x', v', _) := last states (x, v, x) in energy m k x' v' > 100 * energy m k x v.
Proof. exact central_unstable. Qed.
Print Assumptions C68_stable_needs_beta.

(** backward Euler loses the energy of the change of state; without loads and with supports at rest it never gains any *)
Theorem C68_backward_euler : forall p solver m k f, solves p solver -> extensional p -> symmetric_form (p_n p) m -> symmetric_form (p_n p) k -> linear_motion p m k f ->
  forall t dt x v, dt <> 0 -> exists x' v' a', backward_euler2 p solver DirectControl t dt x v = Some (x', v', a') /\
    energy m k x' v' = energy m k x v + dotn (p_n p) (diff x' x) (force p f (t + dt) x' a') - energy m k (diff x' x) (diff v' v) /\
    (forall g, unloaded f -> fixed p g -> nonnegative m -> nonnegative k -> (forall i, (i < p_n p)%nat -> p_ess p i = true -> x i = g i) -> energy m k x' v' <= energy m k x v).
Proof. exact euler2_run. Qed.
Print Assumptions C68_backward_euler.
(** first-order systems by backward Euler ([m] capacity, [k] conductivity): without sources and with temperatures held, the
    dissipation never grows; held at zero, neither does the square of the temperature *)
Theorem C68_diffusion : forall p solver m k f, solves p solver -> symmetric_form (p_n p) m -> symmetric_form (p_n p) k -> linear_motion p m k f ->
  forall t dt x, 0 < dt -> let '(x', r) := backward_euler1 p solver DirectControl t dt x in
  k x' x' / 2 = k x x / 2 + dotn (p_n p) (diff x' x) (force p f (t + dt) x' r) - dt * m r r - k (diff x' x) (diff x' x) / 2 /\
  m x' x' / 2 = m x x / 2 + dt * dotn (p_n p) x' (force p f (t + dt) x' r) - dt * k x' x' - m (diff x' x) (diff x' x) / 2 /\
  (forall g, unloaded f -> fixed p g -> nonnegative m -> nonnegative k -> (forall i, (i < p_n p)%nat -> p_ess p i = true -> x i = g i) ->
     k x' x' <= k x x /\ ((forall i, g i = 0) -> m x' x' <= m x x)).
Proof. exact euler1_run. Qed.
Print Assumptions C68_diffusion.

(** momentum, for any material, state and size of deformation, on a mesh with supports or without: over a Newmark step with any
    parameters it changes by the impulse of the dead loads and of the reactions (the total of the residual) *)
Theorem C68_momentum : forall St n nn o (f : functional St) terms pos jac params, dim23 n ->
  forall beta gamma dt t x v a x' v' a' m0 m1 L0 L1 m0' m1' wrt0 upd0 wrt1 upd1 i, let N := (nn * n)%nat in dead_loads terms ->
  wf f N (fun w => length (arguments N params x a w)) -> all_fit f -> layout f o nn n -> two_spaces n f -> unity f ->
  solid_residual n f t (arguments N params x a) m0 terms pos jac -> evaluate f t wrt0 upd0 (arguments N params x a) N m0 = Ok (L0, m0') ->
  solid_residual n f (t + dt) (arguments N params x' a') m1 terms pos jac -> evaluate f (t + dt) wrt1 upd1 (arguments N params x' a') N m1 = Ok (L1, m1') ->
  (forall j, (j < N)%nat -> x' j = x j + dt * v j + dt * dt * ((1 / 2 - beta) * a j + beta * a' j) /\ v' j = v j + dt * ((1 - gamma) * a j + gamma * a' j)) -> (i < n)%nat ->
  momentum_of n nn f terms jac i v' = momentum_of n nn f terms jac i v +
    dt * ((1 - gamma) * (force_of n f terms pos jac i t + total o nn n L0 i) + gamma * (force_of n f terms pos jac i (t + dt) + total o nn n L1 i)).
Proof. exact @momentum_advance. Qed.
Print Assumptions C68_momentum.
Example C68_momentum_triangle : dead_loads el_terms /\ layout el_f byVDIM 3 2 /\ unity el_f.
Proof. exact elastic_triangle_momentum. Qed.
