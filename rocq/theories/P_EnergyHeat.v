(** * Property C68 for the heat module *)
From Coq Require Import NArith ZArith Reals List Lia Lra Bool.
From Verif Require Import Prelude DofCodec Sums Tensor MatAlg Materials FunctionalModel Kernels Restriction WeakForm WeakFormFacts WeakFormPhysics WeakFormEx Ode OdeEx Energy EnergySolid EnergyRun EnergyHeat EnergyHeatEx.
Import ListNotations.
Local Open Scope R_scope.

(** the residual that the heat module evaluates for linear conduction, tested against any vector, is the capacity form of the rate plus
    the conductivity form of the temperature (with the cooling of the boundary) minus the heat supplied; both forms are symmetric *)
Theorem C68_heat_residual : forall St n N (f : functional St) m terms pos jac params t x a L' m' wrt upd grad, dim23 n -> List.Forall (linear_heat n) terms ->
  wf f N (fun w => length (arguments N params x a w)) -> all_fit f -> two_spaces 1 f -> heat_residual n f t (arguments N params x a) m terms pos jac grad ->
  evaluate f t wrt upd (arguments N params x a) N m = Ok (L', m') ->
  symmetric_form N (capacity_form n N f terms pos jac) /\ symmetric_form N (conduct_form n N f terms pos jac) /\
  forall h, dotn N h (fun i => nth i L' 0) = capacity_form n N f terms pos jac h a + conduct_form n N f terms pos jac h x - dotn N h (supply_vector n N f terms pos jac t).
Proof. exact @heat_residual_forms. Qed.
Print Assumptions C68_heat_residual.
(** both are non-negative on elements that are not inverted, with capacities, conductivities and cooling rates that are not negative *)
Theorem C68_heat_positive : forall St n N (f : functional St) terms pos jac, oriented_heat n f terms jac -> positive_heat n terms ->
  nonnegative (capacity_form n N f terms pos jac) /\ nonnegative (conduct_form n N f terms pos jac).
Proof. exact @heat_forms_positive. Qed.
Print Assumptions C68_heat_positive.
(** so the heat equation that the integrator advances is of the form of C68_diffusion *)
Theorem C68_heat_problem : forall St n N (f : functional St) m terms pos jac params ess g, dim23 n -> List.Forall (linear_heat n) terms ->
  (forall x a, wf f N (fun w => length (arguments N params x a w))) -> all_fit f -> two_spaces 1 f -> (forall t x a, exists grad, heat_residual n f t (arguments N params x a) m terms pos jac grad) ->
  extensional (heat_problem N f m params ess g) /\
  linear_motion (heat_problem N f m params ess g) (capacity_form n N f terms pos jac) (conduct_form n N f terms pos jac) (supply_vector n N f terms pos jac).
Proof. exact @heat_case. Qed.
Print Assumptions C68_heat_problem.
(** Fourier's law with a symmetric conductivity and Newton's law of cooling are linear *)
Theorem C68_fourier : forall n c kappa, (forall i j, (i < n)%nat -> (j < n)%nat -> kappa i j = kappa j i) -> linear_heat n (HMaterial (fourier_law n c kappa)).
Proof. exact fourier_case. Qed.
Print Assumptions C68_fourier.
Theorem C68_cooling : forall n (h : vec -> R) (Tinf : R -> R), linear_heat n (HFlux (fun X nu t u => h X * (u - Tinf t))) /\ forall X nu, film (fun X nu t u => h X * (u - Tinf t)) X nu = h X.
Proof. exact cooling_case. Qed.
Print Assumptions C68_cooling.
(** a heat module that is not supplied with heat, with temperatures held: along every sequence of steps of any sizes the dissipation
    decreases, and when the temperatures are held at zero so does the capacity norm of the temperature *)
Theorem C68_heat_decay : forall St n N (f : functional St) m terms pos jac params ess g solver, dim23 n -> List.Forall (linear_heat n) terms ->
  (forall x a, wf f N (fun w => length (arguments N params x a w))) -> all_fit f -> two_spaces 1 f -> (forall t x a, exists grad, heat_residual n f t (arguments N params x a) m terms pos jac grad) ->
  oriented_heat n f terms jac -> positive_heat n terms ->
  (forall s, In (HSource s) terms -> forall X t, s X t 0 none = 0) -> (forall q, In (HFlux q) terms -> forall X nu t, q X nu t 0 = 0) ->
  solves (heat_problem N f m params ess (fun _ => g)) solver ->
  forall dts, List.Forall (fun dt => 0 < dt) dts -> forall t x, (forall i, (i < N)%nat -> ess i = true -> x i = g i) ->
  let states := diffusion_run (heat_problem N f m params ess (fun _ => g)) solver t x dts in
  decreasing (fun y => conduct_form n N f terms pos jac y y) x states /\ ((forall i, g i = 0) -> decreasing (fun y => capacity_form n N f terms pos jac y y) x states).
Proof. exact @heat_run_decays. Qed.
Print Assumptions C68_heat_decay.
Example C68_conducting_triangle : forall c, dim23 2 /\ List.Forall (linear_heat 2) (hc_terms c) /\ (forall x a, wf (hc_f c) 3 (fun w => length (arguments 3 hc_params x a w))) /\ all_fit (hc_f c) /\ two_spaces 1 (hc_f c) /\
  (forall t x a, exists grad, heat_residual 2 (hc_f c) t (arguments 3 hc_params x a) ex_mem (hc_terms c) ex_pos ex_jac grad) /\ oriented_heat 2 (hc_f c) (hc_terms c) ex_jac /\ positive_heat 2 (hc_terms c) /\
  exists solver, solves (heat_problem 3 (hc_f c) ex_mem hc_params (fun i => negb (Nat.eqb i 1)) (fun _ _ => 0)) solver.
Proof. exact conducting_triangle. Qed.
Example C68_unsupplied_triangle : (forall s, In (HSource s) (hc_terms 0) -> forall X t, s X t 0 none = 0) /\ (forall q, In (HFlux q) (hc_terms 0) -> forall X nu t, q X nu t 0 = 0).
Proof. exact (hc_unsupplied 0 eq_refl). Qed.
