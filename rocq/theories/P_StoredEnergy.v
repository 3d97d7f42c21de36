(** * Property C87: an elastic body gives back the work done on it *)
From Coq Require Import NArith ZArith Reals List Lia Lra Bool.
From Coquelicot Require Import Coquelicot.
From Verif Require Import Prelude DofCodec Sums Restriction Kernels FunctionalModel Assembly Dual LUDeriv Tensor MatAlg Materials MaterialFacts ShapeAware WeakForm WeakFormFacts WeakFormPhysics WeakFormWork WeakFormEx Fit Ode OdeEx Energy EnergySolid EnergyRun EnergyEx StoredEnergy StoredEnergyUse StoredEnergyEx.
Import ListNotations.
Local Open Scope R_scope.

(** ** the nodal forces are inertia plus the slope of the potential energy, along every motion of the degrees of freedom *)
Theorem C87_slope : forall St n N (f : functional St) m terms pos jac params psi, dim23 n -> all_fit f -> two_spaces n f -> elastic n terms psi ->
  forall t x a L (y : R -> vec) v tau, nodal_forces n N f m terms pos jac params t x a L -> vderive N y tau v -> (forall i, (i < N)%nat -> y tau i = x i) ->
  is_derive (fun s => potential n N f m terms pos jac psi t (y s)) tau (dotn N v (fun i => nth i L 0) - mass_form n N f terms jac v a).
Proof. exact (fun St n N f m terms pos jac params psi D F TS EL t x a L y v tau => @slope_forces St n N f m terms pos jac params psi D F TS t x a L y v tau EL). Qed.
Print Assumptions C87_slope.

(** ** the work of the nodal forces on a path depends only on its ends; on a closed path it is zero *)
Theorem C87_path : forall St n N (f : functional St) m terms pos jac params psi, dim23 n -> all_fit f -> two_spaces n f -> elastic n terms psi ->
  forall t (x v : R -> vec) (L : R -> list R) a b,
  (forall tau, Rmin a b <= tau <= Rmax a b -> vderive N x tau (v tau) /\ nodal_forces n N f m terms pos jac params t (x tau) rest (L tau) /\
     continuous (fun s => dotn N (v s) (fun i => nth i (L s) 0)) tau) ->
  is_RInt (fun tau => dotn N (v tau) (fun i => nth i (L tau) 0)) a b (potential n N f m terms pos jac psi t (x b) - potential n N f m terms pos jac psi t (x a)).
Proof. exact (fun St n N f m terms pos jac params psi D F TS EL t x v L a b => @path_work St n N f m terms pos jac params psi D F TS t x v L a b EL). Qed.
Print Assumptions C87_path.
Theorem C87_cycle : forall St n N (f : functional St) m terms pos jac params psi, dim23 n -> all_fit f -> two_spaces n f -> elastic n terms psi ->
  forall t (x v : R -> vec) (L : R -> list R) a b,
  (forall tau, Rmin a b <= tau <= Rmax a b -> vderive N x tau (v tau) /\ nodal_forces n N f m terms pos jac params t (x tau) rest (L tau) /\
     continuous (fun s => dotn N (v s) (fun i => nth i (L s) 0)) tau) ->
  (forall i, (i < N)%nat -> x b i = x a i) -> is_RInt (fun tau => dotn N (v tau) (fun i => nth i (L tau) 0)) a b 0.
Proof. exact (fun St n N f m terms pos jac params psi D F TS EL t x v L a b => @cycle_work St n N f m terms pos jac params psi D F TS t x v L a b EL). Qed.
Print Assumptions C87_cycle.
(** a triangle of a St. Venant-Kirchhoff material, pulled out and let back in *)
Example C87_path_nonvacuous : dim23 2 /\ all_fit sv_f /\ two_spaces 2 sv_f /\ elastic 2 sv_terms sv_psi /\
  (forall tau, Rmin 0 1 <= tau <= Rmax 0 1 -> vderive 6 pull tau (pull_rate tau) /\ nodal_forces 2 6 sv_f ex_mem sv_terms ex_pos ex_jac no_params 0 (pull tau) rest (forces_at 0 (pull tau) rest) /\
     continuous (fun s => dotn 6 (pull_rate s) (fun i => nth i (forces_at 0 (pull s) rest) 0)) tau) /\
  (forall i, (i < 6)%nat -> pull 1 i = pull 0 i) /\
  potential 2 6 sv_f ex_mem sv_terms ex_pos ex_jac sv_psi 0 (pull 0) < potential 2 6 sv_f ex_mem sv_terms ex_pos ex_jac sv_psi 0 (pull (1 / 2)).
Proof. exact stretched_triangle. Qed.

(** ** equilibria are the stationary points of the potential energy among the displacements the supports allow *)
Theorem C87_equilibrium : forall St n N (f : functional St) m terms pos jac params psi, dim23 n -> all_fit f -> two_spaces n f -> elastic n terms psi ->
  forall t x L (free : nat -> bool), nodal_forces n N f m terms pos jac params t x rest L ->
  ((forall i, (i < N)%nat -> free i = true -> nth i L 0 = 0) <->
   (forall v : vec, (forall i, (i < N)%nat -> free i = false -> v i = 0) -> is_derive (fun s => potential n N f m terms pos jac psi t (fun i => x i + s * v i)) 0 0)).
Proof. exact (fun St n N f m terms pos jac params psi D F TS EL t x L free => @equilibrium_stationary St n N f m terms pos jac params psi D F TS t x L free EL). Qed.
Print Assumptions C87_equilibrium.
(** of linear elastic bodies with elements that are not inverted and moduli that are not negative they are the minima *)
Theorem C87_minimum : forall St n N (f : functional St) m terms pos jac params psi, dim23 n -> all_fit f -> two_spaces n f ->
  List.Forall (linear_elastic n) terms -> quadratic n terms psi -> oriented n f terms jac -> positive n terms ->
  forall t x L (free : nat -> bool), nodal_forces n N f m terms pos jac params t x rest L -> (forall i, (i < N)%nat -> free i = true -> nth i L 0 = 0) ->
  forall y, (forall i, (i < N)%nat -> free i = false -> y i = x i) -> potential n N f m terms pos jac psi t x <= potential n N f m terms pos jac psi t y.
Proof. exact (fun St n N f m terms pos jac params psi D F TS LE Q O P t x L free => @equilibrium_minimum St n N f m terms pos jac params psi D F TS t x L free LE Q O P). Qed.
Print Assumptions C87_minimum.
(** a triangle under tension which is free to contract sideways *)
Example C87_minimum_nonvacuous : dim23 2 /\ all_fit el_f /\ two_spaces 2 el_f /\ List.Forall (linear_elastic 2) el_terms /\ quadratic 2 el_terms el_psi /\ oriented 2 el_f el_terms ex_jac /\ positive 2 el_terms /\
  exists L, nodal_forces 2 6 el_f ex_mem el_terms ex_pos ex_jac no_params 0 tension rest L /\ (forall i, (i < 6)%nat -> Nat.eqb i 5 = true -> nth i L 0 = 0) /\
    0 < potential 2 6 el_f ex_mem el_terms ex_pos ex_jac el_psi 0 tension.
Proof. exact tension_triangle. Qed.

(** ** motions: under loads which do not change, kinetic plus potential energy changes at the rate at which the supports work *)
Theorem C87_power : forall St n N (f : functional St) m terms pos jac params psi, dim23 n -> all_fit f -> two_spaces n f -> elastic n terms psi ->
  forall t (x v a : R -> vec) L tau, (forall w, load_form n N f terms pos jac tau w = load_form n N f terms pos jac t w) ->
  vderive N x tau (v tau) -> vderive N v tau (a tau) -> nodal_forces n N f m terms pos jac params tau (x tau) (a tau) L ->
  is_derive (fun s => kinetic n N f terms jac (v s) + potential n N f m terms pos jac psi t (x s)) tau (dotn N (v tau) (fun i => nth i L 0)).
Proof. exact (fun St n N f m terms pos jac params psi D F TS EL t x v a L tau => @motion_power St n N f m terms pos jac params psi D F TS t x v a L tau EL). Qed.
Print Assumptions C87_power.
(** and stays the same when the supports are at rest *)
Theorem C87_conserved : forall St n N (f : functional St) m terms pos jac params psi, dim23 n -> all_fit f -> two_spaces n f -> elastic n terms psi ->
  forall t0 (x v a : R -> vec) (L : R -> list R) (free : nat -> bool) t1 t2, t1 <= t2 ->
  (forall tau w, t1 <= tau <= t2 -> load_form n N f terms pos jac tau w = load_form n N f terms pos jac t0 w) ->
  (forall tau, t1 <= tau <= t2 -> vderive N x tau (v tau) /\ vderive N v tau (a tau) /\ nodal_forces n N f m terms pos jac params tau (x tau) (a tau) (L tau) /\
     forall i, (i < N)%nat -> if free i then nth i (L tau) 0 = 0 else v tau i = 0) ->
  kinetic n N f terms jac (v t2) + potential n N f m terms pos jac psi t0 (x t2) = kinetic n N f terms jac (v t1) + potential n N f m terms pos jac psi t0 (x t1).
Proof. exact (fun St n N f m terms pos jac params psi D F TS EL t0 x v a L free t1 t2 => @motion_conserves St n N f m terms pos jac params psi D F TS t0 x v a L free t1 t2 EL). Qed.
Print Assumptions C87_conserved.
(** a triangle in free fall for two seconds *)
Example C87_conserved_nonvacuous : elastic 2 sv_terms sv_psi /\ (forall tau w, 0 <= tau <= 2 -> load_form 2 6 sv_f sv_terms ex_pos ex_jac tau w = load_form 2 6 sv_f sv_terms ex_pos ex_jac 0 w) /\
  (forall tau, 0 <= tau <= 2 -> vderive 6 fall tau (fall_rate tau) /\ vderive 6 fall_rate tau (fall_rate2 tau) /\
     nodal_forces 2 6 sv_f ex_mem sv_terms ex_pos ex_jac no_params tau (fall tau) (fall_rate2 tau) (forces_at tau (fall tau) (fall_rate2 tau)) /\
     forall i, (i < 6)%nat -> if (fun _ => true) i then nth i (forces_at tau (fall tau) (fall_rate2 tau)) 0 = 0 else fall_rate tau i = 0) /\
  0 < kinetic 2 6 sv_f sv_terms ex_jac (fall_rate 2) /\ fall 2 1%nat = -20.
Proof. exact falling_triangle. Qed.

(** ** materials that store energy: linear elasticity in the small-displacement residual, St. Venant-Kirchhoff and neo-Hookean in the finite one *)
Theorem C87_linear : forall St n rho K G, dim23 n -> stores n (SMaterial false rho (fun (_ : St) H => Some (linear_isotropic n K G H))) (fun _ => energy_linear n K G).
Proof. exact linear_stores. Qed.
Print Assumptions C87_linear.
Theorem C87_linear_quadratic : forall n K G H, energy_linear n K G H = / 2 * inner n n (linear_isotropic n K G H) H.
Proof. exact linear_quadratic. Qed.
Print Assumptions C87_linear_quadratic.
Theorem C87_stvk : forall St n rho K G, dim23 n -> stores n (SMaterial true rho (fun (_ : St) H => stvk n K G H)) (fun _ => energy_stvk n K G).
Proof. exact stvk_stores. Qed.
Print Assumptions C87_stvk.
Theorem C87_neo : forall St n rho lambda G, dim23 n -> stores n (SMaterial true rho (fun (_ : St) H => neo n lambda G H)) (fun _ => energy_neo n lambda G).
Proof. exact neo_stores. Qed.
Print Assumptions C87_neo.

(** ** but the linear elastic material in the finite-strain residual, a combination the module accepts without a word, stores no energy:
    whatever function of the gradient one tries, on some path it does not account for the work done *)
Theorem C87_linear_refuted : exists rho K G, 0 < rho /\ 0 < K /\ 0 < G /\ ~ exists psi, stores 2 (SMaterial true rho (fun (_ : unit) H => Some (linear_isotropic 2 K G H))) psi.
Proof. exact mixed_laws. Qed.
Print Assumptions C87_linear_refuted.
