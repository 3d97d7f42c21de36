(** * Property C96: two dynamic runs of a linear elastic body under the same loads keep the energy of their difference *)
From Coq Require Import NArith ZArith Reals List Lia Lra Bool.
From Verif Require Import Prelude DofCodec Sums Restriction Kernels FunctionalModel Assembly Tensor MatAlg Materials MaterialFacts ShapeAware ShapeDefs WeakForm WeakFormFacts WeakFormPhysics WeakFormWork WeakFormEx Fit Ode Energy EnergySolid EnergyRun EnergyEx StoredEnergy StoredEnergyUse PatchTest PatchMesh PatchGeom PatchEx StiffBody StiffMesh StiffEx HeatUnique HeatDecay MotionUnique MotionUniqueEx MotionApart MotionApartEx.
Import ListNotations.
Local Open Scope R_scope.

(** any loads in time, any prescribed motion of the supports, any steps, any two solvers: kinetic plus strain energy of the difference of the two runs stays what it was at the start *)
Theorem C96_energy : forall St n N (f : functional St) m terms pos jac params ess, dim23 n -> List.Forall (linear_elastic n) terms -> all_fit f -> two_spaces n f ->
  (forall t x a, exists L, nodal_forces n N f m terms pos jac params t x a L) ->
  forall g s1 s2, solves (elastic_problem N f m params ess g) s1 -> solves (elastic_problem N f m params ess g) s2 ->
  forall dts mem1 mem2 told1 told2 t x v y w, List.Forall (fun dt => dt <> 0) dts -> begins (elastic_problem N f m params ess g) mem1 told1 t x -> begins (elastic_problem N f m params ess g) mem2 told2 t y ->
  (forall i, (i < N)%nat -> ess i = true -> x i = y i) ->
  exists l1 l2, newmark_run (elastic_problem N f m params ess g) s1 (1 / 4) (1 / 2) DirectControl mem1 told1 t x v dts = Some l1 /\
    newmark_run (elastic_problem N f m params ess g) s2 (1 / 4) (1 / 2) DirectControl mem2 told2 t y w dts = Some l2 /\ length l1 = length dts /\
    side_by_side (fun x1 v1 x2 v2 => energy (mass_form n N f terms jac) (stiffness_form n N f m terms jac) (diff x1 x2) (diff v1 v2) =
                                     energy (mass_form n N f terms jac) (stiffness_form n N f m terms jac) (diff x y) (diff v w)) l1 l2.
Proof. exact @solid_apart. Qed.
Print Assumptions C96_energy.
(** the same when the module enforces the rates of the prescribed displacements: the starts then agree in the velocities of the supports *)
Theorem C96_energy_rate : forall St n N (f : functional St) m terms pos jac params ess, dim23 n -> List.Forall (linear_elastic n) terms -> all_fit f -> two_spaces n f ->
  (forall t x a, exists L, nodal_forces n N f m terms pos jac params t x a L) ->
  forall g s1 s2, solves (elastic_problem N f m params ess g) s1 -> solves (elastic_problem N f m params ess g) s2 ->
  forall dts mem1 mem2 told1 told2 t x v y w, List.Forall (fun dt => dt <> 0) dts -> begins (elastic_problem N f m params ess g) mem1 told1 t x -> begins (elastic_problem N f m params ess g) mem2 told2 t y ->
  (forall i, (i < N)%nat -> ess i = true -> v i = w i) ->
  exists l1 l2, newmark_run (elastic_problem N f m params ess g) s1 (1 / 4) (1 / 2) RateControl mem1 told1 t x v dts = Some l1 /\
    newmark_run (elastic_problem N f m params ess g) s2 (1 / 4) (1 / 2) RateControl mem2 told2 t y w dts = Some l2 /\ length l1 = length dts /\
    side_by_side (fun x1 v1 x2 v2 => energy (mass_form n N f terms jac) (stiffness_form n N f m terms jac) (diff x1 x2) (diff v1 v2) =
                                     energy (mass_form n N f terms jac) (stiffness_form n N f m terms jac) (diff x y) (diff v w)) l1 l2.
Proof. exact @solid_apart_rate. Qed.
Print Assumptions C96_energy_rate.
(** for a supported body (C90) every displacement of the two runs stays close for ever: the constant depends on the body and on which displacements are held,
    not on the prescribed motion of the supports, steps, number of steps, starts or solvers *)
Theorem C96_close : forall St n N (f : functional St) m terms pos jac params ess, dim23 n -> List.Forall (linear_elastic n) terms -> all_fit f -> two_spaces n f -> solid_elements n f terms jac -> stiff n terms -> heavy terms ->
  (forall t x a, exists L, nodal_forces n N f m terms pos jac params t x a L) -> supported n N f terms jac (fun i => negb (ess i)) ->
  forall i, (i < N)%nat -> exists c, 0 <= c /\
  forall g s1 s2, solves (elastic_problem N f m params ess g) s1 -> solves (elastic_problem N f m params ess g) s2 ->
  forall dts mem1 mem2 told1 told2 t x v y w l1 l2, List.Forall (fun dt => dt <> 0) dts -> begins (elastic_problem N f m params ess g) mem1 told1 t x -> begins (elastic_problem N f m params ess g) mem2 told2 t y ->
  (forall j, (j < N)%nat -> ess j = true -> x j = y j) ->
  newmark_run (elastic_problem N f m params ess g) s1 (1 / 4) (1 / 2) DirectControl mem1 told1 t x v dts = Some l1 ->
  newmark_run (elastic_problem N f m params ess g) s2 (1 / 4) (1 / 2) DirectControl mem2 told2 t y w dts = Some l2 ->
  side_by_side (fun x1 _ x2 _ => (x1 i - x2 i) * (x1 i - x2 i) <= c * energy (mass_form n N f terms jac) (stiffness_form n N f m terms jac) (diff x y) (diff v w)) l1 l2.
Proof. exact @solid_close. Qed.
Print Assumptions C96_close.
(** the same for every linear equation of motion, not only that of the solid module *)
Theorem C96_any : forall p m k f, symmetric_form (p_n p) m -> symmetric_form (p_n p) k -> linear_motion p m k f -> forall s1 s2, solves p s1 -> solves p s2 -> extensional p ->
  forall dts mem1 mem2 told1 told2 t x v y w, List.Forall (fun dt => dt <> 0) dts -> begins p mem1 told1 t x -> begins p mem2 told2 t y -> (forall i, (i < p_n p)%nat -> p_ess p i = true -> x i = y i) ->
  exists l1 l2, newmark_run p s1 (1 / 4) (1 / 2) DirectControl mem1 told1 t x v dts = Some l1 /\ newmark_run p s2 (1 / 4) (1 / 2) DirectControl mem2 told2 t y w dts = Some l2 /\ length l1 = length dts /\
    side_by_side (fun x1 v1 x2 v2 => energy m k (diff x1 x2) (diff v1 v2) = energy m k (diff x y) (diff v w)) l1 l2.
Proof. exact energy_apart. Qed.
Print Assumptions C96_any.

(** a square of four triangles with a traction, one displacement free *)
Example C96_nonvacuous : List.Forall (linear_elastic 2) kterms /\ all_fit kf /\ two_spaces 2 kf /\ solid_elements 2 kf kterms pjac /\ stiff 2 kterms /\ heavy kterms /\
  (forall t x a, exists L, nodal_forces 2 (5 * 2) kf ex_mem kterms ppos pjac kparams t x a L) /\ supported 2 (5 * 2) kf kterms pjac (fun i => negb (kess i)) /\
  (forall g, exists solver, solves (elastic_problem (5 * 2) kf ex_mem kparams kess g) solver) /\
  forall g t x, (forall i, (i < 10)%nat -> kess i = true -> x i = g t i) -> begins (elastic_problem (5 * 2) kf ex_mem kparams kess g) None t t x.
Proof.
  split; [exact k_linear|]. split; [exact k_fit|]. split; [exact k_spaces|]. split; [exact k_solid|]. split; [exact k_stiff|]. split; [exact k_heavy|]. split; [exact k_moving|]. split; [exact k_held|]. split; [exact k_solver|].
  intros g t x H. split; [reflexivity|exact H].
Qed.
