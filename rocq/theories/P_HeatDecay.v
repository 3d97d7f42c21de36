(** * Property C95: implicit heat conduction forgets its start and settles at the steady temperature, whatever the step lengths *)
From Coq Require Import NArith ZArith Reals List Lia Lra Bool.
From Verif Require Import Prelude DofCodec Sums Restriction Kernels FunctionalModel Assembly Tensor MatAlg Materials MaterialFacts ShapeAware ShapeDefs WeakForm WeakFormFacts WeakFormPhysics WeakFormWork WeakFormEx Fit Ode Energy EnergySolid EnergyRun EnergyEx EnergyHeat EnergyHeatEx PatchTest PatchMesh PatchGeom PatchEx StiffBody StiffMesh StiffEx HeatUnique HeatMesh HeatDecay HeatDecayEx.
Import ListNotations.
Local Open Scope R_scope.

(** the backward Euler integrator with direct control of the prescribed temperatures takes implicit steps *)
Theorem C95_code : forall p solver, solves p solver -> forall dts t x, List.Forall (fun dt => 0 < dt) dts -> implicit_run p t x dts (last (diffusion_run p solver t x dts) x).
Proof. exact integrator_runs. Qed.
Print Assumptions C95_code.
(** supplies and held temperatures of any kind: two runs with the same steps from different starts approach each other, in the heat content of their difference
    and, like the inverse of the elapsed time, in its conduction *)
Theorem C95_forgets : forall St n N (f : functional St) m terms pos jac params ess g, dim23 n -> List.Forall (linear_heat n) terms -> all_fit f -> two_spaces 1 f -> sound_elements n f terms jac -> conductive n terms -> capacious terms ->
  (forall t x a, exists L, heat_flows n N f m terms pos jac params t x a L) ->
  forall dts t x x' y y', implicit_run (heat_problem N f m params ess g) t x dts x' -> implicit_run (heat_problem N f m params ess g) t y dts y' -> (forall i, (i < N)%nat -> ess i = true -> x i = y i) ->
  capacity_form n N f terms pos jac (diff x' y') (diff x' y') + 2 * elapsed dts * conduct_form n N f terms pos jac (diff x' y') (diff x' y') <= capacity_form n N f terms pos jac (diff x y) (diff x y) /\
  conduct_form n N f terms pos jac (diff x' y') (diff x' y') <= conduct_form n N f terms pos jac (diff x y) (diff x y).
Proof. exact @runs_approach. Qed.
Print Assumptions C95_forgets.
(** constant supplies and held temperatures which leave no level change: from every start the temperature at every node settles at the steady temperature,
    and the time after which it is within [eps] does not depend on the steps *)
Theorem C95_settles : forall St n N (f : functional St) m terms pos jac params ess g, dim23 n -> List.Forall (linear_heat n) terms -> all_fit f -> two_spaces 1 f -> sound_elements n f terms jac -> conductive n terms -> capacious terms ->
  (forall t x a, exists L, heat_flows n N f m terms pos jac params t x a L) -> constant_supplies terms -> anchored n N f terms pos jac (fun i => negb (ess i)) ->
  exists s, steady n N f m terms pos jac params 0 (fun i => negb (ess i)) g s /\
  forall x, (forall i, (i < N)%nat -> ess i = true -> x i = g i) -> forall eps, 0 < eps ->
  exists T, forall dts t x', implicit_run (heat_problem N f m params ess (fun _ => g)) t x dts x' -> T <= elapsed dts -> forall i, (i < N)%nat -> Rabs (x' i - s i) <= eps.
Proof. exact @settles. Qed.
Print Assumptions C95_settles.
(** runs with any steps exist from every start, when every single step has an answer (C91) *)
Theorem C95_exist : forall St n N (f : functional St) m terms pos jac params ess g, dim23 n -> List.Forall (linear_heat n) terms -> all_fit f -> two_spaces 1 f ->
  (forall dt t u g0, 0 < dt -> exists a, step_answer n N f m terms pos jac params t dt (fun i => negb (ess i)) u g0 a) ->
  forall dts, List.Forall (fun dt => 0 < dt) dts -> forall t x, exists x', implicit_run (heat_problem N f m params ess g) t x dts x'.
Proof. exact @runs_exist. Qed.
Print Assumptions C95_exist.

(** a square of four triangles with an oblique conductor, held at one corner and cooled at the bottom by surroundings of constant temperature *)
Example C95_nonvacuous : List.Forall (linear_heat 2) zterms /\ all_fit zf1 /\ two_spaces 1 zf1 /\ sound_elements 2 zf1 zterms pjac /\ conductive 2 zterms /\ capacious zterms /\
  (forall t x a, exists L, heat_flows 2 (5 * 1) zf1 ex_mem zterms ppos pjac zparams t x a L) /\ constant_supplies zterms /\ anchored 2 (5 * 1) zf1 zterms ppos pjac (fun i => negb (zess i)).
Proof.
  split; [exact z_linear|]. split; [exact z_fit|]. split; [exact z_spaces|]. split; [exact z_sound|]. split; [exact z_conductive|]. split; [exact z_capacious|]. split; [exact z_flows|]. split; [exact z_constant|exact z_anchored].
Qed.
(** its runs exist, for all steps and starts *)
Example C95_square_runs : forall g dts, List.Forall (fun dt => 0 < dt) dts -> forall t x, exists x', implicit_run (heat_problem (5 * 1) zf1 ex_mem zparams zess g) t x dts x'.
Proof.
  intros g. apply (C95_exist Datatypes.unit 2 (5 * 1) zf1 ex_mem zterms ppos pjac zparams zess g (or_introl eq_refl) z_linear z_fit z_spaces). intros dt t u g0 Hd.
  destruct (mesh_step 2 5 byVDIM zf1 ex_mem zterms ppos pjac zparams (or_introl eq_refl) z_linear z_fit z_spaces z_layout z_unity z_simplices z_sound z_conductive z_capacious z_flows z_corners dt (fun i => negb (zess i)) Hd t u g0) as (a & A & _).
  now exists a.
Qed.
