(** * Property C91: a conducting body has exactly one steady temperature, and every implicit step exactly one answer *)
From Coq Require Import NArith ZArith Reals List Lia Lra Bool.
From Verif Require Import Prelude DofCodec Sums Restriction Kernels FunctionalModel Assembly Tensor MatAlg Materials MaterialFacts ShapeAware ShapeDefs WeakForm WeakFormFacts WeakFormPhysics WeakFormWork WeakFormEx Fit Ode Energy EnergySolid EnergyRun EnergyEx EnergyHeat EnergyHeatEx PatchTest PatchMesh PatchGeom PatchEx StiffBody StiffMesh StiffEx HeatUnique HeatMesh HeatMeshEx.
Import ListNotations.
Local Open Scope R_scope.

(** triangles or tetrahedra through which every node is reached from a node with a held temperature: any supplies, any held values *)
Theorem C91_steady : forall St n nn o (f : functional St) m terms pos jac params, dim23 n -> List.Forall (linear_heat n) terms -> all_fit f -> two_spaces 1 f -> layout f o nn 1 ->
  conducting_simplices n f terms -> sound_elements n f terms jac -> conductive n terms -> (forall t x a, exists L, heat_flows n (nn * 1) f m terms pos jac params t x a L) ->
  forall free, (forall a, (a < nn)%nat -> exists a0, (a0 < nn)%nat /\ free (dof_number o nn 1 a0 0) = false /\ reached f terms a0 a) ->
  forall t g, exists x, steady n (nn * 1) f m terms pos jac params t free g x /\ forall y, steady n (nn * 1) f m terms pos jac params t free g y -> forall i, (i < nn * 1)%nat -> y i = x i.
Proof. exact @mesh_steady. Qed.
Print Assumptions C91_steady.
(** a time step needs no held temperature *)
Theorem C91_step : forall St n nn o (f : functional St) m terms pos jac params, dim23 n -> List.Forall (linear_heat n) terms -> all_fit f -> two_spaces 1 f -> layout f o nn 1 -> unity f ->
  conducting_simplices n f terms -> sound_elements n f terms jac -> conductive n terms -> capacious terms -> (forall t x a, exists L, heat_flows n (nn * 1) f m terms pos jac params t x a L) ->
  (forall a, (a < nn)%nat -> exists k g le, material_corner f terms k g le a) ->
  forall dt free, 0 < dt -> forall t u g, exists a, step_answer n (nn * 1) f m terms pos jac params t dt free u g a /\
    forall a', step_answer n (nn * 1) f m terms pos jac params t dt free u g a' -> forall i, (i < nn * 1)%nat -> a' i = a i.
Proof. exact @mesh_step. Qed.
Print Assumptions C91_step.
(** any elements: exactly one steady temperature for all supplies if and only if the held temperatures leave no level change *)
Theorem C91_one : forall St n N (f : functional St) m terms pos jac params, dim23 n -> List.Forall (linear_heat n) terms -> all_fit f -> two_spaces 1 f -> sound_elements n f terms jac -> conductive n terms ->
  (forall t x a, exists L, heat_flows n N f m terms pos jac params t x a L) ->
  forall free, anchored n N f terms pos jac free <->
  forall t g, exists x, steady n N f m terms pos jac params t free g x /\ forall y, steady n N f m terms pos jac params t free g y -> forall i, (i < N)%nat -> y i = x i.
Proof. exact @one_steady. Qed.
Print Assumptions C91_one.
(** whatever is held, two steady temperatures differ by a level change *)
Theorem C91_differ : forall St n N (f : functional St) m terms pos jac params, dim23 n -> List.Forall (linear_heat n) terms -> all_fit f -> two_spaces 1 f -> sound_elements n f terms jac -> conductive n terms ->
  (forall t x a, exists L, heat_flows n N f m terms pos jac params t x a L) ->
  forall t free g x y, steady n N f m terms pos jac params t free g x -> steady n N f m terms pos jac params t free g y -> level n N f terms pos jac (fun i => x i + (-1) * y i).
Proof. exact @steady_differ. Qed.
Print Assumptions C91_differ.
(** Fourier's law with a positive definite conductivity conducts heat down every gradient *)
Theorem C91_fourier : forall n c kappa, (forall h : vec, (exists i, (i < n)%nat /\ h i <> 0) -> 0 < sumn n (fun i => h i * sumn n (fun j => kappa i j * h j))) -> conducting n (fourier_law n c kappa).
Proof. exact fourier_conducting. Qed.
Print Assumptions C91_fourier.

(** a square of four triangles with an oblique conductor, cooled at the bottom and held at one corner *)
Example C91_nonvacuous : List.Forall (linear_heat 2) wterms /\ all_fit wf1 /\ two_spaces 1 wf1 /\ layout wf1 byVDIM 5 1 /\ unity wf1 /\ conducting_simplices 2 wf1 wterms /\ sound_elements 2 wf1 wterms pjac /\
  conductive 2 wterms /\ capacious wterms /\ (forall t x a, exists L, heat_flows 2 (5 * 1) wf1 ex_mem wterms ppos pjac wparams t x a L) /\
  (forall a, (a < 5)%nat -> exists a0, (a0 < 5)%nat /\ wfree (dof_number byVDIM 5 1 a0 0) = false /\ reached wf1 wterms a0 a) /\
  (forall a, (a < 5)%nat -> exists k g le, material_corner wf1 wterms k g le a).
Proof.
  split; [exact w_linear|]. split; [exact w_fit|]. split; [exact w_spaces|]. split; [exact w_layout|]. split; [exact w_unity|]. split; [exact w_simplices|]. split; [exact w_sound|]. split; [exact w_conductive|].
  split; [exact w_capacious|]. split; [exact w_flows|]. split; [exact w_reached|exact w_corners].
Qed.
