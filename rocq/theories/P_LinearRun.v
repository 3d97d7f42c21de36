(** * Property C93: a quasi-static run of a supported linear elastic body does not depend on its history *)
From Coq Require Import NArith ZArith Reals List Lia Lra Bool.
From Verif Require Import Prelude DofCodec Sums Restriction Csr Kernels FunctionalModel FunctionalGrad FunctionalTotal Assembly Dual Tensor MatAlg Materials MaterialFacts ShapeAware WeakForm WeakFormFacts WeakFormPhysics WeakFormWork WeakFormEx Fit Ode Energy EnergySolid EnergyRun StoredEnergy StoredEnergyUse.
From Verif Require Import BoundaryElim Newton QuasiStatic QuasiNewton Traced TracedSolid TracedSolidEx StiffBody NewtonLinear NewtonLinearEx LinearRun LinearRunEx.
Import ListNotations.
Local Open Scope R_scope.

(** a step from any state converges into the equilibrium of the new time *)
Theorem C93_step : forall St n N (f : functional St) terms pos jac c tsize bc target, dim23 n -> all_fit f -> two_spaces n f -> ready f N c tsize -> tsize 1%nat = N -> solid_traced n f terms pos jac ->
  List.Forall linear_integrand terms -> regular_elements n f terms jac -> supported n N f (as_terms n terms) jac (fun i => negb (bc i)) ->
  forall ld s s' ok, plain_load N bc tsize ld -> sound N tsize s -> step f N c bc target ld s = Ok (s', ok) ->
  ok = true /\ equilibrium n N f (s_mem s) (as_terms n terms) pos jac (fun w => l_others ld (w - 1)%nat) (s_t s') (fun i => negb (bc i)) (target (s_t s')) (entries (s_u s')).
Proof. exact @step_balanced. Qed.
Print Assumptions C93_step.
(** so does every step of a run, and the reactions are the nodal forces there *)
Theorem C93_run : forall St n N (f : functional St) terms pos jac c tsize bc target, dim23 n -> all_fit f -> two_spaces n f -> ready f N c tsize -> tsize 1%nat = N -> solid_traced n f terms pos jac ->
  List.Forall linear_integrand terms -> regular_elements n f terms jac -> supported n N f (as_terms n terms) jac (fun i => negb (bc i)) ->
  forall loads s l, sound N tsize s -> List.Forall (plain_load N bc tsize) loads -> run_steps f N c bc target loads s = Ok l ->
  forall k ld s', nth_error loads k = Some ld -> nth_error l k = Some s' ->
  exists m, equilibrium n N f m (as_terms n terms) pos jac (fun w => l_others ld (w - 1)%nat) (s_t s') (fun i => negb (bc i)) (target (s_t s')) (entries (s_u s')) /\
    force f N (s_t s') (l_others ld) m (s_u s') (s_react s') /\ length (s_u s') = N /\ length (s_react s') = N.
Proof. exact @run_balanced. Qed.
Print Assumptions C93_run.
(** two runs from any states with any step lengths, warm starts and line searches agree wherever their times agree *)
Theorem C93_history : forall St n N (f : functional St) terms pos jac c tsize bc target, dim23 n -> all_fit f -> two_spaces n f -> ready f N c tsize -> tsize 1%nat = N -> solid_traced n f terms pos jac ->
  List.Forall linear_integrand terms -> regular_elements n f terms jac -> supported n N f (as_terms n terms) jac (fun i => negb (bc i)) ->
  forall loads1 loads2 s1 s2 l1 l2 k1 k2 ld1 ld2 e1 e2, sound N tsize s1 -> sound N tsize s2 -> List.Forall (plain_load N bc tsize) loads1 -> List.Forall (plain_load N bc tsize) loads2 ->
  run_steps f N c bc target loads1 s1 = Ok l1 -> run_steps f N c bc target loads2 s2 = Ok l2 ->
  nth_error loads1 k1 = Some ld1 -> nth_error l1 k1 = Some e1 -> nth_error loads2 k2 = Some ld2 -> nth_error l2 k2 = Some e2 -> s_t e1 = s_t e2 ->
  s_u e1 = s_u e2 /\ s_react e1 = s_react e2.
Proof. exact @history_free. Qed.
Print Assumptions C93_history.

(** a triangle held at one corner and pulled at another: one step, and two steps to the same time, with warm starts *)
Example C93_nonvacuous : (forall dt, plain_load 6 nl_held nl_size (nl_load dt)) /\ sound 6 nl_size nl_start /\ all_fit nl_f /\ two_spaces 2 nl_f /\ solid_traced 2 nl_f nl_terms ex_pos ex_jac /\
  List.Forall linear_integrand nl_terms /\ regular_elements 2 nl_f nl_terms ex_jac /\ supported 2 6 nl_f (as_terms 2 nl_terms) ex_jac (fun i => negb (nl_held i)).
Proof. exact (conj nl_plain (conj nl_sound (conj nl_fit (conj nl_spaces (conj nl_traced (conj nl_linear (conj nl_regular nl_supported))))))). Qed.
Example C93_triangle : exists c a b b', ready nl_f 6 c nl_size /\ run_steps nl_f 6 c nl_held nl_target [nl_load 1] nl_start = Ok [a] /\
  run_steps nl_f 6 c nl_held nl_target [nl_load (/ 3); nl_load (2 / 3)] nl_start = Ok [b; b'] /\ s_t a = s_t b' /\ s_t b <> s_t b' /\ s_u a = s_u b' /\ nth 2 (s_u a) 0 = 1 /\ nth 2 (s_u b) 0 = / 3.
Proof. exact nl_runs. Qed.
