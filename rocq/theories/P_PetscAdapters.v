(** * C88: the PETSc solvers run with the options they were given *)
From Coq Require Import List ZArith Reals.
From Verif Require Import Prelude EqSolver PetscAdapters PetscAdaptersUse PetscAdaptersEx.
Import ListNotations.

(** ** every nonlinear solve of every run uses the requested method, line search, tolerances and limits *)
Theorem C88_method : forall (M : Type) b nl lin n l p, equation_solver b nl lin = Ok (n, l, p) -> forall es y os, ns_class n = CPetsc ->
  run (new_system (M := M) nl l) es = Some (y, os) -> Forall (solves_as_asked nl) (nonlinear_solves os).
Proof. exact built_solves. Qed.
Print Assumptions C88_method.
(** a run is refused only when it solves before an operator has been set *)
Theorem C88_started : forall (M : Type) nl l es, run (new_system (M := M) nl l) (SetOperator :: es) <> None.
Proof. exact run_started. Qed.
Print Assumptions C88_started.
(** ** the linear systems of a run are those with the matrices handed over, in their order *)
Theorem C88_systems : forall (M : Type) es y y' os, run (M := M) y es = Some (y', os) -> map rp_matrix (linear_systems os) = matrices es.
Proof. exact run_matrices. Qed.
Print Assumptions C88_systems.
(** each is preconditioned with its own matrix, never with an older one *)
Theorem C88_preconditioner : forall (M : Type) b nl lin n l p, equation_solver b nl lin = Ok (n, l, p) -> forall es y os,
  assembled_only es \/ lin_prec lin = Petsc -> run (new_system (M := M) nl l) es = Some (y, os) ->
  Forall (fun r => rp_prec r = Some (rp_matrix r)) (linear_systems os).
Proof. exact built_current. Qed.
Print Assumptions C88_preconditioner.
(** ** the linear tolerances: those of the options for the solvers outside PETSc *)
Theorem C88_linear_settings : forall (M : Type) b nl lin n l p, equation_solver b nl lin = Ok (n, l, p) -> forall es y os,
  ~ is_direct (lin_solver lin) -> is_petsc (lin_solver lin) = false -> run (new_system (M := M) nl l) es = Some (y, os) ->
  Forall (fun r => rp_tol r = Some (settings_of lin)) (linear_systems os).
Proof. exact built_tuned. Qed.
Print Assumptions C88_linear_settings.
(** for the PETSc ones from the first linear solve of the physics module on (a warm start or an adjoint solve); before it they are not in force, see below *)
Theorem C88_linear_settings_partial : forall (M : Type) b nl lin n l p, equation_solver b nl lin = Ok (n, l, p) -> forall es a es' y os,
  ~ is_direct (lin_solver lin) -> run (new_system (M := M) nl l) (es ++ LinearSolve a :: es') = Some (y, os) ->
  Forall (fun r => rp_tol r = Some (settings_of lin)) (skipn (List.length (matrices es)) (linear_systems os)).
Proof. exact built_tuned_after. Qed.
Print Assumptions C88_linear_settings_partial.
Example C88_nonvacuous : forall r, (exists n, equation_solver all_built bt_options (cg_options r) = Ok (n, cg_solver r, ls_prec (cg_solver r)) /\ ns_class n = CPetsc) /\
  exists y os, run (new_system bt_options (cg_solver r)) warm_run = Some (y, os) /\ map rp_matrix (linear_systems os) = [1; 2; 3; 4; 5]%nat /\
    List.length (nonlinear_solves os) = 2%nat /\ assembled_only warm_run.
Proof. exact (fun r => conj (bt_built r) (warm_runs r)). Qed.
(** without such a solve the nonlinear solver's linear systems are solved to PETSc's own tolerances, whatever was asked for *)
Theorem C88_linear_settings_refuted : exists b nl lin n l p, equation_solver b nl lin = Ok (n, l, p) /\ ns_class n = CPetsc /\ ~ is_direct (lin_solver lin) /\
  exists es y os, run (new_system (M := nat) nl l) es = Some (y, os) /\ ~ Forall (fun r => rp_tol r = Some (settings_of lin)) (linear_systems os).
Proof. exact cold_refuted. Qed.
Print Assumptions C88_linear_settings_refuted.
(** the least number of iterations only counts as "at least one": any two positive values give the same runs *)
Theorem C88_min_iterations_refuted : forall (M : Type) o l m es, (0 < nl_min o)%Z -> (0 < m)%Z ->
  option_map snd (run (new_system (M := M) (with_min o m) l) es) = option_map snd (run (new_system o l) es).
Proof. exact min_ignored. Qed.
Print Assumptions C88_min_iterations_refuted.

(** ** the back-off before a line search: the step is halved as often as needed to reach finite residuals, and no more often; it ends there, after the allowed number of halvings, or at the smallest step *)
Theorem C88_backoff : forall F X lambda min_lambda m Y, exists k, (k <= m)%nat /\
  pk_step (pre_check F X lambda min_lambda m Y) = halved k Y /\
  (pk_changed (pre_check F X lambda min_lambda m Y) = true <-> (0 < k)%nat) /\
  (forall j, (j < k)%nat -> ~ finite_at F (reached X lambda (halved j Y))) /\
  (finite_at F (reached X lambda (halved k Y)) \/ k = m \/ (lambda / 2 ^ Datatypes.S k < min_lambda)%R).
Proof. exact pre_check_spec. Qed.
Print Assumptions C88_backoff.
(** so it succeeds whenever the residual is finite in a neighbourhood which the allowed halvings reach *)
Theorem C88_backoff_reaches : forall F X lambda min_lambda m Y r j, (0 <= r)%R -> (0 < lambda)%R -> List.length Y = List.length X ->
  (forall w, List.length w = List.length X -> (forall i, (Rabs (nth i w 0 - nth i X 0) <= r)%R) -> finite_at F w) ->
  (j < m)%nat -> (min_lambda <= lambda / 2 ^ j)%R -> (forall i, (lambda * Rabs (nth i Y 0) <= r * 2 ^ j)%R) ->
  finite_at F (reached X lambda (pk_step (pre_check F X lambda min_lambda m Y))).
Proof. exact pre_check_reaches. Qed.
Print Assumptions C88_backoff_reaches.
Example C88_backoff_nonvacuous : finite_at inside (reached [0%R] 1 (pk_step (pre_check inside [0%R] 1 (/ 10 ^ 12) 5 [(-8)%R]))) /\ ~ finite_at inside (reached [0%R] 1 [(-8)%R]).
Proof. exact inside_reached. Qed.
(** with the five failures the solver allows, a sixth halving is not tried *)
Example C88_backoff_gives_up : pk_step (pre_check narrow [0%R] 1 0 5 [(-1)%R]) = halved 5 [(-1)%R] /\
  ~ finite_at narrow (reached [0%R] 1 (halved 5 [(-1)%R])) /\ finite_at narrow (reached [0%R] 1 (halved 6 [(-1)%R])).
Proof. exact narrow_step. Qed.
