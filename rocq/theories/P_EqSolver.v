(** * C56: the equation solver built from options and input files *)
From Coq Require Import String List ZArith Reals.
Import ListNotations.
From Verif Require Import Prelude EqSolver.

(** ** a solver is built exactly for the supported combinations with a preconditioner *)
Theorem C56_built_partial : forall b nl lin, (exists r, equation_solver b nl lin = Ok r) <-> supported b nl lin /\ lin_prec lin <> NoPrec.
Proof. exact built_iff. Qed.
Print Assumptions C56_built_partial.
Example C56_default_options : forall b, supported b default_nonlinear default_linear /\ lin_prec default_linear <> NoPrec.
Proof. exact default_supported. Qed.
(** it is the one that was asked for, with the tolerances and limits that were asked for, and it keeps the initial guess *)
Theorem C56_as_requested : forall b nl lin n l p, equation_solver b nl lin = Ok (n, l, p) -> as_requested nl lin n l p.
Proof. exact built_as_requested. Qed.
Print Assumptions C56_as_requested.
(** "no preconditioner" is a supported option, but building the solver dereferences the missing preconditioner *)
Theorem C56_no_preconditioner_refuted : forall b nl lin, lin_prec lin = NoPrec -> linear_available b (lin_solver lin) -> equation_solver b nl lin = UB.
Proof. exact no_preconditioner. Qed.
Print Assumptions C56_no_preconditioner_refuted.
(** the print level of the preconditioner has no effect *)
Theorem C56_preconditioner_print_refuted : forall b nl lin k, equation_solver b nl (with_prec_print lin k) = equation_solver b nl lin.
Proof. exact prec_print_ignored. Qed.
Print Assumptions C56_preconditioner_print_refuted.

(** ** input files: what is read *)
Theorem C56_iterative_input : forall petsc_pc b c d o, parse_linear petsc_pc b {| li_type := "iterative"; li_iterative := Some c; li_direct := d |} = Ok o ->
  In (get "gmres"%string (ii_solver c), lin_solver o) linear_names /\ In (get "JacobiSmoother"%string (ii_prec c), lin_prec o) (prec_names b) /\
  lin_rel o = get (1 / 10 ^ 6)%R (ii_rel c) /\ lin_abs o = get (1 / 10 ^ 8)%R (ii_abs c) /\ lin_max o = get 5000%Z (ii_max c) /\ lin_print o = get 0%Z (ii_print c) /\
  (lin_prec o = Petsc -> petsc_pc (get "jacobi"%string (ii_petsc c)) = Ok (lin_petsc_pc o)).
Proof. exact parse_iterative. Qed.
Print Assumptions C56_iterative_input.
Theorem C56_linear_type : forall petsc_pc b i o, parse_linear petsc_pc b i = Ok o ->
  (li_type i = "direct"%string /\ li_direct i <> None /\ lin_solver o = SuperLU) \/ (li_type i = "iterative"%string /\ li_iterative i <> None).
Proof. exact parse_linear_types. Qed.
Print Assumptions C56_linear_type.
Theorem C56_nonlinear_input : forall i o, parse_nonlinear i = Ok o <->
  In (get "Newton"%string (ni_solver i), nl_solver o) nonlinear_names /\ nl_rel o = get (1 / 10 ^ 2)%R (ni_rel i) /\ nl_abs o = get (1 / 10 ^ 4)%R (ni_abs i) /\
  nl_max o = get 500%Z (ni_max i) /\ nl_print o = get 0%Z (ni_print i) /\ nl_min o = 0%Z /\ nl_line o = 0%Z.
Proof. exact parse_nonlinear_spec. Qed.
Print Assumptions C56_nonlinear_input.
(** accepted input is built (KINSOL only where it is available), and no input is undefined behaviour *)
Theorem C56_input_builds : forall petsc_pc b li ni lin nl, parse_linear petsc_pc b li = Ok lin -> parse_nonlinear ni = Ok nl ->
  (nl_solver nl = Newton \/ sundials b = true) -> exists n l p, solver_from_input petsc_pc b li ni = Ok (n, l, p) /\ as_requested nl lin n l p.
Proof. exact input_builds. Qed.
Print Assumptions C56_input_builds.
Theorem C56_input_defined : forall petsc_pc b li ni, (forall s, petsc_pc s <> UB) -> solver_from_input petsc_pc b li ni <> UB.
Proof. exact input_defined. Qed.
Print Assumptions C56_input_defined.
Example C56_input_example : forall petsc_pc b, exists lin, parse_linear petsc_pc b (iterative_with "cg" "HypreAMG") = Ok lin /\ lin_solver lin = CG /\ lin_prec lin = HypreAMG.
Proof. exact input_example. Qed.
(** names that the schema documents are refused *)
Theorem C56_documented_names_refuted : forall petsc_pc b, (forall p, parse_linear petsc_pc b (iterative_with "minres" p) = Refused) /\
  (forall s, s = "gmres"%string \/ s = "cg"%string -> parse_linear petsc_pc b (iterative_with s "AMG") = Refused).
Proof. exact documented_refused. Qed.
Print Assumptions C56_documented_names_refuted.
(** line searches, the trust region and the other linear solvers cannot be asked for *)
Theorem C56_reachable_from_input_refuted : forall petsc_pc b li ni lin nl, parse_linear petsc_pc b li = Ok lin -> parse_nonlinear ni = Ok nl ->
  nl_line nl = 0%Z /\ nl_min nl = 0%Z /\ nl_solver nl <> NewtonLineSearch /\ nl_solver nl <> TrustRegion /\ nl_solver nl <> LBFGS /\
  lin_solver lin <> Strumpack /\ lin_solver lin <> PetscCG /\ lin_solver lin <> PetscGMRES.
Proof. exact unreachable. Qed.
Print Assumptions C56_reachable_from_input_refuted.

(** ** use: after any operators the last one is solved, with zero right-hand side and the caller's vector as initial guess; the
    linear solver has been attached once *)
Theorem C56_solve : forall Op X mult zero l ops (o : Op) (x : X),
  solve Op X mult zero (fold_left (fun u o => set_operator Op l o u) (ops ++ [o]) (fresh Op)) x = Ok (mult o l (zero x) x) /\
  u_calls Op (fold_left (fun u o => set_operator Op l o u) (ops ++ [o]) (fresh Op)) = 1%nat.
Proof. exact use_spec. Qed.
Print Assumptions C56_solve.

(** ** the monolithic matrix has the entries of the blocks *)
Theorem C56_monolithic : forall sizes rows cols blocks b, gather_blocks rows cols blocks = Ok b -> rows = cols /\
  forall i j r c, i < rows -> j < rows -> r < sizes i -> c < sizes j ->
  monolithic sizes rows b (offset sizes i + r) (offset sizes j + c) = value (blocks i j) r c.
Proof. exact monolithic_spec. Qed.
Print Assumptions C56_monolithic.
Theorem C56_monolithic_accepts : forall rows cols blocks, (exists b, gather_blocks rows cols blocks = Ok b) <->
  rows = cols /\ forall i j, i < rows -> j < rows -> forall e, blocks i j <> Other e.
Proof. exact monolithic_accepts. Qed.
Print Assumptions C56_monolithic_accepts.
