(** * Building the equation solver from options and from input files

    /repo/src/serac/numerics/equation_solver.cpp:687-1186 and /repo/src/serac/numerics/solver_config.hpp:100-408.
    The third-party solvers themselves are represented by which one is built and with which settings. *)
From Coq Require Import String List ZArith Bool Lia Reals.
From Verif Require Import Prelude.
Import ListNotations.

(** What the build contains (SERAC_USE_SUNDIALS, SERAC_USE_PETSC, MFEM_USE_STRUMPACK, MFEM_USE_AMGX). *)
Record build := { sundials : bool; petsc : bool; strumpack : bool; amgx : bool }.

Inductive linear_kind := CG | GMRES | SuperLU | Strumpack | PetscCG | PetscGMRES.                    (* solver_config.hpp:103-111 *)
Inductive prec_kind := HypreJacobi | HypreL1Jacobi | HypreGaussSeidel | HypreAMG | HypreILU | AMGX | Petsc | NoPrec.   (* :296-306 *)
Inductive nonlinear_kind := Newton | LBFGS | NewtonLineSearch | TrustRegion | KINFullStep | KINLineSearch | KINPicard
  | PetscNewton | PetscBacktracking | PetscCriticalPoint | PetscTrustRegion.                         (* :143-156 *)

(** LinearSolverOptions (solver_config.hpp:342-372), with its default values. *)
Record linear_opts := { lin_solver : linear_kind; lin_prec : prec_kind; lin_petsc_pc : string;
  lin_rel : R; lin_abs : R; lin_max : Z; lin_print : Z; lin_prec_print : Z }.
Definition default_linear : linear_opts := {| lin_solver := GMRES; lin_prec := HypreJacobi; lin_petsc_pc := "JACOBI";
  lin_rel := 1 / 10 ^ 8; lin_abs := 1 / 10 ^ 12; lin_max := 300; lin_print := 0; lin_prec_print := 0 |}.
(** NonlinearSolverOptions (solver_config.hpp:376-404) *)
Record nonlinear_opts := { nl_solver : nonlinear_kind; nl_rel : R; nl_abs : R; nl_min : Z; nl_max : Z; nl_line : Z; nl_print : Z }.
Definition default_nonlinear : nonlinear_opts := {| nl_solver := NewtonLineSearch; nl_rel := 1 / 10 ^ 8; nl_abs := 1 / 10 ^ 12;
  nl_min := 0; nl_max := 20; nl_line := 0; nl_print := 0 |}.

(** A preconditioner object: its kind, and the print level for those that get one. *)
Record preconditioner := { pc_kind : prec_kind; pc_print : option Z }.
(** A linear solver object: direct solvers have no tolerances. *)
Record settings := { s_rel : R; s_abs : R; s_max : Z }.
Record linear_solver := { ls_kind : linear_kind; ls_print : Z; ls_settings : option settings; ls_prec : option preconditioner }.
(** A nonlinear solver object; [ns_min] and [ns_line] only where the class takes the options. *)
Inductive nonlinear_class := CNewton | CLBFGS | CTrustRegion | CPetsc | CKinsolNone | CKinsolLine | CKinsolPicard.
Record nonlinear_solver := { ns_class : nonlinear_class; ns_min : Z; ns_line : Z; ns_settings : settings; ns_print : Z;
  ns_keeps_guess : bool; ns_prec : option preconditioner }.

(** buildPreconditioner (equation_solver.cpp:1007-1052); None is a null pointer.  SLIC_ERROR is a refusal. *)
Definition build_prec (b : build) (o : linear_opts) : outcome (option preconditioner) :=
  match lin_prec o with
  | HypreAMG => Ok (Some {| pc_kind := HypreAMG; pc_print := Some (lin_print o) |})
  | HypreJacobi => Ok (Some {| pc_kind := HypreJacobi; pc_print := None |})
  | HypreL1Jacobi => Ok (Some {| pc_kind := HypreL1Jacobi; pc_print := None |})
  | HypreGaussSeidel => Ok (Some {| pc_kind := HypreGaussSeidel; pc_print := None |})
  | HypreILU => Ok (Some {| pc_kind := HypreILU; pc_print := Some (lin_print o) |})
  | AMGX => if amgx b then Ok (Some {| pc_kind := AMGX; pc_print := None |}) else Refused
  | Petsc => if petsc b then Ok (Some {| pc_kind := Petsc; pc_print := None |}) else Refused
  | NoPrec => Ok None
  end.

(** buildLinearSolverAndPreconditioner (equation_solver.cpp:890-948) *)
Definition iterative (o : linear_opts) (p : option preconditioner) : linear_solver :=
  {| ls_kind := lin_solver o; ls_print := lin_print o;
     ls_settings := Some {| s_rel := lin_rel o; s_abs := lin_abs o; s_max := lin_max o |}; ls_prec := p |}.
Definition direct (o : linear_opts) : linear_solver :=
  {| ls_kind := lin_solver o; ls_print := lin_print o; ls_settings := None; ls_prec := None |}.
Definition build_linear (b : build) (o : linear_opts) : outcome (linear_solver * option preconditioner) :=
  bindO (build_prec b o) (fun p =>
  match lin_solver o with
  | SuperLU => Ok (direct o, p)
  | Strumpack => if strumpack b then Ok (direct o, p) else Refused
  | CG | GMRES => Ok (iterative o p, p)
  | PetscCG | PetscGMRES => if petsc b then Ok (iterative o p, p) else Refused
  end).

(** buildNonlinearSolver (equation_solver.cpp:820-888) *)
Definition build_nonlinear (b : build) (o : nonlinear_opts) (p : preconditioner) : outcome nonlinear_solver :=
  let plain := ((nl_min o =? 0) && (nl_line o =? 0))%Z in
  let make c m l pc := Ok {| ns_class := c; ns_min := m; ns_line := l;
    ns_settings := {| s_rel := nl_rel o; s_abs := nl_abs o; s_max := nl_max o |}; ns_print := nl_print o; ns_keeps_guess := true; ns_prec := pc |} in
  let kinsol := fun c => if sundials b then if plain then make c 0%Z 0%Z None else Refused else Refused in
  let snes := fun c => if petsc b then make c (nl_min o) (nl_line o) None else Refused in
  match nl_solver o with
  | Newton => if plain then make CNewton (nl_min o) (nl_line o) None else Refused
  | LBFGS => if plain then make CLBFGS 0%Z 0%Z None else Refused
  | NewtonLineSearch => make CNewton (nl_min o) (nl_line o) None
  | TrustRegion => make CTrustRegion (nl_min o) (nl_line o) (Some p)
  | KINFullStep => kinsol CKinsolNone
  | KINLineSearch => kinsol CKinsolLine
  | KINPicard => kinsol CKinsolPicard
  | PetscNewton | PetscBacktracking | PetscCriticalPoint | PetscTrustRegion => snes CPetsc
  end.

(** EquationSolver(nonlinear_opts, lin_opts, comm) (equation_solver.cpp:687-694): the preconditioner pointer is dereferenced. *)
Definition equation_solver (b : build) (nl : nonlinear_opts) (lin : linear_opts) : outcome (nonlinear_solver * linear_solver * option preconditioner) :=
  bindO (build_linear b lin) (fun lp =>
  match snd lp with
  | None => UB
  | Some p => bindO (build_nonlinear b nl p) (fun n => Ok (n, fst lp, snd lp))
  end).

(** ** Specification *)
Definition prec_available (b : build) (k : prec_kind) : Prop :=
  match k with AMGX => amgx b = true | Petsc => petsc b = true | _ => True end.
Definition linear_available (b : build) (k : linear_kind) : Prop :=
  match k with Strumpack => strumpack b = true | PetscCG | PetscGMRES => petsc b = true | _ => True end.
Definition nonlinear_available (b : build) (k : nonlinear_kind) : Prop :=
  match k with
  | KINFullStep | KINLineSearch | KINPicard => sundials b = true
  | PetscNewton | PetscBacktracking | PetscCriticalPoint | PetscTrustRegion => petsc b = true
  | _ => True
  end.
(** The kinds that have a line search and a minimum number of iterations. *)
Definition takes_line_search (k : nonlinear_kind) : Prop :=
  match k with NewtonLineSearch | TrustRegion | PetscNewton | PetscBacktracking | PetscCriticalPoint | PetscTrustRegion => True | _ => False end.
Definition supported (b : build) (nl : nonlinear_opts) (lin : linear_opts) : Prop :=
  prec_available b (lin_prec lin) /\ linear_available b (lin_solver lin) /\ nonlinear_available b (nl_solver nl) /\
  (takes_line_search (nl_solver nl) \/ (nl_min nl = 0 /\ nl_line nl = 0)%Z).
Definition is_direct (k : linear_kind) : Prop := k = SuperLU \/ k = Strumpack.
Definition class_of (k : nonlinear_kind) : nonlinear_class :=
  match k with
  | Newton | NewtonLineSearch => CNewton | LBFGS => CLBFGS | TrustRegion => CTrustRegion
  | KINFullStep => CKinsolNone | KINLineSearch => CKinsolLine | KINPicard => CKinsolPicard
  | _ => CPetsc
  end.

(** The solver that was asked for, with the settings that were asked for. *)
Definition as_requested (nl : nonlinear_opts) (lin : linear_opts) (n : nonlinear_solver) (l : linear_solver) (p : option preconditioner) : Prop :=
  ns_class n = class_of (nl_solver nl) /\ ns_min n = nl_min nl /\ ns_line n = nl_line nl /\ ns_print n = nl_print nl /\ ns_keeps_guess n = true /\
  s_rel (ns_settings n) = nl_rel nl /\ s_abs (ns_settings n) = nl_abs nl /\ s_max (ns_settings n) = nl_max nl /\
  ls_kind l = lin_solver lin /\ ls_print l = lin_print lin /\
  (~ is_direct (lin_solver lin) -> ls_settings l = Some {| s_rel := lin_rel lin; s_abs := lin_abs lin; s_max := lin_max lin |} /\ ls_prec l = p) /\
  (exists q, p = Some q /\ pc_kind q = lin_prec lin) /\ (nl_solver nl = TrustRegion -> ns_prec n = p).

Lemma prec_spec b o p : build_prec b o = Ok p -> prec_available b (lin_prec o) /\
  (lin_prec o = NoPrec /\ p = None \/ lin_prec o <> NoPrec /\ exists q, p = Some q /\ pc_kind q = lin_prec o).
Proof.
  unfold build_prec. destruct (lin_prec o); try destruct (amgx b) eqn:?; try destruct (petsc b) eqn:?; intros E; try discriminate; injection E as <-; cbn; (split; [now auto|]); first [left; split; reflexivity | right; split; [discriminate|eexists; split; reflexivity]].
Qed.
Lemma prec_ok b o : prec_available b (lin_prec o) -> exists p, build_prec b o = Ok p.
Proof. unfold build_prec. destruct (lin_prec o); cbn; intros H; rewrite ?H; eauto. Qed.

Lemma linear_spec b o l p : build_linear b o = Ok (l, p) -> build_prec b o = Ok p /\ linear_available b (lin_solver o) /\
  ls_kind l = lin_solver o /\ ls_print l = lin_print o /\
  (~ is_direct (lin_solver o) -> ls_settings l = Some {| s_rel := lin_rel o; s_abs := lin_abs o; s_max := lin_max o |} /\ ls_prec l = p).
Proof.
  unfold build_linear. destruct (build_prec b o) as [q| |]; cbn [bindO]; try discriminate.
  unfold is_direct.
  destruct (lin_solver o) eqn:K; destruct (strumpack b) eqn:SB; destruct (petsc b) eqn:PB; intros E; try discriminate E; injection E as <- <-;
    cbn [direct iterative ls_kind ls_print ls_settings ls_prec linear_available]; rewrite ?K, ?SB, ?PB;
    (repeat split; auto; try (intros N; exfalso; apply N; now auto)); try (exfalso; match goal with N : ~ _ |- _ => apply N; now auto end).
Qed.

Lemma nonlinear_spec b o p n : build_nonlinear b o p = Ok n -> nonlinear_available b (nl_solver o) /\
  (takes_line_search (nl_solver o) \/ (nl_min o = 0 /\ nl_line o = 0)%Z) /\
  ns_class n = class_of (nl_solver o) /\ ns_min n = nl_min o /\ ns_line n = nl_line o /\ ns_print n = nl_print o /\ ns_keeps_guess n = true /\
  s_rel (ns_settings n) = nl_rel o /\ s_abs (ns_settings n) = nl_abs o /\ s_max (ns_settings n) = nl_max o /\ (nl_solver o = TrustRegion -> ns_prec n = Some p).
Proof.
  unfold build_nonlinear.
  assert (X : ((nl_min o =? 0) && (nl_line o =? 0))%Z = true -> 0%Z = nl_min o /\ 0%Z = nl_line o).
  { intros X. apply andb_prop in X as [X1 X2]. apply Z.eqb_eq in X1. apply Z.eqb_eq in X2. auto. }
  destruct ((nl_min o =? 0) && (nl_line o =? 0))%Z; [destruct (X eq_refl) as [<- <-]|]; clear X;
    destruct (nl_solver o); destruct (sundials b) eqn:?; destruct (petsc b) eqn:?; intros E; try discriminate E; injection E as <-; cbn; repeat split; auto; try discriminate.
Qed.
Lemma nonlinear_ok b o p : nonlinear_available b (nl_solver o) -> (takes_line_search (nl_solver o) \/ (nl_min o = 0 /\ nl_line o = 0)%Z) -> exists n, build_nonlinear b o p = Ok n.
Proof.
  unfold build_nonlinear. intros A [L|[-> ->]].
  - destruct (nl_solver o); cbn in *; try contradiction; rewrite ?A; eauto.
  - destruct (nl_solver o); cbn in *; rewrite ?A; eauto.
Qed.

Lemma built_iff b nl lin : (exists r, equation_solver b nl lin = Ok r) <-> supported b nl lin /\ lin_prec lin <> NoPrec.
Proof.
  unfold equation_solver. split.
  - intros (r & E). destruct (build_linear b lin) as [[l p]| |] eqn:EL; cbn [bindO snd fst] in E; try discriminate.
    apply linear_spec in EL as (EP & A & _). apply prec_spec in EP as (B & D).
    destruct p as [q|]; [|discriminate]. destruct (build_nonlinear b nl q) as [n| |] eqn:EN; cbn [bindO] in E; try discriminate.
    apply nonlinear_spec in EN as (C & L & _). destruct D as [[_ D]|(D & _)]; [discriminate|].
    split; [repeat split; assumption|exact D].
  - intros ((A & B & C & D) & N). destruct (prec_ok b lin A) as (p & EP). unfold build_linear. rewrite EP. cbn [bindO].
    apply prec_spec in EP as (_ & [[E _]|(_ & q & -> & _)]); [contradiction|].
    destruct (nonlinear_ok b nl q C D) as (n & EN).
    destruct (lin_solver lin); cbn in B; rewrite ?B; cbn [bindO snd fst]; rewrite EN; cbn [bindO]; eauto.
Qed.

Lemma built_as_requested b nl lin n l p : equation_solver b nl lin = Ok (n, l, p) -> as_requested nl lin n l p.
Proof.
  unfold equation_solver. destruct (build_linear b lin) as [[l' p']| |] eqn:EL; cbn [bindO snd fst]; try discriminate.
  apply linear_spec in EL as (EP & A & L1 & L2 & L3). apply prec_spec in EP as (B & D).
  destruct p' as [q|]; [|discriminate]. destruct (build_nonlinear b nl q) as [n'| |] eqn:EN; cbn [bindO]; try discriminate.
  intros E. injection E as <- <- <-. apply nonlinear_spec in EN as (_ & _ & N1 & N2 & N3 & N4 & N5 & N6 & N7 & N8 & N9).
  destruct D as [[_ D]|(_ & D)]; [discriminate|]. unfold as_requested. repeat split; auto; try now apply L3.
Qed.

(** Without preconditioner the null pointer is dereferenced, whatever the solvers. *)
Lemma no_preconditioner b nl lin : lin_prec lin = NoPrec -> linear_available b (lin_solver lin) -> equation_solver b nl lin = UB.
Proof.
  intros N A. unfold equation_solver, build_linear, build_prec. rewrite N. cbn [bindO].
  destruct (lin_solver lin); cbn in A; rewrite ?A; reflexivity.
Qed.

(** The print level of the preconditioner has no effect on anything that is built. *)
Definition with_prec_print (o : linear_opts) (k : Z) : linear_opts :=
  {| lin_solver := lin_solver o; lin_prec := lin_prec o; lin_petsc_pc := lin_petsc_pc o; lin_rel := lin_rel o; lin_abs := lin_abs o;
     lin_max := lin_max o; lin_print := lin_print o; lin_prec_print := k |}.
Lemma prec_print_ignored b nl lin k : equation_solver b nl (with_prec_print lin k) = equation_solver b nl lin.
Proof. reflexivity. Qed.

(** ** Input files *)
(** The schema (equation_solver.cpp:1054-1099) with its defaults; None is a field left out. *)
Record iterative_in := { ii_rel : option R; ii_abs : option R; ii_max : option Z; ii_print : option Z; ii_solver : option string; ii_prec : option string; ii_petsc : option string }.
Record linear_in := { li_type : string; li_iterative : option iterative_in; li_direct : option (option Z) }.
Record nonlinear_in := { ni_rel : option R; ni_abs : option R; ni_max : option Z; ni_print : option Z; ni_solver : option string }.
Definition get {A} (d : A) (x : option A) : A := match x with Some y => y | None => d end.

(** FromInlet<LinearSolverOptions> (equation_solver.cpp:1107-1157).  stringToPetscPCType (petsc_solvers.cpp) is a parameter. *)
Definition parse_linear (petsc_pc : string -> outcome string) (b : build) (i : linear_in) : outcome linear_opts :=
  if String.eqb (li_type i) "direct" then
    match li_direct i with
    | None => Refused                                                                    (* verifier, :1058-1064 *)
    | Some pl => Ok {| lin_solver := SuperLU; lin_prec := lin_prec default_linear; lin_petsc_pc := lin_petsc_pc default_linear;
        lin_rel := lin_rel default_linear; lin_abs := lin_abs default_linear; lin_max := lin_max default_linear;
        lin_print := get 0%Z pl; lin_prec_print := lin_prec_print default_linear |}
    end
  else if String.eqb (li_type i) "iterative" then
    match li_iterative i with
    | None => Refused
    | Some c =>
      let s := get "gmres"%string (ii_solver c) in
      bindO (if String.eqb s "gmres" then Ok GMRES else if String.eqb s "cg" then Ok CG else Refused) (fun k =>
      let p := get "JacobiSmoother"%string (ii_prec c) in
      bindO (if String.eqb p "JacobiSmoother" then Ok (HypreJacobi, lin_petsc_pc default_linear)
             else if String.eqb p "L1JacobiSmoother" then Ok (HypreL1Jacobi, lin_petsc_pc default_linear)
             else if String.eqb p "HypreAMG" then Ok (HypreAMG, lin_petsc_pc default_linear)
             else if String.eqb p "ILU" then Ok (HypreILU, lin_petsc_pc default_linear)
             else if (amgx b && String.eqb p "AMGX")%bool then Ok (AMGX, lin_petsc_pc default_linear)
             else if String.eqb p "GaussSeidel" then Ok (HypreGaussSeidel, lin_petsc_pc default_linear)
             else if (petsc b && String.eqb p "Petsc")%bool then bindO (petsc_pc (get "jacobi"%string (ii_petsc c))) (fun x => Ok (Petsc, x))
             else Refused) (fun q =>
      Ok {| lin_solver := k; lin_prec := fst q; lin_petsc_pc := snd q; lin_rel := get (1 / 10 ^ 6)%R (ii_rel c); lin_abs := get (1 / 10 ^ 8)%R (ii_abs c);
            lin_max := get 5000%Z (ii_max c); lin_print := get 0%Z (ii_print c); lin_prec_print := lin_prec_print default_linear |}))
    end
  else Refused.                                                                          (* validValues, :1068-1070 *)

(** FromInlet<NonlinearSolverOptions> (equation_solver.cpp:1159-1179) *)
Definition parse_nonlinear (i : nonlinear_in) : outcome nonlinear_opts :=
  let s := get "Newton"%string (ni_solver i) in
  bindO (if String.eqb s "Newton" then Ok Newton else if String.eqb s "KINFullStep" then Ok KINFullStep
         else if String.eqb s "KINLineSearch" then Ok KINLineSearch else if String.eqb s "KINPicard" then Ok KINPicard else Refused) (fun k =>
  Ok {| nl_solver := k; nl_rel := get (1 / 10 ^ 2)%R (ni_rel i); nl_abs := get (1 / 10 ^ 4)%R (ni_abs i); nl_min := nl_min default_nonlinear;
        nl_max := get 500%Z (ni_max i); nl_line := nl_line default_nonlinear; nl_print := get 0%Z (ni_print i) |}).

(** FromInlet<EquationSolver> (equation_solver.cpp:1181-1192) builds the same three objects. *)
Definition solver_from_input (petsc_pc : string -> outcome string) (b : build) (li : linear_in) (ni : nonlinear_in) :=
  bindO (parse_linear petsc_pc b li) (fun lin => bindO (parse_nonlinear ni) (fun nl => equation_solver b nl lin)).

(** Names of the input language. *)
Definition linear_names : list (string * linear_kind) := [("gmres", GMRES); ("cg", CG)]%string.
Definition prec_names (b : build) : list (string * prec_kind) :=
  ([("JacobiSmoother", HypreJacobi); ("L1JacobiSmoother", HypreL1Jacobi); ("HypreAMG", HypreAMG); ("ILU", HypreILU); ("GaussSeidel", HypreGaussSeidel)]%string ++
   (if amgx b then [("AMGX"%string, AMGX)] else []) ++ (if petsc b then [("Petsc"%string, Petsc)] else []))%list.
Definition nonlinear_names : list (string * nonlinear_kind) :=
  [("Newton", Newton); ("KINFullStep", KINFullStep); ("KINLineSearch", KINLineSearch); ("KINPicard", KINPicard)]%string.

Lemma parse_iterative petsc_pc b c d o : parse_linear petsc_pc b {| li_type := "iterative"; li_iterative := Some c; li_direct := d |} = Ok o ->
  In (get "gmres"%string (ii_solver c), lin_solver o) linear_names /\ In (get "JacobiSmoother"%string (ii_prec c), lin_prec o) (prec_names b) /\
  lin_rel o = get (1 / 10 ^ 6)%R (ii_rel c) /\ lin_abs o = get (1 / 10 ^ 8)%R (ii_abs c) /\ lin_max o = get 5000%Z (ii_max c) /\ lin_print o = get 0%Z (ii_print c) /\
  (lin_prec o = Petsc -> petsc_pc (get "jacobi"%string (ii_petsc c)) = Ok (lin_petsc_pc o)).
Proof.
  unfold parse_linear. cbn [li_type li_iterative li_direct].
  change (String.eqb "iterative" "direct") with false. change (String.eqb "iterative" "iterative") with true. cbv iota.
  generalize (get "gmres"%string (ii_solver c)) as s. generalize (get "JacobiSmoother"%string (ii_prec c)) as p. intros p s.
  assert (L : forall k, (if String.eqb s "gmres" then Ok GMRES else if String.eqb s "cg" then Ok CG else Refused) = Ok k -> In (s, k) linear_names).
  { intros k. destruct (String.eqb_spec s "gmres") as [->|]; [intros E; injection E as <-; now left|].
    destruct (String.eqb_spec s "cg") as [->|]; [intros E; injection E as <-; right; now left|discriminate]. }
  destruct (if String.eqb s "gmres" then Ok GMRES else if String.eqb s "cg" then Ok CG else Refused) as [k| |]; cbn [bindO]; try discriminate.
  specialize (L k eq_refl). unfold prec_names.
  assert (Fin : forall k' x, In (p, k') (prec_names b) -> (k' = Petsc -> petsc_pc (get "jacobi"%string (ii_petsc c)) = Ok x) ->
    Ok {| lin_solver := k; lin_prec := fst (k', x); lin_petsc_pc := snd (k', x); lin_rel := get (1 / 10 ^ 6)%R (ii_rel c); lin_abs := get (1 / 10 ^ 8)%R (ii_abs c);
          lin_max := get 5000%Z (ii_max c); lin_print := get 0%Z (ii_print c); lin_prec_print := lin_prec_print default_linear |} = Ok o ->
    In (s, lin_solver o) linear_names /\ In (p, lin_prec o) (prec_names b) /\
    lin_rel o = get (1 / 10 ^ 6)%R (ii_rel c) /\ lin_abs o = get (1 / 10 ^ 8)%R (ii_abs c) /\ lin_max o = get 5000%Z (ii_max c) /\ lin_print o = get 0%Z (ii_print c) /\
    (lin_prec o = Petsc -> petsc_pc (get "jacobi"%string (ii_petsc c)) = Ok (lin_petsc_pc o))).
  { intros k' x H1 H2 E. injection E as <-. cbn [fst snd lin_solver lin_prec lin_petsc_pc lin_rel lin_abs lin_max lin_print]. repeat split; auto. }
  change (_ ++ _)%list with (prec_names b).
  destruct (String.eqb_spec p "JacobiSmoother") as [->|]; [apply Fin; [cbn; tauto|discriminate]|].
  destruct (String.eqb_spec p "L1JacobiSmoother") as [->|]; [apply Fin; [cbn; tauto|discriminate]|].
  destruct (String.eqb_spec p "HypreAMG") as [->|]; [apply Fin; [cbn; tauto|discriminate]|].
  destruct (String.eqb_spec p "ILU") as [->|]; [apply Fin; [cbn; tauto|discriminate]|].
  destruct (amgx b && String.eqb p "AMGX")%bool eqn:G.
  { apply andb_prop in G as [G1 G2]. apply String.eqb_eq in G2 as ->. apply Fin; [|discriminate]. unfold prec_names. rewrite G1. cbn. tauto. }
  destruct (String.eqb_spec p "GaussSeidel") as [->|]; [apply Fin; [cbn; tauto|discriminate]|].
  destruct (petsc b && String.eqb p "Petsc")%bool eqn:G'; [|discriminate].
  apply andb_prop in G' as [G1 G2]. apply String.eqb_eq in G2 as ->.
  destruct (petsc_pc (get "jacobi"%string (ii_petsc c))) as [x| |] eqn:X; cbn [bindO]; try discriminate.
  apply Fin; [|auto]. unfold prec_names. rewrite G1. destruct (amgx b); cbn; tauto.
Qed.
Lemma parse_linear_types petsc_pc b i o : parse_linear petsc_pc b i = Ok o ->
  (li_type i = "direct"%string /\ li_direct i <> None /\ lin_solver o = SuperLU) \/ (li_type i = "iterative"%string /\ li_iterative i <> None).
Proof.
  unfold parse_linear. destruct (String.eqb_spec (li_type i) "direct") as [->|].
  - destruct (li_direct i); [|discriminate]. intros E. injection E as <-. left. repeat split; discriminate.
  - destruct (String.eqb_spec (li_type i) "iterative") as [->|]; [|discriminate]. destruct (li_iterative i); [|discriminate]. right. split; [reflexivity|discriminate].
Qed.

Lemma parse_nonlinear_spec i o : parse_nonlinear i = Ok o <->
  In (get "Newton"%string (ni_solver i), nl_solver o) nonlinear_names /\ nl_rel o = get (1 / 10 ^ 2)%R (ni_rel i) /\ nl_abs o = get (1 / 10 ^ 4)%R (ni_abs i) /\
  nl_max o = get 500%Z (ni_max i) /\ nl_print o = get 0%Z (ni_print i) /\ nl_min o = 0%Z /\ nl_line o = 0%Z.
Proof.
  unfold parse_nonlinear, nonlinear_names. cbv zeta. generalize (get "Newton"%string (ni_solver i)) as s. intros s. split.
  - destruct (String.eqb_spec s "Newton") as [->|]; [|destruct (String.eqb_spec s "KINFullStep") as [->|]; [|destruct (String.eqb_spec s "KINLineSearch") as [->|];
      [|destruct (String.eqb_spec s "KINPicard") as [->|]; [|discriminate]]]]; cbn [bindO]; intros E; injection E as <-; cbn; repeat split; auto 6.
  - intros (H & A1 & A2 & A3 & A4 & A5 & A6). destruct o as [k r a mn mx ln pr]. cbn in *. subst.
    destruct H as [H|[H|[H|[H|[]]]]]; injection H as <- <-; reflexivity.
Qed.

(** Accepted input never leads to undefined behaviour, and always to a solver if KINSOL is not asked for. *)
Lemma parsed_prec petsc_pc b i o : parse_linear petsc_pc b i = Ok o -> lin_prec o <> NoPrec /\ prec_available b (lin_prec o) /\ linear_available b (lin_solver o).
Proof.
  intros E. pose proof (parse_linear_types _ _ _ _ E) as T.
  destruct i as [t c d]. cbn [li_type li_iterative li_direct] in T. destruct T as [(-> & D & S)|(-> & C)].
  - unfold parse_linear in E. cbn in E. destruct d; [|contradiction]. injection E as <-. cbn. repeat split; discriminate.
  - destruct c as [c|]; [|contradiction]. apply parse_iterative in E as (K & P & _).
    assert (linear_available b (lin_solver o)) by (destruct K as [K|[K|[]]]; injection K as _ <-; exact Logic.I).
    revert P. unfold prec_names. destruct (amgx b) eqn:A, (petsc b) eqn:G; cbn; intros P;
      repeat (destruct P as [P|P]; [injection P as _ <-; cbn; split; [discriminate|auto]|]); contradiction.
Qed.
Lemma input_builds petsc_pc b li ni lin nl : parse_linear petsc_pc b li = Ok lin -> parse_nonlinear ni = Ok nl ->
  (nl_solver nl = Newton \/ sundials b = true) -> exists n l p, solver_from_input petsc_pc b li ni = Ok (n, l, p) /\ as_requested nl lin n l p.
Proof.
  intros EL EN S. unfold solver_from_input. rewrite EL, EN. cbn [bindO].
  destruct (parsed_prec _ _ _ _ EL) as (N & A & B). apply parse_nonlinear_spec in EN as (K & _ & _ & _ & _ & M & L).
  destruct (proj2 (built_iff b nl lin)) as ([[n l] p] & E).
  { split; [|exact N]. repeat split; auto. revert S. destruct K as [K|[K|[K|[K|[]]]]]; injection K as _ <-; cbn; auto; intros [S|S]; (discriminate || auto). }
  exists n, l, p. split; [exact E|]. eapply built_as_requested; exact E.
Qed.
Lemma input_defined petsc_pc b li ni : (forall s, petsc_pc s <> UB) -> solver_from_input petsc_pc b li ni <> UB.
Proof.
  intros NU. unfold solver_from_input. destruct (parse_linear petsc_pc b li) as [lin| |] eqn:EL; cbn [bindO]; [|discriminate|].
  - destruct (parse_nonlinear ni) as [nl| |] eqn:EN; cbn [bindO]; [|discriminate|].
    + destruct (parsed_prec _ _ _ _ EL) as (N & A & B). unfold equation_solver.
      destruct (build_linear b lin) as [[l p]| |] eqn:EB; cbn [bindO snd fst]; [|discriminate|].
      * apply linear_spec in EB as (EP & _). apply prec_spec in EP as (_ & [[P _]|(_ & q & -> & _)]); [contradiction|].
        unfold build_nonlinear. destruct (nl_solver nl), (sundials b), (petsc b), ((nl_min nl =? 0) && (nl_line nl =? 0))%Z; cbn [bindO]; discriminate.
      * unfold build_linear, build_prec in EB.
        destruct (lin_prec lin), (amgx b), (petsc b), (strumpack b), (lin_solver lin); discriminate EB.
    + unfold parse_nonlinear in EN. cbv zeta in EN.
      repeat match type of EN with context [if ?c then _ else _] => destruct c; cbn [bindO] in EN; try discriminate EN end.
  - intros _. unfold parse_linear in EL. cbv zeta in EL.
    destruct (String.eqb (li_type li) "direct"); [destruct (li_direct li); discriminate EL|].
    destruct (String.eqb (li_type li) "iterative"); [|discriminate EL]. destruct (li_iterative li) as [c|]; [|discriminate EL].
    specialize (NU (get "jacobi"%string (ii_petsc c))). destruct (petsc_pc (get "jacobi"%string (ii_petsc c))); [| |contradiction];
      repeat match type of EL with context [if ?c then _ else _] => destruct c; cbn [bindO] in EL; try discriminate EL end.
Qed.

(** The schema's own description offers minres and AMG (equation_solver.cpp:1077-1078). *)
Definition iterative_with (s p : string) : linear_in := {| li_type := "iterative"; li_direct := None;
  li_iterative := Some {| ii_rel := None; ii_abs := None; ii_max := None; ii_print := None; ii_solver := Some s; ii_prec := Some p; ii_petsc := None |} |}.
Lemma documented_refused petsc_pc b : (forall p, parse_linear petsc_pc b (iterative_with "minres" p) = Refused) /\
  (forall s, s = "gmres"%string \/ s = "cg"%string -> parse_linear petsc_pc b (iterative_with s "AMG") = Refused).
Proof.
  split; [reflexivity|]. intros s [-> | ->]; unfold parse_linear, iterative_with; cbn; now rewrite !andb_false_r.
Qed.

Lemma input_example petsc_pc b : exists lin, parse_linear petsc_pc b (iterative_with "cg" "HypreAMG") = Ok lin /\ lin_solver lin = CG /\ lin_prec lin = HypreAMG.
Proof. eexists. split; [reflexivity|]. split; reflexivity. Qed.
Lemma default_supported b : supported b default_nonlinear default_linear /\ lin_prec default_linear <> NoPrec.
Proof. unfold supported. cbn. repeat split; auto; discriminate. Qed.

(** Solvers no input file can ask for. *)
Lemma unreachable petsc_pc b li ni lin nl : parse_linear petsc_pc b li = Ok lin -> parse_nonlinear ni = Ok nl ->
  nl_line nl = 0%Z /\ nl_min nl = 0%Z /\ nl_solver nl <> NewtonLineSearch /\ nl_solver nl <> TrustRegion /\ nl_solver nl <> LBFGS /\
  lin_solver lin <> Strumpack /\ lin_solver lin <> PetscCG /\ lin_solver lin <> PetscGMRES.
Proof.
  intros EL EN. apply parse_nonlinear_spec in EN as (K & _ & _ & _ & _ & M & L). split; [exact L|]. split; [exact M|].
  assert (lin_solver lin = SuperLU \/ lin_solver lin = GMRES \/ lin_solver lin = CG) as D.
  { pose proof (parse_linear_types _ _ _ _ EL) as T. destruct li as [t c d]. cbn [li_type li_iterative li_direct] in T.
    destruct T as [(-> & _ & S)|(-> & C)]; [now left|]. destruct c as [c|]; [|contradiction]. apply parse_iterative in EL as (Q & _).
    destruct Q as [Q|[Q|[]]]; injection Q as _ <-; auto. }
  destruct K as [K|[K|[K|[K|[]]]]]; injection K as _ <-; repeat split; try discriminate; destruct D as [-> |[-> | ->]]; discriminate.
Qed.

(** ** Using the solver (equation_solver.cpp:709-727) *)
Section Use.
Variables Op X : Type.
(** nonlin_solver_->Mult(b, x): the result from operator, linear solver attached, right-hand side, initial guess. *)
Variable mult : Op -> linear_solver -> X -> X -> X.
Variable zero : X -> X.
Record usage := { u_op : option Op; u_attached : option linear_solver; u_calls : nat }.
Definition fresh : usage := {| u_op := None; u_attached := None; u_calls := 0 |}.
Definition set_operator (l : linear_solver) (o : Op) (u : usage) : usage :=
  match u_attached u with
  | None => {| u_op := Some o; u_attached := Some l; u_calls := u_calls u + 1 |}
  | Some _ => {| u_op := Some o; u_attached := u_attached u; u_calls := u_calls u |}
  end.
Definition solve (u : usage) (x : X) : outcome X :=
  match u_op u, u_attached u with Some o, Some l => Ok (mult o l (zero x) x) | _, _ => UB end.
Lemma use_spec l ops o : forall x, solve (fold_left (fun u o => set_operator l o u) (ops ++ [o]) fresh) x = Ok (mult o l (zero x) x) /\
  u_calls (fold_left (fun u o => set_operator l o u) (ops ++ [o]) fresh) = 1.
Proof.
  intros x. rewrite fold_left_app. cbn [fold_left].
  assert (Inv : forall os u, (u_attached u = None /\ u_calls u = 0) \/ (u_attached u = Some l /\ u_calls u = 1) ->
    let v := fold_left (fun u o => set_operator l o u) os u in (u_attached v = None /\ u_calls v = 0) \/ (u_attached v = Some l /\ u_calls v = 1)).
  { induction os as [|q os IH]; intros u H; [exact H|]. cbn [fold_left]. apply IH. unfold set_operator.
    destruct H as [[-> H]|[-> H]]; right; cbn; rewrite H; auto. }
  specialize (Inv ops fresh (or_introl (conj eq_refl eq_refl))). cbv zeta in Inv.
  set (u := fold_left _ ops fresh) in *. unfold set_operator, solve.
  destruct Inv as [[-> H]|[-> H]]; cbn; rewrite ?H; auto.
Qed.
End Use.

(** ** buildMonolithicMatrix (equation_solver.cpp:736-762).  mfem::HypreParMatrixFromBlocks is modelled as block assembly. *)
Section Monolithic.
Inductive block := Zero | Hypre (entries : nat -> nat -> R) | Other (entries : nat -> nat -> R).
Variable sizes : nat -> nat.     (* size of block row/column k *)
Definition value (b : block) (i j : nat) : R := match b with Zero => 0%R | Hypre e | Other e => e i j end.
Definition gather_blocks (rows cols : nat) (blocks : nat -> nat -> block) : outcome (nat -> nat -> option (nat -> nat -> R)) :=
  if negb (Nat.eqb rows cols) then Refused
  else if forallb (fun i => forallb (fun j => match blocks i j with Other _ => false | _ => true end) (seq 0 cols)) (seq 0 rows)
  then Ok (fun i j => match blocks i j with Hypre e => Some e | _ => None end) else Refused.
Fixpoint offset (k : nat) : nat := match k with O => O | S k => offset k + sizes k end.
(** Which block an index of the monolithic system is in. *)
Fixpoint locate (n i : nat) : nat * nat :=
  match n with O => (O, i) | S k => if Nat.leb (offset k) i then (k, i - offset k) else locate k i end.
Definition monolithic (n : nat) (b : nat -> nat -> option (nat -> nat -> R)) (i j : nat) : R :=
  let '(bi, r) := locate n i in let '(bj, c) := locate n j in match b bi bj with Some e => e r c | None => 0%R end.
Lemma locate_offset n k r : k < n -> r < sizes k -> locate n (offset k + r) = (k, r).
Proof.
  induction n as [|n IH]; intros K Hr; [lia|]. cbn [locate]. destruct (Nat.eq_dec k n) as [->|N].
  - replace (Nat.leb (offset n) (offset n + r)) with true by (symmetry; apply Nat.leb_le; lia). f_equal. lia.
  - assert (M : forall a b, a <= b -> offset a <= offset b).
    { intros a b L. induction L as [|b L IHL]; [lia|]. cbn [offset]. lia. }
    assert (S : offset (Datatypes.S k) <= offset n) by (apply M; lia). cbn [offset] in S.
    replace (Nat.leb (offset n) (offset k + r)) with false by (symmetry; apply Nat.leb_gt; lia). apply IH; [lia|exact Hr].
Qed.
Lemma monolithic_spec rows cols blocks b : gather_blocks rows cols blocks = Ok b -> rows = cols /\
  forall i j r c, i < rows -> j < rows -> r < sizes i -> c < sizes j -> monolithic rows b (offset i + r) (offset j + c) = value (blocks i j) r c.
Proof.
  unfold gather_blocks. destruct (Nat.eqb_spec rows cols) as [<-|]; cbn [negb]; [|discriminate].
  destruct (forallb _ _) eqn:F; [|discriminate]. intros E. injection E as <-. split; [reflexivity|].
  intros i j r c Hi Hj Hr Hc. unfold monolithic. rewrite !locate_offset by assumption.
  rewrite forallb_forall in F. specialize (F i). rewrite in_seq in F. specialize (F ltac:(lia)). rewrite forallb_forall in F.
  specialize (F j). rewrite in_seq in F. specialize (F ltac:(lia)). destruct (blocks i j); [reflexivity|reflexivity|discriminate].
Qed.
Lemma monolithic_accepts rows cols blocks : (exists b, gather_blocks rows cols blocks = Ok b) <->
  rows = cols /\ forall i j, i < rows -> j < rows -> forall e, blocks i j <> Other e.
Proof.
  unfold gather_blocks. split.
  - intros (b & E). destruct (Nat.eqb_spec rows cols) as [<-|]; cbn [negb] in E; [|discriminate].
    destruct (forallb _ _) eqn:F; [|discriminate]. split; [reflexivity|]. intros i j Hi Hj e X.
    rewrite forallb_forall in F. specialize (F i). rewrite in_seq in F. specialize (F ltac:(lia)). rewrite forallb_forall in F.
    specialize (F j). rewrite in_seq in F. specialize (F ltac:(lia)). rewrite X in F. discriminate.
  - intros (<- & H). rewrite Nat.eqb_refl. cbn [negb]. replace (forallb _ _) with true; [eauto|]. symmetry.
    apply forallb_forall. intros i Hi. apply forallb_forall. intros j Hj. apply in_seq in Hi. apply in_seq in Hj.
    destruct (blocks i j) eqn:E; auto. exfalso. eapply H; [| |exact E]; lia.
Qed.
End Monolithic.
