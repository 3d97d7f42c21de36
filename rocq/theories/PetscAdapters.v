(** * The PETSc nonlinear and linear solvers behind the equation solver

    /repo/src/serac/numerics/petsc_solvers.cpp:568-1010 and petsc_solvers.hpp:236-460.  What PETSc itself does with a handle
    is not modelled: a handle is the record of the settings it holds, and a solve reports the settings in force for it.
    Customize() only reads PETSc's own command line options, taken to be absent. *)
From Coq Require Import String List ZArith Bool Lia Reals Lra.
From Verif Require Import Prelude EqSolver.
Import ListNotations.

(** ** The back-off before a line search *)
Local Open Scope R_scope.

(** VecWAXPY(W, a, y, x): w = a y + x (petsc_solvers.cpp:817) *)
Definition waxpy (a : R) (y x : list R) : list R := map (fun p => a * fst p + snd p) (combine y x).

Record precheck := { pk_step : list R; pk_changed : bool }.

(** linesearchPreCheckBackoffOnNan (petsc_solvers.cpp:795-857).  [F w] is None when the residual at w has an entry that is
    not finite; dot(F, Y) is then not finite either.  [fuel] is max_failures - num_failures; viproject is null for the
    solver types in use. *)
Fixpoint backoff (F : list R -> option (list R)) (X : list R) (lambda_orig min_lambda : R) (fuel : nat) (lambda : R)
    (Y : list R) (changed : bool) : precheck :=
  match fuel with
  | O => {| pk_step := Y; pk_changed := changed |}
  | Datatypes.S fuel' =>
      match F (waxpy (- lambda_orig) Y X) with
      | Some _ => {| pk_step := Y; pk_changed := changed |}
      | None =>
          let lambda' := lambda * / 2 in
          if Rlt_dec lambda' min_lambda then {| pk_step := Y; pk_changed := changed |}
          else backoff F X lambda_orig min_lambda fuel' lambda' (map (fun y => y * / 2) Y) true
      end
  end.
(** PETSc clears the flag before the call. *)
Definition pre_check F X lambda min_lambda max_failures Y : precheck := backoff F X lambda min_lambda max_failures lambda Y false.

(** ** The Newton adapter *)
Inductive snes_type := SnesNewtonLS | SnesNewtonTR.
Inductive search_type := SearchBasic | SearchBT | SearchCP | SearchUnset.
(** The SNESLineSearch handle: absolute tolerance and iterations are None for PETSC_DEFAULT. *)
Record search := { sr_type : search_type; sr_abs : option R; sr_iters : option Z; sr_precheck : bool }.
(** Where the SNES gets its linear solves from. *)
Inductive linear_source := LibraryKsp | SharedKsp | ShellPC.
Inductive format := Hypre | Aij.
Record snes := { sn_type : snes_type; sn_tol : option settings; sn_search : search; sn_force : bool; sn_failures : nat;
  sn_linear : linear_source; sn_jacobian : format }.
Record newton := { nw_opts : nonlinear_opts; nw_type : snes_type; nw_search : search_type; nw_settings : settings;
  nw_operator : bool; nw_snes : snes }.

(** SNESTypeFromOptions and SNESLineSearchTypeFromOptions (petsc_solvers.hpp:395-423) *)
Definition type_from (k : nonlinear_kind) : snes_type := match k with PetscTrustRegion => SnesNewtonTR | _ => SnesNewtonLS end.
Definition search_from (k : nonlinear_kind) : search_type :=
  match k with PetscBacktracking => SearchBT | PetscCriticalPoint => SearchCP | _ => SearchBasic end.

Definition with_snes (n : newton) (s : snes) : newton :=
  {| nw_opts := nw_opts n; nw_type := nw_type n; nw_search := nw_search n; nw_settings := nw_settings n; nw_operator := nw_operator n; nw_snes := s |}.

(** PetscNewtonSolver(comm, nonlinear_opts, prefix) (petsc_solvers.cpp:859-893); the SetRelTol, SetAbsTol and SetMaxIter calls that
    buildNonlinearSolver makes next (equation_solver.cpp:880-882) store the same values again.  ANY_TYPE keeps hypre matrices. *)
Definition new_newton (o : nonlinear_opts) : newton :=
  {| nw_opts := o; nw_type := type_from (nl_solver o); nw_search := search_from (nl_solver o);
     nw_settings := {| s_rel := nl_rel o; s_abs := nl_abs o; s_max := nl_max o |}; nw_operator := false;
     nw_snes := {| sn_type := type_from (nl_solver o); sn_tol := None;
       sn_search := {| sr_type := SearchUnset; sr_abs := None; sr_iters := None; sr_precheck := false |};
       sn_force := (0 <? nl_min o)%Z; sn_failures := 5; sn_linear := LibraryKsp; sn_jacobian := Hypre |} |}.

(** 1e-30 (petsc_solvers.cpp:911) *)
Definition tiny : R := / 10 ^ 30.
Arguments tiny : simpl never.
(** PetscNewtonSolver::SetTolerances (petsc_solvers.cpp:895-919) *)
Definition set_tolerances (n : newton) : newton :=
  let s := nw_snes n in
  let sr := sn_search s in
  let cp := match sn_type s, sr_type sr with SnesNewtonLS, SearchCP => true | _, _ => false end in
  with_snes n {| sn_type := sn_type s; sn_tol := Some (nw_settings n);
    sn_search := if nw_operator n
      then {| sr_type := sr_type sr; sr_abs := if cp then Some tiny else None;
              sr_iters := if (0 <? nl_line (nw_opts n))%Z then Some (nl_line (nw_opts n)) else None; sr_precheck := true |}
      else sr;
    sn_force := sn_force s; sn_failures := sn_failures s; sn_linear := sn_linear s; sn_jacobian := sn_jacobian s |}.

(** SetSNESType (petsc_solvers.cpp:945-951) *)
Definition set_type (n : newton) (t : snes_type) : newton :=
  let s := nw_snes n in
  {| nw_opts := nw_opts n; nw_type := t; nw_search := nw_search n; nw_settings := nw_settings n; nw_operator := nw_operator n;
     nw_snes := {| sn_type := t; sn_tol := sn_tol s; sn_search := sn_search s; sn_force := sn_force s; sn_failures := sn_failures s;
       sn_linear := sn_linear s; sn_jacobian := sn_jacobian s |} |}.

(** SetLineSearchType (petsc_solvers.cpp:932-943) *)
Definition set_search (n : newton) (t : search_type) : newton :=
  let s := nw_snes n in
  let sr := sn_search s in
  set_tolerances
    {| nw_opts := nw_opts n; nw_type := nw_type n; nw_search := t; nw_settings := nw_settings n; nw_operator := nw_operator n;
       nw_snes := {| sn_type := sn_type s; sn_tol := sn_tol s;
         sn_search := if nw_operator n then {| sr_type := t; sr_abs := sr_abs sr; sr_iters := sr_iters sr; sr_precheck := sr_precheck sr |} else sr;
         sn_force := sn_force s; sn_failures := sn_failures s; sn_linear := sn_linear s; sn_jacobian := sn_jacobian s |} |}.

(** PetscNewtonSolver::SetOperator (petsc_solvers.cpp:976-989); mfem::PetscNonlinearSolver::SetOperator marks the operator as set. *)
Definition newton_set_operator (n : newton) : newton :=
  let n1 := {| nw_opts := nw_opts n; nw_type := nw_type n; nw_search := nw_search n; nw_settings := nw_settings n; nw_operator := true; nw_snes := nw_snes n |} in
  let n2 := if nw_operator n then n1 else let n' := set_type n1 (nw_type n1) in set_search n' (nw_search n') in
  set_tolerances n2.

(** PetscNewtonSolver::SetSolver and SetNonPetscSolver (petsc_solvers.cpp:920-930, 953-974); [petsc_linear]: the solver is a
    PetscKSPSolver, [petsc_inner]: its preconditioner is a PETSc one. *)
Definition newton_set_solver (n : newton) (petsc_linear petsc_inner : bool) : newton :=
  let s := nw_snes n in
  with_snes n {| sn_type := sn_type s; sn_tol := sn_tol s; sn_search := sn_search s; sn_force := sn_force s; sn_failures := sn_failures s;
    sn_linear := if petsc_linear then SharedKsp else ShellPC;
    sn_jacobian := if petsc_linear then (if petsc_inner then Aij else Hypre) else sn_jacobian s |}.

(** ** The linear adapter, and the equation solver around both *)
Section Matrices.
Variable M : Type.

(** What the physics modules hand to the linear solver: an assembled hypre matrix, or some other operator. *)
Inductive operand := Assembled (m : M) | General (m : M).
Definition of_operand (a : operand) : M := match a with Assembled m | General m => m end.

(** PetscKSPSolver (petsc_solvers.hpp:236-372).  [ks_settings]: rel_tol, abs_tol and max_iter of the mfem base class; [ks_tol]: those of the
    KSP handle, None for PETSc's own; [ks_prec]: the matrix the preconditioner was last set up on. *)
Record ksp := { ks_settings : option settings; ks_petsc_prec : bool; ks_tol : option settings; ks_prec : option M;
  ks_checked : bool; ks_needs : bool }.
Definition new_ksp (s : option settings) (petsc_prec : bool) : ksp :=
  {| ks_settings := s; ks_petsc_prec := petsc_prec; ks_tol := None; ks_prec := None; ks_checked := false; ks_needs := false |}.

(** What is in force when a linear system with matrix [rp_matrix] is solved. *)
Record report := { rp_matrix : M; rp_tol : option settings; rp_prec : option M }.

(** convertKSPPreSolve (petsc_solvers.cpp:568-625) for a matrix that is not a MATNEST, followed by the solve.  A PETSc preconditioner works on the
    KSP's own matrix. *)
Definition pre_solve (k : ksp) (f : format) (m : M) : ksp :=
  let mark c w p := {| ks_settings := ks_settings k; ks_petsc_prec := ks_petsc_prec k; ks_tol := ks_tol k; ks_prec := p; ks_checked := c; ks_needs := w |} in
  if ks_petsc_prec k then mark true (ks_needs k) (Some m)
  else if negb (ks_checked k) || ks_needs k then
    match f with
    | Hypre => mark true true (Some m)
    | Aij => mark true (ks_needs k) (ks_prec k)
    end
  else mark true (ks_needs k) (ks_prec k).
Definition ksp_solve (k : ksp) (f : format) (m : M) : ksp * report :=
  let k' := pre_solve k f m in (k', {| rp_matrix := m; rp_tol := ks_tol k'; rp_prec := ks_prec k' |}).

(** PetscKSPSolver::SetOperator (petsc_solvers.cpp:681-774): the tolerances, and the preconditioner's operator. *)
Definition ksp_set_operator (k : ksp) (m : M) : ksp :=
  {| ks_settings := ks_settings k; ks_petsc_prec := ks_petsc_prec k; ks_tol := ks_settings k; ks_prec := Some m; ks_checked := ks_checked k; ks_needs := ks_needs k |}.

(** A linear solver of mfem, or a direct one: SetOperator and Mult use its own settings and pass the operator on to its preconditioner. *)
Inductive linear := PetscLinear (k : ksp) | OtherLinear (s : option settings).

Record system := { sy_newton : newton; sy_linear : linear; sy_called : bool }.

Definition is_petsc (k : linear_kind) : bool := match k with PetscCG | PetscGMRES => true | _ => false end.
Definition petsc_prec (p : option preconditioner) : bool := match p with Some q => match pc_kind q with Petsc => true | _ => false end | None => false end.

(** EquationSolver(nonlinear_opts, lin_opts, comm) (equation_solver.cpp:687-694) with the linear solver that was built. *)
Definition new_system (o : nonlinear_opts) (l : linear_solver) : system :=
  {| sy_newton := new_newton o;
     sy_linear := if is_petsc (ls_kind l) then PetscLinear (new_ksp (ls_settings l) (petsc_prec (ls_prec l))) else OtherLinear (ls_settings l);
     sy_called := false |}.

(** What the physics modules do with the equation solver: setOperator (completeSetup), a linear solve of their own (the warm start,
    solid_mechanics.hpp:1762-1766, and the adjoint solves, :1371-1372), and solve, which meets the given Jacobians one after another. *)
Inductive event := SetOperator | LinearSolve (a : operand) | Solve (js : list M).

(** What a nonlinear solve runs with. *)
Record solve_report := { sv_snes : snes; sv_linear : list report }.
Inductive observed := SawLinear (r : report) | SawSolve (r : solve_report).

(** EquationSolver::setOperator (equation_solver.cpp:708-717) *)
Definition system_set_operator (y : system) : system :=
  let n := newton_set_operator (sy_newton y) in
  {| sy_newton := if sy_called y then n else
       match sy_linear y with PetscLinear k => newton_set_solver n true (ks_petsc_prec k) | OtherLinear _ => newton_set_solver n false false end;
     sy_linear := sy_linear y; sy_called := true |}.

(** lin_solver.SetOperator(a); lin_solver.Mult(…) *)
Definition linear_step (l : linear) (a : operand) : linear * report :=
  match l with
  | PetscLinear k =>
      let k1 := ksp_set_operator k (of_operand a) in
      let f := match a with Assembled _ => if ks_petsc_prec k then Aij else Hypre | General _ => Aij end in
      let (k2, r) := ksp_solve k1 f (of_operand a) in (PetscLinear k2, r)
  | OtherLinear s => (l, {| rp_matrix := of_operand a; rp_tol := s; rp_prec := Some (of_operand a) |})
  end.

(** One Newton step's linear solve: KSPSetOperators by the SNES and KSPSolve with the shared handle; or the shell
    preconditioner's SetOperator and Mult (solverWrapperMult, petsc_solvers.cpp:63-96); or, if no solver was set, PETSc's own default solver. *)
Definition newton_linear (src : linear_source) (l : linear) (f : format) (j : M) : linear * report :=
  match src, l with
  | SharedKsp, PetscLinear k => let (k', r) := ksp_solve k f j in (PetscLinear k', r)
  | ShellPC, _ => linear_step l (Assembled j)
  | _, _ => (l, {| rp_matrix := j; rp_tol := None; rp_prec := None |})
  end.
Fixpoint newton_linears (src : linear_source) (l : linear) (f : format) (js : list M) : linear * list report :=
  match js with
  | [] => (l, [])
  | j :: js' => let (l1, r) := newton_linear src l f j in let (l2, rs) := newton_linears src l1 f js' in (l2, r :: rs)
  end.

(** None: solve before any operator was set, which PETSc refuses. *)
Definition step (y : system) (e : event) : option (system * option observed) :=
  match e with
  | SetOperator => Some (system_set_operator y, None)
  | LinearSolve a => let (l, r) := linear_step (sy_linear y) a in
      Some ({| sy_newton := sy_newton y; sy_linear := l; sy_called := sy_called y |}, Some (SawLinear r))
  | Solve js => if nw_operator (sy_newton y) then
      let (l, rs) := newton_linears (sn_linear (nw_snes (sy_newton y))) (sy_linear y) (sn_jacobian (nw_snes (sy_newton y))) js in
      Some ({| sy_newton := sy_newton y; sy_linear := l; sy_called := sy_called y |},
            Some (SawSolve {| sv_snes := nw_snes (sy_newton y); sv_linear := rs |}))
      else None
  end.
Fixpoint run (y : system) (es : list event) : option (system * list observed) :=
  match es with
  | [] => Some (y, [])
  | e :: es' =>
      match step y e with
      | None => None
      | Some (y1, o) => match run y1 es' with None => None | Some (y2, os) => Some (y2, match o with Some v => v :: os | None => os end) end
      end
  end.
End Matrices.
Arguments Assembled {M}. Arguments General {M}. Arguments SetOperator {M}. Arguments LinearSolve {M}. Arguments Solve {M}.
Arguments SawLinear {M}. Arguments SawSolve {M}. Arguments of_operand {M}. Arguments run {M}. Arguments step {M}.
Arguments rp_matrix {M}. Arguments rp_tol {M}. Arguments rp_prec {M}. Arguments sv_snes {M}. Arguments sv_linear {M}.
Arguments PetscLinear {M}. Arguments OtherLinear {M}. Arguments sy_newton {M}. Arguments sy_linear {M}. Arguments sy_called {M}.
Arguments newton_linears {M}. Arguments system_set_operator {M}. Arguments new_system {M}. Arguments ksp_set_operator {M}. Arguments newton_linear {M}. Arguments linear_step {M}. Arguments ksp_solve {M}. Arguments pre_solve {M}.
Arguments ks_settings {M}. Arguments ks_petsc_prec {M}. Arguments ks_tol {M}. Arguments ks_prec {M}. Arguments ks_checked {M}. Arguments ks_needs {M}.

(** ** Specification *)
(** The k-th halving of a step, and the point it leads to from X with the line search's step length. *)
Definition halved (k : nat) (Y : list R) : list R := map (fun y => y / 2 ^ k) Y.
Definition reached (X : list R) (lambda : R) (S : list R) : list R := map (fun p => fst p - lambda * snd p) (combine X S).
Definition finite_at (F : list R -> option (list R)) (w : list R) : Prop := exists v, F w = Some v.

(** The method, search and tolerances asked for in the options. *)
Definition method_of (k : nonlinear_kind) (t : snes_type) (s : search_type) : Prop :=
  match k with
  | PetscNewton => t = SnesNewtonLS /\ s = SearchBasic
  | PetscBacktracking => t = SnesNewtonLS /\ s = SearchBT
  | PetscCriticalPoint => t = SnesNewtonLS /\ s = SearchCP
  | PetscTrustRegion => t = SnesNewtonTR
  | _ => False
  end.
Definition solves_as_asked (o : nonlinear_opts) (s : snes) : Prop :=
  method_of (nl_solver o) (sn_type s) (sr_type (sn_search s)) /\
  (exists t, sn_tol s = Some t /\ s_rel t = nl_rel o /\ s_abs t = nl_abs o /\ s_max t = nl_max o) /\
  ((0 < nl_line o)%Z -> sr_iters (sn_search s) = Some (nl_line o)) /\
  sr_precheck (sn_search s) = true /\ (sn_force s = true <-> (0 < nl_min o)%Z).

(** All the linear systems of a run, its own and those inside nonlinear solves. *)
Definition linear_systems {M} (os : list (observed M)) : list (report M) :=
  flat_map (fun o => match o with SawLinear r => [r] | SawSolve s => sv_linear s end) os.
Definition nonlinear_solves {M} (os : list (observed M)) : list snes :=
  flat_map (fun o => match o with SawLinear _ => [] | SawSolve s => [sv_snes s] end) os.
(** The matrices of the linear systems a history asks for, in order. *)
Definition matrices {M} (es : list (event M)) : list M :=
  flat_map (fun e => match e with SetOperator => [] | LinearSolve a => [of_operand a] | Solve js => js end) es.
Definition assembled_only {M} (es : list (event M)) : Prop :=
  Forall (fun e => match e with LinearSolve (General _) => False | _ => True end) es.
(** The solver options of the run, as the user gave them. *)
Definition settings_of (o : linear_opts) : settings := {| s_rel := lin_rel o; s_abs := lin_abs o; s_max := lin_max o |}.

(** ** Proofs: the back-off *)
Lemma halved_0 Y : halved 0 Y = Y.
Proof. unfold halved. rewrite <- (map_id Y) at 2. apply map_ext. intros y. cbn. field. Qed.
Lemma halved_S k Y : halved k (map (fun y => y * / 2) Y) = halved (Datatypes.S k) Y.
Proof. unfold halved. rewrite map_map. apply map_ext. intros y. cbn [pow]. field. apply pow_nonzero. lra. Qed.
Lemma waxpy_reached lam Y X : waxpy (- lam) Y X = reached X lam Y.
Proof. unfold waxpy, reached. revert X. induction Y as [|y Y IH]; intros [|x X]; cbn; try reflexivity. f_equal; [ring|apply IH]. Qed.

Lemma backoff_spec F X lo ml : forall fuel lam Y c, exists k, (k <= fuel)%nat /\
  pk_step (backoff F X lo ml fuel lam Y c) = halved k Y /\
  pk_changed (backoff F X lo ml fuel lam Y c) = (c || (0 <? k)%nat)%bool /\
  (forall j, (j < k)%nat -> ~ finite_at F (reached X lo (halved j Y)) /\ ml <= lam / 2 ^ Datatypes.S j) /\
  (finite_at F (reached X lo (halved k Y)) /\ (k < fuel)%nat \/ k = fuel \/
   (k < fuel)%nat /\ ~ finite_at F (reached X lo (halved k Y)) /\ lam / 2 ^ Datatypes.S k < ml).
Proof.
  induction fuel as [|fuel IH]; intros lam Y c.
  - exists 0%nat. cbn [backoff pk_step pk_changed]. rewrite halved_0, orb_false_r. split; [lia|]. split; [reflexivity|]. split; [reflexivity|]. split; [intros j J; lia|].
    right. left. reflexivity.
  - cbn [backoff]. rewrite waxpy_reached. destruct (F (reached X lo Y)) as [v|] eqn:E.
    + exists 0%nat. cbn [pk_step pk_changed]. rewrite halved_0, orb_false_r. split; [lia|]. split; [reflexivity|]. split; [reflexivity|]. split; [intros j J; lia|].
      left. split; [exists v; exact E|lia].
    + assert (N0 : ~ finite_at F (reached X lo Y)) by (intros [v V]; congruence).
      destruct (Rlt_dec (lam * / 2) ml) as [L|L].
      * exists 0%nat. cbn [pk_step pk_changed]. rewrite halved_0, orb_false_r. split; [lia|]. split; [reflexivity|]. split; [reflexivity|]. split; [intros j J; lia|].
        right. right. repeat split; [lia|exact N0|]. cbn [pow]. replace (lam / (2 * 1)) with (lam * / 2) by field. exact L.
      * destruct (IH (lam * / 2) (map (fun y => y * / 2) Y) true) as (k & K & Hs & Hc & Hj & He).
        exists (Datatypes.S k). rewrite !halved_S in *.
        assert (W : forall n, lam * / 2 / 2 ^ n = lam / 2 ^ Datatypes.S n).
        { intros n. cbn [pow]. field. apply pow_nonzero. lra. }
        split; [lia|]. split; [exact Hs|]. split; [rewrite Hc; destruct c; reflexivity|]. split.
        -- intros [|j] J.
           ++ rewrite halved_0. split; [exact N0|]. cbn [pow]. replace (lam / (2 * 1)) with (lam * / 2) by field. lra.
           ++ destruct (Hj j ltac:(lia)) as [A B]. rewrite halved_S in A. rewrite W in B. split; assumption.
        -- rewrite W in He. destruct He as [[A B]|[A|(A & B & C)]].
           ++ left. split; [exact A|lia].
           ++ right. left. lia.
           ++ right. right. repeat split; [lia|exact B|exact C].
Qed.

Lemma pre_check_spec F X lambda min_lambda m Y : exists k, (k <= m)%nat /\
  pk_step (pre_check F X lambda min_lambda m Y) = halved k Y /\
  (pk_changed (pre_check F X lambda min_lambda m Y) = true <-> (0 < k)%nat) /\
  (forall j, (j < k)%nat -> ~ finite_at F (reached X lambda (halved j Y))) /\
  (finite_at F (reached X lambda (halved k Y)) \/ k = m \/ lambda / 2 ^ Datatypes.S k < min_lambda).
Proof.
  destruct (backoff_spec F X lambda min_lambda m lambda Y false) as (k & K & Hs & Hc & Hj & He).
  exists k. split; [exact K|]. split; [exact Hs|]. split.
  - unfold pre_check. rewrite Hc. cbn [orb]. apply Nat.ltb_lt.
  - split; [intros j J; apply (Hj j J)|]. tauto.
Qed.

Lemma halved_small k Y r lambda : (forall i, lambda * Rabs (nth i Y 0) <= r * 2 ^ k) -> 0 < lambda ->
  forall i, lambda * Rabs (nth i (halved k Y) 0) <= r.
Proof.
  intros H L i. assert (P : 0 < 2 ^ k) by (apply pow_lt; lra).
  assert (N : nth i (halved k Y) 0 = nth i Y 0 / 2 ^ k).
  { unfold halved. rewrite <- (map_nth (fun y => y / 2 ^ k) Y 0 i). f_equal. unfold Rdiv. ring. }
  rewrite N.
  unfold Rdiv. rewrite Rabs_mult, (Rabs_right (/ 2 ^ k)) by (left; apply Rinv_0_lt_compat; exact P).
  specialize (H i). apply Rmult_le_reg_r with (2 ^ k); [exact P|].
  replace (lambda * (Rabs (nth i Y 0) * / 2 ^ k) * 2 ^ k) with (lambda * Rabs (nth i Y 0)) by (field; lra). exact H.
Qed.
Lemma reached_near X lambda : forall (S : list R) r, 0 <= r -> 0 < lambda -> List.length S = List.length X -> (forall i, lambda * Rabs (nth i S 0) <= r) ->
  List.length (reached X lambda S) = List.length X /\ forall i, Rabs (nth i (reached X lambda S) 0 - nth i X 0) <= r.
Proof.
  induction X as [|x X IH]; intros [|y S] r R0 L E H; try discriminate; cbn [reached combine map List.length] in *.
  - split; [reflexivity|]. intros [|i]; cbn; rewrite Rminus_0_r, Rabs_R0; exact R0.
  - destruct (IH S r R0 L ltac:(congruence) (fun i => H (Datatypes.S i))) as [A B]. unfold reached in A, B. split; [congruence|].
    intros [|i]; cbn [nth fst snd].
    + replace (x - lambda * y - x) with (- (lambda * y)) by ring. rewrite Rabs_Ropp, Rabs_mult, (Rabs_right lambda) by lra. exact (H 0%nat).
    + exact (B i).
Qed.

Lemma pre_check_reaches F X lambda min_lambda m Y r j : 0 <= r -> 0 < lambda -> List.length Y = List.length X ->
  (forall w, List.length w = List.length X -> (forall i, Rabs (nth i w 0 - nth i X 0) <= r) -> finite_at F w) ->
  (j < m)%nat -> min_lambda <= lambda / 2 ^ j -> (forall i, lambda * Rabs (nth i Y 0) <= r * 2 ^ j) ->
  finite_at F (reached X lambda (pk_step (pre_check F X lambda min_lambda m Y))).
Proof.
  intros R0 L E D J ML H.
  assert (Fj : finite_at F (reached X lambda (halved j Y))).
  { destruct (reached_near X lambda (halved j Y) r R0 L) as [A B];
      [unfold halved; rewrite map_length; exact E|apply halved_small; assumption|]. apply D; assumption. }
  destruct (pre_check_spec F X lambda min_lambda m Y) as (k & K & Hs & _ & Hj & He). rewrite Hs.
  destruct (Nat.lt_ge_cases j k) as [C|C]; [exfalso; exact (Hj j C Fj)|].
  destruct (Nat.eq_dec k j) as [->|N]; [exact Fj|].
  destruct He as [A|[A|A]]; [exact A|lia|]. exfalso.
  assert (P : 2 ^ Datatypes.S k <= 2 ^ j) by (apply Rle_pow; [lra|lia]).
  assert (P0 : 0 < 2 ^ Datatypes.S k) by (apply pow_lt; lra).
  assert (lambda / 2 ^ j <= lambda / 2 ^ Datatypes.S k) by (apply Rmult_le_compat_l; [lra|]; apply Rinv_le_contravar; assumption).
  lra.
Qed.

(** Five halvings may not be enough: a residual that is finite only close to the current point. *)
Definition narrow (w : list R) : option (list R) := match w with [x] => if Rle_dec (Rabs x) (/ 40) then Some [x] else None | _ => None end.
Lemma narrow_step : pk_step (pre_check narrow [0] 1 0 5 [-1]) = halved 5 [-1] /\
  ~ finite_at narrow (reached [0] 1 (halved 5 [-1])) /\ finite_at narrow (reached [0] 1 (halved 6 [-1])).
Proof.
  assert (Q : forall k : nat, (k <= 5)%nat -> ~ finite_at narrow (reached [0] 1 (halved k [-1]))).
  { intros k K [v V]. unfold reached, halved, narrow in V. cbn [map combine fst snd] in V.
    destruct (Rle_dec _ _) as [A|A] in V; [|discriminate]. revert A.
    do 6 (destruct k as [|k]; [cbn [pow]; rewrite Rabs_right by lra; lra|]). lia. }
  split; [|split].
  - destruct (pre_check_spec narrow [0] 1 0 5 [-1]) as (k & K & Hs & _ & _ & He). rewrite Hs.
    destruct He as [A|[->|A]]; [exfalso; exact (Q k K A)|reflexivity|]. exfalso.
    assert (0 < 1 / 2 ^ Datatypes.S k) by (apply Rdiv_lt_0_compat; [lra|apply pow_lt; lra]). lra.
  - apply Q. lia.
  - unfold finite_at, reached, halved, narrow. cbn [map combine fst snd pow]. destruct (Rle_dec _ _) as [A|A]; [eauto|].
    exfalso. apply A. rewrite Rabs_right by lra. lra.
Qed.
