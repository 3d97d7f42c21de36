(** * Equation solvers with PETSc built from options: statements about whole runs, and examples *)
From Coq Require Import String List ZArith Bool Lia Reals Lra.
From Verif Require Import Prelude EqSolver PetscAdapters PetscAdaptersUse.
Import ListNotations.
Local Open Scope R_scope.

Section Built.
Variables (M : Type) (b : build) (nl : nonlinear_opts) (lin : linear_opts) (n : nonlinear_solver) (l : linear_solver) (p : option preconditioner).
Hypothesis built : equation_solver b nl lin = Ok (n, l, p).

Lemma built_solves es y os : ns_class n = CPetsc -> run (new_system (M := M) nl l) es = Some (y, os) -> Forall (solves_as_asked nl) (nonlinear_solves os).
Proof.
  intros C E. destruct (built_linear b nl lin n l p built) as (A & _).
  apply (run_asked M nl (sy_linear (new_system nl l)) (eq_trans A C) es (new_system nl l) y os); [apply inv_new|exact E].
Qed.

Lemma built_current es y os : assembled_only es \/ lin_prec lin = Petsc -> run (new_system (M := M) nl l) es = Some (y, os) ->
  Forall (fun r => rp_prec r = Some (rp_matrix r)) (linear_systems os).
Proof.
  intros G E. destruct (built_linear b nl lin n l p built) as (_ & Kd & _ & P).
  apply (run_current M nl (sy_linear (new_system nl l)) es (new_system nl l) y os); [apply inv_new| | |exact E].
  - unfold new_system. cbn [sy_linear]. destruct (is_petsc (ls_kind l)); cbn; [discriminate|exact Logic.I].
  - destruct G as [G|G]; [left; exact G|right]. unfold new_system. cbn [sy_linear]. rewrite Kd.
    destruct (is_petsc (lin_solver lin)) eqn:Q; cbn; [|exact Logic.I]. rewrite (P eq_refl), G. reflexivity.
Qed.

Lemma run_app (y : system M) es es' : run y (es ++ es') =
  match run y es with None => None | Some (y1, os) => match run y1 es' with None => None | Some (y2, os') => Some (y2, os ++ os') end end.
Proof.
  revert y. induction es as [|e es IH]; intros y; cbn [run app]; [destruct (run y es') as [[? ?]|]; reflexivity|].
  destruct (step y e) as [[y1 v]|]; [|reflexivity]. rewrite IH. destruct (run y1 es) as [[y2 os]|]; [|reflexivity].
  destruct (run y2 es') as [[y3 os']|]; [|reflexivity]. destruct v; reflexivity.
Qed.
Lemma run_inv o k : forall es y y' os, inv M o k y -> run y es = Some (y', os) -> inv M o k y'.
Proof.
  induction es as [|e es IH]; intros y y' os I E; cbn [run] in E; [injection E as <- <-; exact I|].
  destruct (step y e) as [[y1 v]|] eqn:S; [|discriminate]. destruct (run y1 es) as [[y2 os']|] eqn:R; [|discriminate].
  injection E as <- <-. exact (IH _ _ _ (proj1 (step_inv M o k y e y1 v I S)) R).
Qed.

Lemma built_tuned_after es a es' y os : ~ is_direct (lin_solver lin) ->
  run (new_system (M := M) nl l) (es ++ LinearSolve a :: es') = Some (y, os) ->
  Forall (fun r => rp_tol r = Some (settings_of lin)) (skipn (List.length (matrices es)) (linear_systems os)).
Proof.
  intros D E. destruct (built_linear b nl lin n l p built) as (_ & Kd & Hs & _). specialize (Hs D). rewrite run_app in E.
  destruct (run (new_system nl l) es) as [[y1 os1]|] eqn:E1; [|discriminate].
  destruct (run y1 (LinearSolve a :: es')) as [[y2 os2]|] eqn:E2; [|discriminate]. injection E as <- <-.
  pose proof (run_matrices M es (new_system nl l) y1 os1 E1) as L1. apply (f_equal (@List.length M)) in L1. rewrite map_length in L1.
  assert (X : linear_systems (os1 ++ os2) = linear_systems os1 ++ linear_systems os2) by apply flat_map_app. rewrite X.
  rewrite <- L1, skipn_app, skipn_all, Nat.sub_diag, skipn_O, app_nil_l.
  pose proof (run_inv nl _ es (new_system nl l) y1 os1 (inv_new M nl l) E1) as I1.
  assert (T : match sy_linear y1 with PetscLinear k => ks_settings k = Some (settings_of lin) | OtherLinear t => t = Some (settings_of lin) end).
  { destruct I1 as (K & _). unfold new_system in K. cbn [sy_linear] in K. destruct (is_petsc (ls_kind l)), (sy_linear y1); cbn in K; try tauto; [destruct K as [K _]|]; congruence. }
  cbn [run step] in E2. destruct (linear_step_tuned M (sy_linear y1) a _ T) as [A B].
  destruct (linear_step (sy_linear y1) a) as [l1 r] eqn:Ls. cbn [fst snd] in A, B.
  destruct (run _ es') as [[y3 os3]|] eqn:E3; [|discriminate]. injection E2 as <- <-.
  cbn [linear_systems flat_map app]. constructor; [exact A|].
  refine (proj1 (run_tuned M nl _ (Some (settings_of lin)) es' _ y3 os3 _ _ E3)); [|exact B].
  apply (proj1 (step_inv M nl _ y1 (LinearSolve a) _ (Some (SawLinear r)) I1 ltac:(cbn [step]; rewrite Ls; reflexivity))).
Qed.

Lemma built_tuned es y os : ~ is_direct (lin_solver lin) -> is_petsc (lin_solver lin) = false ->
  run (new_system (M := M) nl l) es = Some (y, os) -> Forall (fun r => rp_tol r = Some (settings_of lin)) (linear_systems os).
Proof.
  intros D Q E. destruct (built_linear b nl lin n l p built) as (_ & Kd & Hs & _).
  refine (proj1 (run_tuned M nl _ (Some (settings_of lin)) es (new_system nl l) y os (inv_new M nl l) _ E)).
  unfold new_system. cbn [sy_linear]. rewrite Kd, Q. exact (Hs D).
Qed.
End Built.

Lemma run_started M nl l es : run (new_system (M := M) nl l) (SetOperator :: es) <> None.
Proof.
  cbn [run step]. destruct (set_operator_ready M nl _ _ (inv_new M nl l)) as [I O].
  pose proof (run_total M es (system_set_operator (new_system nl l)) O ltac:(reflexivity)) as T.
  destruct (run _ es) as [[y2 os]|]; [discriminate|tauto].
Qed.
Lemma run_unstarted M nl l js es : run (new_system (M := M) nl l) (Solve js :: es) = None.
Proof. reflexivity. Qed.

(** ** The minimum number of iterations: any two positive values behave alike *)
Definition with_min (o : nonlinear_opts) (m : Z) : nonlinear_opts :=
  {| nl_solver := nl_solver o; nl_rel := nl_rel o; nl_abs := nl_abs o; nl_min := m; nl_max := nl_max o; nl_line := nl_line o; nl_print := nl_print o |}.
Definition rename (o : nonlinear_opts) (x : newton) : newton :=
  {| nw_opts := o; nw_type := nw_type x; nw_search := nw_search x; nw_settings := nw_settings x; nw_operator := nw_operator x; nw_snes := nw_snes x |}.
Definition renamed {M} (o : nonlinear_opts) (y : system M) : system M :=
  {| sy_newton := rename o (sy_newton y); sy_linear := sy_linear y; sy_called := sy_called y |}.
Lemma rename_tolerances o x : nl_line o = nl_line (nw_opts x) -> set_tolerances (rename o x) = rename o (set_tolerances x).
Proof. intros L. unfold set_tolerances, rename, with_snes. cbn [nw_opts nw_type nw_search nw_settings nw_operator nw_snes]. rewrite L. reflexivity. Qed.
Lemma rename_operator o x : nl_line o = nl_line (nw_opts x) -> newton_set_operator (rename o x) = rename o (newton_set_operator x).
Proof.
  intros L. unfold newton_set_operator. destruct x as [xo xt xs xst xop sn]. cbn [rename nw_opts nw_type nw_search nw_settings nw_operator nw_snes] in *.
  destruct xop; unfold set_search, set_type; cbn [nw_opts nw_type nw_search nw_settings nw_operator nw_snes].
  - rewrite <- rename_tolerances by exact L. reflexivity.
  - rewrite <- rename_tolerances by exact L. f_equal. rewrite <- rename_tolerances by exact L. reflexivity.
Qed.
Lemma set_operator_line x : nl_line (nw_opts (newton_set_operator x)) = nl_line (nw_opts x).
Proof. unfold newton_set_operator, set_search, set_type, set_tolerances, with_snes. destruct (nw_operator x); reflexivity. Qed.
Lemma renamed_step M o (y : system M) e : nl_line o = nl_line (nw_opts (sy_newton y)) ->
  step (renamed o y) e = match step y e with Some (y', v) => Some (renamed o y', v) | None => None end /\
  (forall y' v, step y e = Some (y', v) -> nl_line (nw_opts (sy_newton y')) = nl_line (nw_opts (sy_newton y))).
Proof.
  intros L. destruct e as [|a|js]; cbn [step].
  - split.
    + f_equal. f_equal. unfold system_set_operator, renamed. cbn [sy_newton sy_linear sy_called]. rewrite rename_operator by exact L.
      destruct (sy_called y), (sy_linear y); reflexivity.
    + intros y' v E. injection E as <- <-. unfold system_set_operator. cbn [sy_newton].
      destruct (sy_called y), (sy_linear y); unfold newton_set_solver, with_snes; cbn [nw_opts]; apply set_operator_line.
  - unfold renamed. cbn [sy_newton sy_linear sy_called]. destruct (linear_step (sy_linear y) a). split; [reflexivity|].
    intros y' v E. injection E as <- <-. reflexivity.
  - unfold renamed. cbn [sy_newton sy_linear sy_called rename nw_operator nw_snes]. destruct (nw_operator (sy_newton y)); [|split; [reflexivity|discriminate]].
    destruct (newton_linears _ _ _ js). split; [reflexivity|]. intros y' v E. injection E as <- <-. reflexivity.
Qed.
Lemma renamed_run M o : forall es (y : system M), nl_line o = nl_line (nw_opts (sy_newton y)) ->
  option_map snd (run (renamed o y) es) = option_map snd (run y es).
Proof.
  induction es as [|e es IH]; intros y L; [reflexivity|]. cbn [run]. destruct (renamed_step M o y e L) as [A B]. rewrite A.
  destruct (step y e) as [[y' v]|]; [|reflexivity]. specialize (IH y' ltac:(rewrite L; symmetry; apply (B y' v eq_refl))).
  destruct (run (renamed o y') es) as [[z1 o1]|], (run y' es) as [[z2 o2]|]; cbn in IH; try discriminate; [|reflexivity].
  injection IH as ->. reflexivity.
Qed.
Lemma min_ignored M o l m es : (0 < nl_min o)%Z -> (0 < m)%Z ->
  option_map snd (run (new_system (M := M) (with_min o m) l) es) = option_map snd (run (new_system o l) es).
Proof.
  intros A B. rewrite <- (renamed_run M (with_min o m) es (new_system o l)) by reflexivity. do 3 f_equal.
  unfold new_system, renamed, new_newton, rename, with_min. cbn [sy_newton sy_linear sy_called nl_solver nl_rel nl_abs nl_min nl_max nl_line nl_print nw_opts nw_type nw_search nw_settings nw_operator nw_snes].
  apply Z.ltb_lt in A, B. rewrite A, B. reflexivity.
Qed.

(** ** Examples *)
Definition all_built : build := {| sundials := true; petsc := true; strumpack := true; amgx := true |}.
Definition bt_options : nonlinear_opts := {| nl_solver := PetscBacktracking; nl_rel := / 1000; nl_abs := / 1000000; nl_min := 1; nl_max := 30; nl_line := 4; nl_print := 0 |}.
Definition cg_options (r : R) : linear_opts := {| lin_solver := PetscCG; lin_prec := HypreAMG; lin_petsc_pc := "JACOBI"; lin_rel := r; lin_abs := 0; lin_max := 500; lin_print := 0; lin_prec_print := 0 |}.
Definition cg_solver (r : R) : linear_solver := iterative (cg_options r) (Some {| pc_kind := HypreAMG; pc_print := Some 0%Z |}).
Lemma bt_built r : exists n, equation_solver all_built bt_options (cg_options r) = Ok (n, cg_solver r, ls_prec (cg_solver r)) /\ ns_class n = CPetsc.
Proof. eexists. split; [reflexivity|reflexivity]. Qed.

(** A quasi-static run with warm starts: two steps, with two and one Newton iterations. *)
Definition warm_run : list (event nat) := [SetOperator; LinearSolve (Assembled 1%nat); Solve [2; 3]%nat; LinearSolve (Assembled 4%nat); Solve [5]%nat].
Lemma warm_runs r : exists y os, run (new_system bt_options (cg_solver r)) warm_run = Some (y, os) /\
  map rp_matrix (linear_systems os) = [1; 2; 3; 4; 5]%nat /\ List.length (nonlinear_solves os) = 2%nat /\ assembled_only warm_run.
Proof.
  destruct (run (new_system bt_options (cg_solver r)) warm_run) as [[y os]|] eqn:E; [|exfalso; exact (run_started _ _ _ _ E)].
  exists y, os. split; [reflexivity|]. split; [exact (run_matrices nat warm_run _ _ _ E)|]. split.
  - unfold warm_run in E. cbn [run step] in E. unfold new_system in E. cbn in E. injection E as _ <-. reflexivity.
  - repeat constructor.
Qed.
(** A heat conduction step has no linear solve of its own before the nonlinear one. *)
Definition cold_run : list (event nat) := [SetOperator; Solve [1; 2]%nat].
Lemma cold_untuned r : exists y os, run (new_system bt_options (cg_solver r)) cold_run = Some (y, os) /\
  map rp_tol (linear_systems os) = [None; None].
Proof.
  destruct (run (new_system bt_options (cg_solver r)) cold_run) as [[y os]|] eqn:E; [|exfalso; exact (run_started _ _ _ _ E)].
  exists y, os. split; [reflexivity|]. unfold cold_run in E. cbn [run step] in E. unfold new_system in E. cbn in E. injection E as _ <-. reflexivity.
Qed.
Lemma cold_refuted : exists b nl lin n l p, equation_solver b nl lin = Ok (n, l, p) /\ ns_class n = CPetsc /\ ~ is_direct (lin_solver lin) /\
  exists es y os, run (new_system (M := nat) nl l) es = Some (y, os) /\ ~ Forall (fun r => rp_tol r = Some (settings_of lin)) (linear_systems os).
Proof.
  destruct (bt_built (/ 1000000)) as (n & E & C). destruct (cold_untuned (/ 1000000)) as (y & os & R & T).
  exists all_built, bt_options, (cg_options (/ 1000000)), n, (cg_solver (/ 1000000)), (ls_prec (cg_solver (/ 1000000))).
  split; [exact E|]. split; [exact C|]. split; [intros [D|D]; discriminate|]. exists cold_run, y, os. split; [exact R|].
  intros F. destruct (linear_systems os) as [|r rs]; [discriminate|]. inversion F as [|? ? F1 _]. cbn [map] in T. injection T as T1 _. congruence.
Qed.

(** A step that leaves the region where the residual is finite: three halvings bring it back. *)
Definition inside (w : list R) : option (list R) := match w with [x] => if Rle_dec (Rabs x) 1 then Some [x * x] else None | _ => None end.
Lemma inside_reached : finite_at inside (reached [0] 1 (pk_step (pre_check inside [0] 1 (/ 10 ^ 12) 5 [-8]))) /\ ~ finite_at inside (reached [0] 1 [-8]).
Proof.
  split.
  - apply (pre_check_reaches inside [0] 1 (/ 10 ^ 12) 5 [-8] 1 3); try lra; try lia; try reflexivity.
    + intros [|x [|? ?]] L H; cbn in L; try discriminate. specialize (H 0%nat). cbn [nth] in H. rewrite Rminus_0_r in H.
      unfold finite_at, inside. destruct (Rle_dec (Rabs x) 1); [eauto|contradiction].
    + intros [|[|i]]; cbn [nth pow]; rewrite ?Rabs_R0; try lra. rewrite Rabs_left; lra.
  - intros [v V]. unfold reached, inside in V. cbn [map combine fst snd] in V. destruct (Rle_dec _ _) as [A|A] in V; [|discriminate].
    revert A. rewrite Rabs_right; lra.
Qed.
