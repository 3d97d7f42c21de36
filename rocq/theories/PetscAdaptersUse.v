(** * Runs of the equation solver with PETSc: which settings and which preconditioner are in force *)
From Coq Require Import String List ZArith Bool Lia Reals Lra.
From Verif Require Import Prelude EqSolver PetscAdapters.
Import ListNotations.
Local Open Scope R_scope.

Section Runs.
Variable M : Type.
Implicit Types (y : system M) (k : ksp M).

(** The parts of a system that never change. *)
Definition kept_linear (l0 l1 : linear M) : Prop :=
  match l0, l1 with
  | PetscLinear k, PetscLinear k' => ks_settings k' = ks_settings k /\ ks_petsc_prec k' = ks_petsc_prec k
  | OtherLinear s, OtherLinear s' => s' = s
  | _, _ => False
  end.
Lemma kept_refl l : kept_linear l l. Proof. destruct l; cbn; auto. Qed.
Lemma kept_trans a b c : kept_linear a b -> kept_linear b c -> kept_linear a c.
Proof. destruct a, b, c; cbn; try tauto; [intros [? ?] [? ?]; split; congruence|congruence]. Qed.

Definition source_of (l : linear M) : linear_source := match l with PetscLinear _ => SharedKsp | OtherLinear _ => ShellPC end.

(** The state of the nonlinear side after setOperator. *)
Definition ready (o : nonlinear_opts) (l : linear M) (n : newton) : Prop :=
  nw_opts n = o /\ nw_settings n = {| s_rel := nl_rel o; s_abs := nl_abs o; s_max := nl_max o |} /\
  nw_type n = type_from (nl_solver o) /\ nw_search n = search_from (nl_solver o) /\
  sn_type (nw_snes n) = type_from (nl_solver o) /\
  sn_force (nw_snes n) = (0 <? nl_min o)%Z /\
  (nw_operator n = true ->
     sn_tol (nw_snes n) = Some (nw_settings n) /\ sr_type (sn_search (nw_snes n)) = search_from (nl_solver o) /\
     sr_iters (sn_search (nw_snes n)) = (if (0 <? nl_line o)%Z then Some (nl_line o) else None) /\
     sr_precheck (sn_search (nw_snes n)) = true /\ sn_linear (nw_snes n) = source_of l /\
     (forall k, l = PetscLinear k -> ks_petsc_prec k = false -> sn_jacobian (nw_snes n) = Hypre)).
Definition inv (o : nonlinear_opts) (l : linear M) y : Prop :=
  kept_linear l (sy_linear y) /\ ready o l (sy_newton y) /\ sy_called y = nw_operator (sy_newton y).

Lemma linear_step_kept l a : kept_linear l (fst (linear_step l a)).
Proof.
  destruct l as [k|s]; cbn; [|auto]. unfold ksp_solve, pre_solve. cbn.
  destruct (ks_petsc_prec k) eqn:P; cbn; [split; auto|]. destruct (negb (ks_checked k) || ks_needs k)%bool; destruct a; cbn; auto.
Qed.
Lemma newton_linear_kept src l f j : kept_linear l (fst (newton_linear src l f j)).
Proof.
  destruct src; cbn; [apply kept_refl| |apply linear_step_kept]. destruct l as [k|s]; cbn; [|auto]. unfold ksp_solve, pre_solve. cbn.
  destruct (ks_petsc_prec k) eqn:P; cbn; [split; auto|]. destruct (negb (ks_checked k) || ks_needs k)%bool; destruct f; cbn; auto.
Qed.
Lemma newton_linears_kept src f : forall js l, kept_linear l (fst (newton_linears src l f js)).
Proof.
  induction js as [|j js IH]; intros l; [apply kept_refl|]. cbn [newton_linears].
  destruct (newton_linear src l f j) as [l1 r] eqn:E. destruct (newton_linears src l1 f js) as [l2 rs] eqn:E2. cbn [fst].
  apply kept_trans with l1; [change l1 with (fst (l1, r)); rewrite <- E; apply newton_linear_kept|change l2 with (fst (l2, rs)); rewrite <- E2; apply IH].
Qed.

Lemma inv_new o (l : linear_solver) : inv o (sy_linear (new_system (M := M) o l)) (new_system o l).
Proof.
  unfold inv. split; [apply kept_refl|]. split; [|reflexivity]. unfold ready, new_system, new_newton. cbn.
  repeat (refine (conj _ _); [reflexivity|]). discriminate.
Qed.

Lemma set_operator_ready o l y : inv o l y -> inv o l (system_set_operator y) /\ nw_operator (sy_newton (system_set_operator y)) = true.
Proof.
  destruct y as [n ly c]. destruct n as [no nt ns nst nop sn]. destruct sn as [st stol ssr sf sfl slin sj]. destruct ssr as [rt ra ri rp].
  unfold inv, ready. cbn [sy_newton sy_linear sy_called nw_opts nw_type nw_search nw_settings nw_operator nw_snes sn_type sn_tol sn_search sn_force sn_failures sn_linear sn_jacobian sr_type sr_abs sr_iters sr_precheck].
  intros (K & (H1 & H2 & H3 & H4 & H5 & H6 & H7) & C). subst no nst nt ns st sf c.
  destruct nop.
  - destruct (H7 eq_refl) as (A1 & A2 & A3 & A4 & A5 & A6).
    unfold system_set_operator, newton_set_operator, set_tolerances, with_snes.
    cbn [sy_newton sy_linear sy_called nw_opts nw_type nw_search nw_settings nw_operator nw_snes sn_type sn_tol sn_search sn_force sn_failures sn_linear sn_jacobian sr_type sr_abs sr_iters sr_precheck].
    split; [|reflexivity]. split; [exact K|]. split; [|reflexivity].
    repeat (refine (conj _ _); [reflexivity|]). intros _. repeat (refine (conj _ _); [assumption || reflexivity|]). exact A6.
  - destruct l as [k|s], ly as [k'|s']; cbn [kept_linear] in K; try tauto;
    lazy beta iota zeta delta [system_set_operator newton_set_operator set_search set_type set_tolerances with_snes newton_set_solver sy_newton sy_linear sy_called nw_opts nw_type nw_search nw_settings nw_operator nw_snes sn_type sn_tol sn_search sn_force sn_failures sn_linear sn_jacobian sr_type sr_abs sr_iters sr_precheck];
      (split; [|reflexivity]); (split; [exact K|]); (split; [|reflexivity]); repeat (refine (conj _ _); [reflexivity|]); intros _; repeat (refine (conj _ _); [reflexivity|]).
    + intros q E B. destruct K as [_ KP]. rewrite KP. injection E as ->. rewrite B. reflexivity.
    + discriminate.
Qed.

Lemma step_inv o l y e y' v : inv o l y -> step y e = Some (y', v) ->
  inv o l y' /\ (nw_operator (sy_newton y) = true -> nw_operator (sy_newton y') = true).
Proof.
  intros I E. destruct e as [|a|js]; cbn [step] in E.
  - injection E as <- <-. destruct (set_operator_ready o l y I) as [A B]. split; [exact A|intros _; exact B].
  - destruct (linear_step (sy_linear y) a) as [l1 r] eqn:L. injection E as <- <-. destruct I as (K & R & C). split; [|auto].
    split; [|split; [exact R|exact C]]. cbn [sy_linear]. apply kept_trans with (sy_linear y); [exact K|].
    change l1 with (fst (l1, r)). rewrite <- L. apply linear_step_kept.
  - destruct (nw_operator (sy_newton y)) eqn:O; [|discriminate].
    destruct (newton_linears _ (sy_linear y) _ js) as [l1 rs] eqn:L. injection E as <- <-. destruct I as (K & R & C).
    split; [|intros _; exact O]. split; [|split; [exact R|cbn; exact C]]. cbn [sy_linear]. apply kept_trans with (sy_linear y); [exact K|].
    change l1 with (fst (l1, rs)). rewrite <- L. apply newton_linears_kept.
Qed.

Lemma ready_asked o l n : ready o l n -> nw_operator n = true -> class_of (nl_solver o) = CPetsc -> solves_as_asked o (nw_snes n).
Proof.
  intros (H1 & H2 & H3 & H4 & H5 & H6 & H7) O P. destruct (H7 O) as (A1 & A2 & A3 & A4 & A5 & A6).
  unfold solves_as_asked. split; [|split; [|split; [|split]]].
  - rewrite H5, A2. destruct (nl_solver o); cbn in P |- *; try discriminate; auto.
  - exists (nw_settings n). rewrite A1, H2. cbn. auto.
  - intros L. rewrite A3. apply Z.ltb_lt in L. rewrite L. reflexivity.
  - exact A4.
  - rewrite H6. apply Z.ltb_lt.
Qed.

Lemma run_asked o l : class_of (nl_solver o) = CPetsc -> forall es y y' os, inv o l y -> run y es = Some (y', os) ->
  Forall (solves_as_asked o) (nonlinear_solves os).
Proof.
  intros P. induction es as [|e es IH]; intros y y' os I E; cbn [run] in E.
  - injection E as <- <-. constructor.
  - destruct (step y e) as [[y1 v]|] eqn:S; [|discriminate]. destruct (run y1 es) as [[y2 os']|] eqn:R; [|discriminate].
    destruct (step_inv o l y e y1 v I S) as [I1 _]. specialize (IH y1 y2 os' I1 R).
    injection E as <- <-. destruct v as [v|]; [|exact IH]. cbn [nonlinear_solves flat_map]. apply Forall_app. split; [|exact IH].
    destruct e as [|a|js]; cbn [step] in S; [discriminate| |].
    + destruct (linear_step (sy_linear y) a). injection S as <- <-. constructor.
    + destruct (nw_operator (sy_newton y)) eqn:O; [|discriminate]. destruct (newton_linears _ _ _ js). injection S as <- <-.
      constructor; [|constructor]. cbn [sv_snes]. exact (ready_asked o l _ (proj1 (proj2 I)) O P).
Qed.

(** The matrices are met in order. *)
Lemma linear_step_matrix l (a : operand M) : rp_matrix (snd (linear_step l a)) = of_operand a.
Proof. destruct l as [k|s]; cbn; reflexivity. Qed.
Lemma newton_linear_matrix src l f (j : M) : rp_matrix (snd (newton_linear src l f j)) = j.
Proof. destruct src; cbn; [reflexivity| |apply (linear_step_matrix l (Assembled j))]. destruct l; reflexivity. Qed.
Lemma newton_linears_matrix src f : forall js l, map rp_matrix (snd (newton_linears (M := M) src l f js)) = js.
Proof.
  induction js as [|j js IH]; intros l; [reflexivity|]. cbn [newton_linears].
  destruct (newton_linear src l f j) as [l1 r] eqn:E. destruct (newton_linears src l1 f js) as [l2 rs] eqn:E2. cbn [snd map]. f_equal.
  - change r with (snd (l1, r)). rewrite <- E. apply newton_linear_matrix.
  - change rs with (snd (l2, rs)). rewrite <- E2. apply IH.
Qed.
Lemma run_matrices : forall es y y' os, run (M := M) y es = Some (y', os) -> map rp_matrix (linear_systems os) = matrices es.
Proof.
  induction es as [|e es IH]; intros y y' os E; cbn [run] in E.
  - injection E as <- <-. reflexivity.
  - destruct (step y e) as [[y1 v]|] eqn:S; [|discriminate]. destruct (run y1 es) as [[y2 os']|] eqn:R; [|discriminate].
    specialize (IH y1 y2 os' R). injection E as <- <-. unfold matrices. cbn [flat_map]. fold (matrices es). rewrite <- IH.
    destruct e as [|a|js]; cbn [step] in S.
    + injection S as <- <-. reflexivity.
    + destruct (linear_step (sy_linear y) a) as [l1 r] eqn:L. injection S as <- <-. cbn [linear_systems flat_map app map].
      f_equal. change r with (snd (l1, r)). rewrite <- L. apply linear_step_matrix.
    + destruct (nw_operator (sy_newton y)) eqn:O; [|discriminate]. destruct (newton_linears _ _ _ js) as [l1 rs] eqn:L. injection S as <- <-.
      unfold linear_systems. cbn [flat_map sv_linear]. rewrite map_app. f_equal.
      change rs with (snd (l1, rs)). rewrite <- L. apply newton_linears_matrix.
Qed.

(** The preconditioner is the one of the matrix being solved. *)
Definition current (r : report M) : Prop := rp_prec r = Some (rp_matrix r).
Definition tracks (l : linear M) : Prop :=
  match l with PetscLinear k => ks_petsc_prec k = false -> ks_checked k = true -> ks_needs k = true | OtherLinear _ => True end.
Lemma linear_step_current l (a : operand M) : tracks l -> current (snd (linear_step l a)) /\
  ((match a with Assembled _ => True | General _ => match l with PetscLinear k => ks_petsc_prec k = true | OtherLinear _ => True end end) -> tracks (fst (linear_step l a))).
Proof.
  destruct l as [k|s]; cbn; [|intros _; split; [reflexivity|auto]]. intros T. unfold ksp_solve, pre_solve, current. cbn.
  destruct (ks_petsc_prec k) eqn:P; cbn; [split; [reflexivity|intros _; discriminate]|].
  destruct a as [m|m]; cbn; destruct (ks_checked k) eqn:C; cbn; destruct (ks_needs k) eqn:N; cbn; split; auto; try reflexivity; discriminate.
Qed.
Lemma newton_linear_current l f (j : M) : tracks l -> (forall k, l = PetscLinear k -> ks_petsc_prec k = false -> f = Hypre) ->
  current (snd (newton_linear (source_of l) l f j)) /\ tracks (fst (newton_linear (source_of l) l f j)).
Proof.
  intros T J. destruct l as [k|s]; cbn [source_of newton_linear].
  - cbn in T. unfold ksp_solve, pre_solve, current. cbn. destruct (ks_petsc_prec k) eqn:P; cbn; [split; [reflexivity|discriminate]|].
    rewrite (J k eq_refl P). destruct (ks_checked k) eqn:C; cbn; [rewrite (T eq_refl eq_refl); cbn|]; auto.
  - destruct (linear_step_current (OtherLinear s) (Assembled j) Logic.I) as [A B]. split; [exact A|exact Logic.I].
Qed.
Lemma kept_source l l' : kept_linear l l' -> source_of l' = source_of l.
Proof. destruct l, l'; cbn; tauto. Qed.
Lemma kept_format l l' f : kept_linear l l' -> (forall k, l = PetscLinear k -> ks_petsc_prec k = false -> f = Hypre) ->
  (forall k, l' = PetscLinear k -> ks_petsc_prec k = false -> f = Hypre).
Proof.
  intros K H k E P. subst l'. destruct l as [k0|s]; cbn in K; [|tauto]. destruct K as [_ K]. apply (H k0 eq_refl). congruence.
Qed.
Lemma newton_linears_current f : forall js l, tracks l -> (forall k, l = PetscLinear k -> ks_petsc_prec k = false -> f = Hypre) ->
  Forall current (snd (newton_linears (source_of l) l f js)) /\ tracks (fst (newton_linears (source_of l) l f js)).
Proof.
  induction js as [|j js IH]; intros l T J; [split; [constructor|exact T]|]. cbn [newton_linears].
  destruct (newton_linear_current l f j T J) as [A B]. pose proof (newton_linear_kept (source_of l) l f j) as K.
  destruct (newton_linear (source_of l) l f j) as [l1 r]. cbn [fst snd] in *.
  destruct (IH l1 B (kept_format l l1 f K J)) as [C D]. rewrite (kept_source l l1 K) in C, D.
  destruct (newton_linears (source_of l) l1 f js) as [l2 rs]. cbn [fst snd] in *. split; [constructor; assumption|exact D].
Qed.
Definition no_general (l : linear M) (es : list (event M)) : Prop :=
  assembled_only es \/ match l with PetscLinear k => ks_petsc_prec k = true | OtherLinear _ => True end.
Lemma run_current o l : forall es y y' os, inv o l y -> tracks (sy_linear y) -> no_general l es -> run y es = Some (y', os) ->
  Forall current (linear_systems os).
Proof.
  induction es as [|e es IH]; intros y y' os I T G E; cbn [run] in E.
  - injection E as <- <-. constructor.
  - destruct (step y e) as [[y1 v]|] eqn:S; [|discriminate]. destruct (run y1 es) as [[y2 os']|] eqn:R; [|discriminate].
    destruct (step_inv o l y e y1 v I S) as [I1 _].
    assert (G1 : no_general l es) by (destruct G as [G|G]; [left; inversion G; assumption|right; exact G]).
    destruct e as [|a|js]; cbn [step] in S.
    + injection S as <- <-. injection E as <- <-. exact (IH _ _ _ I1 T G1 R).
    + destruct (linear_step_current (sy_linear y) a T) as [A B]. destruct (linear_step (sy_linear y) a) as [l1 r] eqn:L. cbn [fst snd] in *.
      injection S as <- <-. injection E as <- <-. cbn [linear_systems flat_map app]. constructor; [exact A|].
      refine (IH _ _ _ I1 _ G1 R). cbn [sy_linear]. apply B. destruct a as [m|m]; [exact Logic.I|].
      destruct G as [G|G]; [inversion G; tauto|]. pose proof (proj1 I) as K. destruct l as [k|s], (sy_linear y) as [k'|s']; cbn in K; try tauto.
      destruct K as [_ K]. congruence.
    + destruct (nw_operator (sy_newton y)) eqn:O; [|discriminate]. destruct I as (K & Rd & C).
      destruct Rd as (_ & _ & _ & _ & _ & _ & H7). destruct (H7 O) as (_ & _ & _ & _ & A5 & A6).
      rewrite A5, <- (kept_source _ _ K) in S.
      destruct (newton_linears_current (sn_jacobian (nw_snes (sy_newton y))) js (sy_linear y) T (kept_format l _ _ K A6)) as [A B].
      destruct (newton_linears _ (sy_linear y) _ js) as [l1 rs]. cbn [fst snd] in *. injection S as <- <-. injection E as <- <-.
      unfold linear_systems. cbn [flat_map sv_linear]. apply Forall_app. split; [exact A|]. exact (IH _ _ _ I1 B G1 R).
Qed.

(** The settings of the linear solves. *)
Definition tuned (s : option settings) (l : linear M) : Prop :=
  match l with PetscLinear k => ks_settings k = s /\ ks_tol k = s | OtherLinear t => t = s end.
Lemma linear_step_tuned l (a : operand M) s : match l with PetscLinear k => ks_settings k = s | OtherLinear t => t = s end ->
  rp_tol (snd (linear_step l a)) = s /\ tuned s (fst (linear_step l a)).
Proof.
  destruct l as [k|t]; cbn; [|auto]. intros E. unfold ksp_solve, pre_solve. cbn.
  destruct (ks_petsc_prec k); cbn; [auto|]. destruct (negb (ks_checked k) || ks_needs k)%bool; destruct a; cbn; auto.
Qed.
Lemma tuned_settings s l : tuned s l -> match l with PetscLinear k => ks_settings k = s | OtherLinear t => t = s end.
Proof. destruct l; cbn; tauto. Qed.
Lemma newton_linears_tuned f s : forall js l, tuned s l ->
  Forall (fun r => rp_tol r = s) (snd (newton_linears (source_of l) l f js)) /\ tuned s (fst (newton_linears (source_of l) l f js)).
Proof.
  induction js as [|j js IH]; intros l T; [split; [constructor|exact T]|]. cbn [newton_linears].
  assert (Q : rp_tol (snd (newton_linear (source_of l) l f j)) = s /\ tuned s (fst (newton_linear (source_of l) l f j))).
  { destruct l as [k|t]; cbn [source_of newton_linear].
    - destruct T as [T1 T2]. unfold ksp_solve, pre_solve. cbn. destruct (ks_petsc_prec k); cbn; [auto|].
      destruct (negb (ks_checked k) || ks_needs k)%bool; destruct f; cbn; auto.
    - apply (linear_step_tuned (OtherLinear t) (Assembled j) s T). }
  destruct Q as [A B]. pose proof (newton_linear_kept (source_of l) l f j) as K.
  destruct (newton_linear (source_of l) l f j) as [l1 r]. cbn [fst snd] in *.
  destruct (IH l1 B) as [C D]. rewrite (kept_source l l1 K) in C, D.
  destruct (newton_linears (source_of l) l1 f js) as [l2 rs]. cbn [fst snd] in *. split; [constructor; assumption|exact D].
Qed.
Lemma run_tuned o l s : forall es y y' os, inv o l y -> tuned s (sy_linear y) -> run y es = Some (y', os) ->
  Forall (fun r => rp_tol r = s) (linear_systems os) /\ tuned s (sy_linear y').
Proof.
  induction es as [|e es IH]; intros y y' os I T E; cbn [run] in E.
  - injection E as <- <-. split; [constructor|exact T].
  - destruct (step y e) as [[y1 v]|] eqn:S; [|discriminate]. destruct (run y1 es) as [[y2 os']|] eqn:R; [|discriminate].
    destruct (step_inv o l y e y1 v I S) as [I1 _].
    destruct e as [|a|js]; cbn [step] in S.
    + injection S as <- <-. injection E as <- <-. exact (IH _ _ _ I1 T R).
    + destruct (linear_step_tuned (sy_linear y) a s (tuned_settings s _ T)) as [A B]. destruct (linear_step (sy_linear y) a) as [l1 r] eqn:L. cbn [fst snd] in *.
      injection S as <- <-. injection E as <- <-. destruct (IH _ _ _ I1 B R) as [C D]. split; [|exact D].
      cbn [linear_systems flat_map app]. constructor; assumption.
    + destruct (nw_operator (sy_newton y)) eqn:O; [|discriminate]. destruct I as (K & Rd & C).
      destruct Rd as (_ & _ & _ & _ & _ & _ & H7). destruct (H7 O) as (_ & _ & _ & _ & A5 & A6).
      rewrite A5, <- (kept_source _ _ K) in S.
      destruct (newton_linears_tuned (sn_jacobian (nw_snes (sy_newton y))) s js (sy_linear y) T) as [A B].
      destruct (newton_linears _ (sy_linear y) _ js) as [l1 rs]. cbn [fst snd] in *. injection S as <- <-. injection E as <- <-.
      destruct (IH _ _ _ I1 B R) as [D1 D2]. split; [|exact D2].
      unfold linear_systems. cbn [flat_map sv_linear]. apply Forall_app. split; assumption.
Qed.

(** Every run that sets the operator first goes through. *)
Lemma run_total : forall es y, nw_operator (sy_newton y) = true -> sy_called y = true -> run (M := M) y es <> None.
Proof.
  induction es as [|e es IH]; intros y O C; cbn [run]; [discriminate|].
  assert (Q : exists y1 v, step y e = Some (y1, v) /\ nw_operator (sy_newton y1) = true /\ sy_called y1 = true).
  { destruct e as [|a|js]; cbn [step].
    - eexists _, _. split; [reflexivity|]. split; [|reflexivity]. unfold system_set_operator, newton_set_operator. rewrite C, O. reflexivity.
    - destruct (linear_step (sy_linear y) a). eexists _, _. split; [reflexivity|auto].
    - rewrite O. destruct (newton_linears _ _ _ js). eexists _, _. split; [reflexivity|auto]. }
  destruct Q as (y1 & v & -> & O1 & C1). specialize (IH y1 O1 C1). destruct (run y1 es) as [[y2 os]|]; [discriminate|tauto].
Qed.
End Runs.

(** ** From the options *)
Lemma built_linear b nl lin n l p : equation_solver b nl lin = Ok (n, l, p) ->
  class_of (nl_solver nl) = ns_class n /\ ls_kind l = lin_solver lin /\ (~ is_direct (lin_solver lin) -> ls_settings l = Some (settings_of lin)) /\
  (is_petsc (lin_solver lin) = true -> petsc_prec (ls_prec l) = match lin_prec lin with Petsc => true | _ => false end).
Proof.
  unfold equation_solver, build_linear, bindO. destruct (build_prec b lin) as [q| |] eqn:P; try discriminate.
  pose proof (prec_spec b lin q P) as [_ Q].
  assert (Hp : petsc_prec q = match lin_prec lin with Petsc => true | _ => false end).
  { destruct Q as [[Q ->]|[Q (r & -> & Q1)]]; [rewrite Q; reflexivity|]. cbn. rewrite Q1. destruct (lin_prec lin); reflexivity. }
  intros E.
  assert (C : forall r m, build_nonlinear b nl r = Ok m -> class_of (nl_solver nl) = ns_class m).
  { intros r m. unfold build_nonlinear. destruct (nl_solver nl), (sundials b), (petsc b), (((nl_min nl =? 0) && (nl_line nl =? 0))%Z); intros X; try discriminate; injection X as <-; reflexivity. }
  destruct (lin_solver lin) eqn:L; try destruct (strumpack b); try destruct (petsc b); cbn [snd fst] in E; try discriminate;
    destruct q as [q|]; try discriminate; destruct (build_nonlinear b nl q) as [m| |] eqn:B; try discriminate; injection E as <- <- <-;
    (split; [exact (C q m B)|]); unfold direct, iterative; cbn [ls_kind ls_settings ls_prec]; rewrite ?L; (split; [reflexivity|]); split;
    try (intros _; exact Hp); try (intros _; reflexivity); try (intros D; exfalso; apply D; unfold is_direct; auto); try discriminate.
Qed.
