(** * The runs of the modules are programs which drive their residual (C75)

    The steps of QuasiStatic.v and Transient.v and the reverse passes of QuasiAdjoint.v, HeatBack.v and MotionBack.v, written as programs in
    the sense of Programs.v: the same calls in the same order, with the buffers left to whoever runs the program.  A module without its
    buffers is its state with material data of type [unit]. *)
From Coq Require Import NArith ZArith Reals List Lia Lra Bool Permutation FunctionalExtensionality.
From Coquelicot Require Import Coquelicot.
From Verif Require Import Prelude DofCodec Sums Restriction Csr Kernels FunctionalModel FunctionalGrad FunctionalTotal Assembly Tensor MatAlg BoundaryElim Adjoint AdjointDeriv Ode
  QuasiStatic QuasiAdjoint Transient HeatBack MotionBack Programs.
Import ListNotations.
Local Open Scope R_scope.

Definition no_buffers : mem unit := {| m_q := fun _ _ _ _ => tt; m_d := fun _ _ _ _ _ => None |}.
Notation module := (state (St := unit)).
Notation body := (motion (St := unit)).
Notation conductor := (warmth (St := unit)).

(** ** the programs *)
Section Programs.
Variable n : nat.
Variable bc : nat -> bool.
Variable target : R -> vec.

(** EquationSolver::solve: any solver, on operators which are programs *)
Fixpoint p_ask (res : vec -> program vec) (jac : vec -> program mat) (s : solver) : program (vec * bool) :=
  match s with
  | Give x b => Done (x, b)
  | AskResidual x k => after (res x) (fun r => p_ask res jac (k r))
  | AskJacobian x k => after (jac x) (fun J => p_ask res jac (k J))
  end.

(** solid_mechanics.hpp:1120-1141 *)
Definition p_residual (t : R) (others : nat -> list R) (x : vec) : program vec :=
  Evaluate t false (inputs others (tab n x)) (fun L => Done (zeroed bc (entries L))).
Definition p_jacobian (t : R) (others : nat -> list R) (x : vec) : program mat :=
  Differentiate t 0 false (inputs others (tab n x)) (fun _ A => Done A).
Definition p_solve (t : R) (others : nat -> list R) : solver -> program (vec * bool) :=
  p_ask (p_residual t others) (fun x => after (p_jacobian t others x) (fun A => Done (eliminate bc A))).
(** solid_mechanics.hpp:1731-1769 *)
Definition p_warm_up (ld : load) (s : module) : program vec :=
  let t' := s_t s + l_dt ld in
  let u := entries (s_u s) in
  if l_warm ld then
    Evaluate t' false (inputs (l_others ld) (tab n u)) (fun L =>
    after (p_jacobian (s_t s) (previous ld s) u) (fun A =>
    Done (warm_start n bc (l_lin ld) true A (entries L) (target t') u)))
  else Done (warm_start n bc (l_lin ld) false (fun _ _ => 0) (fun _ => 0) (target t') u).
(** solid_mechanics.hpp:1243-1295, 1620-1630 *)
Definition p_step (ld : load) (s : module) : program (module * bool) :=
  after (p_warm_up ld s) (fun x0 =>
  let t' := s_t s + l_dt ld in
  after (p_solve t' (l_others ld) (l_solver ld x0)) (fun q =>
  let u' := tab n (fst q) in
  Evaluate t' true (inputs (l_others ld) u') (fun L =>
  Done ({| s_u := u'; s_t := t'; s_cycle := S (s_cycle s); s_mem := no_buffers; s_prev := previous ld s; s_react := L;
           s_saved := s_saved s ++ [u']; s_files := s_files s ++ [(u', s_react s)] |}, snd q)))).
Fixpoint p_run (loads : list load) (s : module) : program (list module) :=
  match loads with
  | [] => Done []
  | ld :: rest => after (p_step ld s) (fun p => after (p_run rest (fst p)) (fun l => Done (fst p :: l)))
  end.

(** solid_mechanics.hpp:1174-1208, heat_transfer.hpp:731-762 *)
Definition p_rate_residual (t : R) (params : nat -> list R) (c0 : R) (w x : vec) : program vec :=
  p_residual t (inputs params (tab n x)) (vadd c0 w x).
Definition p_mass (t : R) (params : nat -> list R) (u a : vec) : program mat :=
  Differentiate t 1 false (inputs (inputs params (tab n a)) (tab n u)) (fun _ M => Done M).
Definition p_rate_jacobian (t : R) (params : nat -> list R) (c0 : R) (w x : vec) : program mat :=
  after (p_jacobian t (inputs params (tab n x)) (vadd c0 w x)) (fun K =>
  after (p_mass t params (vadd c0 w x) x) (fun M =>
  Done (eliminate bc (fun i j => M i j + c0 * K i j)))).
Definition p_solve_rate (t : R) (params : nat -> list R) (c0 : R) (w : vec) : solver -> program (vec * bool) :=
  p_ask (p_rate_residual t params c0 w) (p_rate_jacobian t params c0 w).
(** odes.cpp:152-248 *)
Definition p_ode_solve (en : enforcement) (t c0 c1 : R) (u v : vec) (params : nat -> list R) (sv : vec -> solver) : program (vec * bool) :=
  match setup2 (held_dofs n bc target) en t c0 c1 u v with
  | None => Stop UB
  | Some st => p_solve_rate t params c0 (su st) (sv (sguess st))
  end.
(** odes.cpp:77-150 with MFEM's integrators *)
Definition p_newmark_move (beta gamma : R) (en : enforcement) (ld : push) (s : body) : program (vec * vec * vec * bool) :=
  let x := entries (d_u s) in let v := entries (d_v s) in let dt := k_dt ld in let t' := d_t s + dt in
  after (match d_old s with
         | Some a => Done (a, true)
         | None => p_ode_solve en (d_told s) 0 0 x v (k_params ld) (k_solver ld)
         end) (fun p0 =>
  let a0 := fst p0 in
  let x1 := vadd ((0.5 - beta) * dt * dt) (vadd dt x v) a0 in
  let v1 := vadd ((1 - gamma) * dt) v a0 in
  after (p_ode_solve en t' (beta * dt * dt) (gamma * dt) x1 v1 (k_params ld) (k_solver ld)) (fun p1 =>
  let a1 := fst p1 in
  let xv := patch (held_dofs n bc target) en t' (vadd (beta * dt * dt) x1 a1) (vadd (gamma * dt) v1 a1) in
  Done (fst xv, snd xv, a1, snd p0 && snd p1))).
Definition p_euler_move (en : enforcement) (ld : push) (s : body) : program (vec * vec * vec * bool) :=
  let x := entries (d_u s) in let v := entries (d_v s) in let dt := k_dt ld in let t' := d_t s + dt in
  after (p_ode_solve en t' (dt * dt) dt (vadd dt x v) v (k_params ld) (k_solver ld)) (fun p =>
  Done (vadd dt x (vadd dt v (fst p)), vadd dt v (fst p), fst p, snd p)).
Definition p_move (it : integrator) (en : enforcement) (ld : push) (s : body) : program (vec * vec * vec * bool) :=
  match it with Newmark beta gamma => p_newmark_move beta gamma en ld s | BackwardEuler => p_euler_move en ld s end.
Definition p_dynamic_step (it : integrator) (en : enforcement) (ld : push) (s : body) : program (body * bool) :=
  let t' := d_t s + k_dt ld in
  after (p_move it en ld s) (fun '(x, v, a, ok) =>
  let u' := tab n x in let v' := tab n v in let a' := tab n a in
  Evaluate t' true (inputs (inputs (k_params ld) a') u') (fun L =>
  Done ({| d_u := u'; d_v := v'; d_a := a'; d_old := match it with Newmark _ _ => Some a | BackwardEuler => d_old s end; d_told := t';
           d_t := t'; d_cycle := S (d_cycle s); d_mem := no_buffers; d_react := L; d_saved := d_saved s ++ [(u', v', a')] |}, ok))).
Fixpoint p_dynamic_run (it : integrator) (en : enforcement) (loads : list push) (s : body) : program (list body) :=
  match loads with
  | [] => Done []
  | ld :: rest => after (p_dynamic_step it en ld s) (fun p => after (p_dynamic_run it en rest (fst p)) (fun l => Done (fst p :: l)))
  end.
(** odes.cpp:302-365, heat_transfer.hpp:334-374 *)
Definition p_heat_step (en : enforcement) (ld : push) (s : conductor) : program (conductor * bool) :=
  let x := entries (w_u s) in let dt := k_dt ld in let t' := w_t s + dt in
  let g := setup1 (held_dofs n bc target) en t' dt x in
  after (p_solve_rate t' (k_params ld) dt (fst g) (k_solver ld (merge (held_dofs n bc target) (snd g) (entries (w_rate s))))) (fun p =>
  let k := fst p in let u' := tab n (vadd dt x k) in
  Done ({| w_u := u'; w_rate := tab n k; w_t := t'; w_cycle := S (w_cycle s); w_mem := no_buffers; w_saved := w_saved s ++ [(u', tab n k)] |}, snd p)).
Definition p_steady_step (ld : push) (s : conductor) : program (conductor * bool) :=
  let t' := w_t s + k_dt ld in
  let x0 := fun i => if bc i then target t' i else entries (w_u s) i in
  after (p_solve t' (inputs (k_params ld) (w_rate s)) (k_solver ld x0)) (fun p =>
  let u' := tab n (fst p) in
  Done ({| w_u := u'; w_rate := w_rate s; w_t := t'; w_cycle := S (w_cycle s); w_mem := no_buffers; w_saved := w_saved s ++ [(u', w_rate s)] |}, snd p)).
Fixpoint p_heat_run (step1 : push -> conductor -> program (conductor * bool)) (loads : list push) (s : conductor) : program (list (conductor * bool)) :=
  match loads with
  | [] => Done []
  | ld :: rest => after (step1 ld s) (fun p => after (p_heat_run step1 rest (fst p)) (fun l => Done (p :: l)))
  end.
End Programs.

(** ** on one process they are the runs of C73 and C76 *)
Definition bare {St} (s : state (St := St)) : module :=
  {| s_u := s_u s; s_t := s_t s; s_cycle := s_cycle s; s_mem := no_buffers; s_prev := s_prev s; s_react := s_react s; s_saved := s_saved s; s_files := s_files s |}.
Definition bare_motion {St} (s : motion (St := St)) : body :=
  {| d_u := d_u s; d_v := d_v s; d_a := d_a s; d_old := d_old s; d_told := d_told s; d_t := d_t s; d_cycle := d_cycle s; d_mem := no_buffers;
     d_react := d_react s; d_saved := d_saved s |}.
Definition bare_warmth {St} (s : warmth (St := St)) : conductor :=
  {| w_u := w_u s; w_rate := w_rate s; w_t := w_t s; w_cycle := w_cycle s; w_mem := no_buffers; w_saved := w_saved s |}.

Section Alone.
Context {St : Type}.
Notation mem := (mem St).
Variable f : functional St.
Variable n : nat.
Variable c cm : csr.
Variable bc : nat -> bool.
Variable target : R -> vec.
Variable cs : nat -> csr.
Hypothesis C0 : cs 0%nat = c.

Lemma alone_ask res jac pres pjac : (forall x m, alone f n cs (pres x) m = res x m) -> (forall x m, alone f n cs (pjac x) m = jac x m) ->
  forall s m, alone f n cs (p_ask pres pjac s) m = ask_all res jac s m.
Proof.
  intros Hr Hj. induction s as [x b|x k IH|x k IH]; intros m; cbn [p_ask ask_all]; [reflexivity| |].
  - rewrite alone_after, Hr. destruct (res x m) as [q| |]; cbn [bindO]; [apply IH|reflexivity|reflexivity].
  - rewrite alone_after, Hj. destruct (jac x m) as [q| |]; cbn [bindO]; [apply IH|reflexivity|reflexivity].
Qed.
Lemma alone_residual t others x m : alone f n cs (p_residual n bc t others x) m = residual_op f n bc t others x m.
Proof. reflexivity. Qed.
Lemma alone_jacobian t others x m : alone f n cs (p_jacobian n t others x) m = jacobian f n c t others x m.
Proof. unfold p_jacobian, jacobian. cbn [alone]. now rewrite C0. Qed.
Lemma solve_ask t others s : forall m, solve f n c bc t others s m = ask_all (residual_op f n bc t others) (jacobian_op f n c bc t others) s m.
Proof. induction s as [x b|x k IH|x k IH]; intros m; cbn [solve ask_all]; [reflexivity| |]; [destruct (residual_op _ _ _ _ _ _ _)|destruct (jacobian_op _ _ _ _ _ _ _ _)]; cbn [bindO]; auto. Qed.
Lemma alone_solve t others s m : alone f n cs (p_solve n bc t others s) m = solve f n c bc t others s m.
Proof.
  rewrite solve_ask. apply alone_ask; [reflexivity|]. intros x m'. rewrite alone_after, alone_jacobian. reflexivity.
Qed.
Lemma alone_warm_up ld s : alone f n cs (p_warm_up n bc target ld (bare s)) (s_mem s) = warm_up f n c bc target ld s.
Proof.
  unfold p_warm_up, warm_up. cbn [bare s_u s_t]. destruct (l_warm ld); [|reflexivity]. cbn [alone].
  destruct (evaluate f _ None false _ n (s_mem s)) as [q| |]; [|reflexivity|reflexivity]. cbn [bindO]. rewrite alone_after, alone_jacobian. reflexivity.
Qed.
Lemma alone_step ld s : alone f n cs (p_step n bc target ld (bare s)) (s_mem s) =
  bindO (step f n c bc target ld s) (fun p => Ok (bare (fst p), snd p, s_mem (fst p))).
Proof.
  unfold p_step, step. rewrite alone_after, alone_warm_up. destruct (warm_up f n c bc target ld s) as [[x0 m1]| |]; [|reflexivity|reflexivity]. cbn [bindO fst snd bare s_t].
  rewrite alone_after, alone_solve. destruct (solve f n c bc _ _ _ m1) as [[[x ok] m2]| |]; [|reflexivity|reflexivity]. cbn [bindO fst snd alone].
  destruct (evaluate f _ None true _ n m2) as [[L m3]| |]; reflexivity.
Qed.
Theorem alone_run loads : forall s, alone f n cs (p_run n bc target loads (bare s)) (s_mem s) =
  bindO (run_steps f n c bc target loads s) (fun l => Ok (map bare l, s_mem (final s l))).
Proof.
  induction loads as [|ld loads IH]; intros s; [reflexivity|]. cbn [p_run run_steps]. rewrite alone_after, alone_step.
  destruct (step f n c bc target ld s) as [[s' ok]| |]; [|reflexivity|reflexivity]. cbn [bindO fst snd]. rewrite alone_after, IH.
  destruct (run_steps f n c bc target loads s') as [l| |]; [|reflexivity|reflexivity]. cbn [bindO fst snd alone]. now rewrite final_cons.
Qed.

Hypothesis C1 : cs 1%nat = cm.
Lemma alone_mass t params u a m : alone f n cs (p_mass n t params u a) m = mass f n cm t params u a m.
Proof. unfold p_mass, mass. cbn [alone]. now rewrite C1. Qed.
Lemma alone_rate_jacobian t params c0 w x m : alone f n cs (p_rate_jacobian n bc t params c0 w x) m = rate_jacobian f n c cm bc t params c0 w x m.
Proof.
  unfold p_rate_jacobian, rate_jacobian. rewrite alone_after, alone_jacobian. destruct (jacobian f n c _ _ _ m) as [[K m1]| |]; [|reflexivity|reflexivity]. cbn [bindO fst snd].
  rewrite alone_after, alone_mass. destruct (mass f n cm _ _ _ _ m1) as [[M m2]| |]; reflexivity.
Qed.
Lemma alone_solve_rate t params c0 w s m : alone f n cs (p_solve_rate n bc t params c0 w s) m = solve_rate f n c cm bc t params c0 w s m.
Proof. unfold p_solve_rate, solve_rate. apply alone_ask; [reflexivity|]. intros x m'. apply alone_rate_jacobian. Qed.
Lemma alone_ode_solve en t c0 c1 u v params sv m : alone f n cs (p_ode_solve n bc target en t c0 c1 u v params sv) m = ode_solve f n c cm bc target en t c0 c1 u v params sv m.
Proof. unfold p_ode_solve, ode_solve. destruct (setup2 _ en t c0 c1 u v) as [st|]; [apply alone_solve_rate|reflexivity]. Qed.
Lemma alone_move it en ld s : alone f n cs (p_move n bc target it en ld (bare_motion s)) (d_mem s) =
  move f n c cm bc target it en ld s.
Proof.
  destruct it as [beta gamma|]; cbn [p_move move].
  - unfold p_newmark_move, newmark_move. rewrite alone_after. cbn [bare_motion d_u d_v d_t d_old d_told].
    assert (X : forall o, alone f n cs (match o with Some a => Done (a, true) | None => p_ode_solve n bc target en (d_told s) 0 0 (entries (d_u s)) (entries (d_v s)) (k_params ld) (k_solver ld) end) (d_mem s) =
      match o with Some a => Ok (a, true, d_mem s) | None => ode_solve f n c cm bc target en (d_told s) 0 0 (entries (d_u s)) (entries (d_v s)) (k_params ld) (k_solver ld) (d_mem s) end).
    { intros [a|]; [reflexivity|apply alone_ode_solve]. }
    rewrite X. clear X. destruct (match d_old s with Some a => _ | None => _ end) as [[[a0 ok0] m0]| |]; [|reflexivity|reflexivity]. cbn [bindO fst snd].
    rewrite alone_after, alone_ode_solve. destruct (ode_solve f n c cm bc target en _ _ _ _ _ _ _ m0) as [[[a1 ok1] m1]| |]; reflexivity.
  - unfold p_euler_move, euler_move. rewrite alone_after, alone_ode_solve. cbn [bare_motion d_u d_v d_t].
    destruct (ode_solve f n c cm bc target en _ _ _ _ _ _ _ (d_mem s)) as [[[a1 ok1] m1]| |]; reflexivity.
Qed.
Lemma alone_dynamic_step it en ld s : alone f n cs (p_dynamic_step n bc target it en ld (bare_motion s)) (d_mem s) =
  bindO (dynamic_step f n c cm bc target it en ld s) (fun p => Ok (bare_motion (fst p), snd p, d_mem (fst p))).
Proof.
  unfold p_dynamic_step, dynamic_step. rewrite alone_after, alone_move. destruct (move f n c cm bc target it en ld s) as [[[[[x v] a] ok] m1]| |]; [|reflexivity|reflexivity].
  cbn [bindO fst snd alone bare_motion d_t d_old d_cycle d_saved]. destruct (evaluate f _ None true _ n m1) as [[L m2]| |]; reflexivity.
Qed.
Definition motion_end (s : motion (St := St)) (l : list (motion (St := St))) : motion := last l s.
Lemma motion_end_cons s s' l : motion_end s (s' :: l) = motion_end s' l.
Proof. unfold motion_end. destruct l as [|a l]; [reflexivity|]. change (last (s' :: a :: l) s) with (last (a :: l) s). revert a. induction l as [|b l IH]; intros a; [reflexivity|].
  change (last (a :: b :: l) s) with (last (b :: l) s). change (last (a :: b :: l) s') with (last (b :: l) s'). apply IH. Qed.
Theorem alone_dynamic_run it en loads : forall s, alone f n cs (p_dynamic_run n bc target it en loads (bare_motion s)) (d_mem s) =
  bindO (dynamic_run f n c cm bc target it en loads s) (fun l => Ok (map bare_motion l, d_mem (motion_end s l))).
Proof.
  induction loads as [|ld loads IH]; intros s; [reflexivity|]. cbn [p_dynamic_run dynamic_run]. rewrite alone_after, alone_dynamic_step.
  destruct (dynamic_step f n c cm bc target it en ld s) as [[s' ok]| |]; [|reflexivity|reflexivity]. cbn [bindO fst snd]. rewrite alone_after, IH.
  destruct (dynamic_run f n c cm bc target it en loads s') as [l| |]; [|reflexivity|reflexivity]. cbn [bindO fst snd alone map]. now rewrite motion_end_cons.
Qed.

Definition bare_heat (p : warmth (St := St) * bool) : conductor * bool := (bare_warmth (fst p), snd p).
Lemma alone_heat_step en ld s : alone f n cs (p_heat_step n bc target en ld (bare_warmth s)) (w_mem s) =
  bindO (heat_step f n c cm bc target en ld s) (fun p => Ok (bare_heat p, w_mem (fst p))).
Proof.
  unfold p_heat_step, heat_step. rewrite alone_after, alone_solve_rate. cbn [bare_warmth w_u w_rate w_t w_cycle w_saved].
  destruct (solve_rate f n c cm bc _ _ _ _ _ (w_mem s)) as [[[k ok] m1]| |]; reflexivity.
Qed.
Lemma alone_steady_step ld s : alone f n cs (p_steady_step n bc target ld (bare_warmth s)) (w_mem s) =
  bindO (steady_step f n c bc target ld s) (fun p => Ok (bare_heat p, w_mem (fst p))).
Proof.
  unfold p_steady_step, steady_step. rewrite alone_after, alone_solve. cbn [bare_warmth w_u w_rate w_t w_cycle w_saved].
  destruct (solve f n c bc _ _ _ (w_mem s)) as [[[k ok] m1]| |]; reflexivity.
Qed.
Definition heat_end (s : warmth (St := St)) (l : list (warmth (St := St) * bool)) : warmth := last (map fst l) s.
Lemma heat_end_cons s p l : heat_end s (p :: l) = heat_end (fst p) l.
Proof. unfold heat_end. cbn [map]. generalize (map fst l) as q. intros q. destruct q as [|a q]; [reflexivity|]. change (last (fst p :: a :: q) s) with (last (a :: q) s). revert a. induction q as [|b q IH]; intros a; [reflexivity|].
  change (last (a :: b :: q) s) with (last (b :: q) s). change (last (a :: b :: q) (fst p)) with (last (b :: q) (fst p)). apply IH. Qed.
Theorem alone_heat_run pstep hstep : (forall ld s, alone f n cs (pstep ld (bare_warmth s)) (w_mem s) = bindO (hstep ld s) (fun p => Ok (bare_heat p, w_mem (fst p)))) ->
  forall loads s, alone f n cs (p_heat_run pstep loads (bare_warmth s)) (w_mem s) =
  bindO (heat_run hstep loads s) (fun l => Ok (map bare_heat l, w_mem (heat_end s l))).
Proof.
  intros H. induction loads as [|ld loads IH]; intros s; [reflexivity|]. cbn [p_heat_run heat_run]. rewrite alone_after, H.
  destruct (hstep ld s) as [[s' ok]| |]; [|reflexivity|reflexivity]. cbn [bindO fst snd bare_heat]. rewrite alone_after, IH.
  destruct (heat_run hstep loads s') as [l| |]; [|reflexivity|reflexivity]. cbn [bindO fst snd alone map]. rewrite heat_end_cons. reflexivity.
Qed.
End Alone.
