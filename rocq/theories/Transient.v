(** * Transient runs of a solid and of a heat conductor (C76)

    The residuals and Jacobians which completeSetup of SolidMechanics and HeatTransfer hands to the nonlinear solver for dynamic
    problems, the solves which the time integrators ask for, and advanceTimestep, on the residual of FunctionalModel.v.  Argument
    0 of the residual is the displacement (temperature), argument 1 the acceleration (temperature rate), the others are given by
    [params].  One rank, where true dofs and local dofs agree, and reals. *)
From Coq Require Import NArith ZArith Reals List Lia Lra Bool FunctionalExtensionality.
From Verif Require Import Prelude DofCodec Sums Restriction Csr Kernels FunctionalModel FunctionalGrad FunctionalTotal Assembly Tensor BoundaryElim Adjoint Ode QuasiStatic QuasiAdjoint.
Import ListNotations.
Local Open Scope R_scope.

(** ** any program which asks for residuals and Jacobians, on operators with side effects *)
Section Ask.
Context {M : Type}.
Variable res : vec -> M -> outcome (vec * M).
Variable jac : vec -> M -> outcome (mat * M).
Fixpoint ask_all (s : solver) (m : M) : outcome (vec * bool * M) :=
  match s with
  | Give x b => Ok (x, b, m)
  | AskResidual x k => bindO (res x m) (fun p => ask_all (k (fst p)) (snd p))
  | AskJacobian x k => bindO (jac x m) (fun p => ask_all (k (fst p)) (snd p))
  end.
End Ask.

(** one call of advanceTimestep: step size, parameters in force and nonlinear solver *)
Record push := { k_dt : R; k_params : nat -> list R; k_solver : vec -> solver }.
(** the integrators for second-order problems which odes.cpp:26-75 selects, as far as they are modelled *)
Inductive integrator := Newmark (beta gamma : R) | BackwardEuler.

Section Transient.
Context {St : Type}.
Notation mem := (mem St).
Variable f : functional St.
Variable n : nat.
(** patterns of the derivatives with respect to arguments 0 and 1 *)
Variable c cm : csr.
Variable bc : nat -> bool.
Variable target : R -> vec.

(** solid_mechanics.hpp:1174-1185, heat_transfer.hpp:731-741: the residual operator; [w] is u_, [c0] is c0_ (dt_ in heat_transfer.hpp) *)
Definition rate_residual (t : R) (params : nat -> list R) (c0 : R) (w x : vec) (m : mem) : outcome (vec * mem) :=
  bindO (evaluate f t None false (inputs (inputs params (tab n x)) (tab n (vadd c0 w x))) n m) (fun p =>
  Ok (zeroed bc (entries (fst p)), snd p)).
(** solid_mechanics.hpp:1196-1200, heat_transfer.hpp:751-755: the derivative with respect to argument 1, assembled *)
Definition mass (t : R) (params : nat -> list R) (u a : vec) (m : mem) : outcome (mat * mem) :=
  bindO (evaluate f t (Some 1%nat) false (inputs (inputs params (tab n a)) (tab n u)) n m) (fun p =>
  bindO (assemble f 1 (snd p) cm) (fun V => Ok (csr_entry cm V : mat, snd p))).
(** solid_mechanics.hpp:1187-1208, heat_transfer.hpp:743-762: the gradient operator *)
Definition rate_jacobian (t : R) (params : nat -> list R) (c0 : R) (w x : vec) (m : mem) : outcome (mat * mem) :=
  bindO (jacobian f n c t (inputs params (tab n x)) (vadd c0 w x) m) (fun K =>
  bindO (mass t params (vadd c0 w x) x (snd K)) (fun M =>
  Ok (eliminate bc (fun i j => fst M i j + c0 * fst K i j), snd M))).
(** EquationSolver::solve on these operators *)
Definition solve_rate (t : R) (params : nat -> list R) (c0 : R) (w : vec) : solver -> mem -> outcome (vec * bool * mem) :=
  ask_all (rate_residual t params c0 w) (rate_jacobian t params c0 w).

(** what Ode.v wants to know about boundary conditions; its functions used below never look at [p_res] *)
Definition held_dofs : problem := {| p_n := n; p_ess := bc; p_g := target; p_res := fun _ _ _ _ => 0 |}.

(** odes.cpp:152-248 SecondOrderODE::Solve.  A division by zero (an infinity or not-a-number in the code) ends the model with
    [UB]; see [step_ok] for when this does not happen. *)
Definition ode_solve (en : enforcement) (t c0 c1 : R) (u v : vec) (params : nat -> list R) (sv : vec -> solver) (m : mem)
  : outcome (vec * bool * mem) :=
  match setup2 held_dofs en t c0 c1 u v with
  | None => UB
  | Some st => solve_rate t params c0 (su st) (sv (sguess st)) m
  end.

(** displacement_, velocity_, acceleration_, the acceleration which NewmarkSolver keeps once it has made a step, the time of the
    operator, time_, cycle_, the buffers, reactions_, and the checkpoints *)
Record motion := { d_u : list R; d_v : list R; d_a : list R; d_old : option vec; d_told : R; d_t : R; d_cycle : nat; d_mem : mem;
                   d_react : list R; d_saved : list (list R * list R * list R) }.
(** end of an integrator's step: displacement, velocity, acceleration, did all solves converge, buffers *)
Definition stepped := (vec * vec * vec * bool * mem)%type.
(** MFEM NewmarkSolver::Step (as in Ode.v) and odes.cpp:77-100 *)
Definition newmark_move (beta gamma : R) (en : enforcement) (ld : push) (s : motion) : outcome stepped :=
  let x := entries (d_u s) in let v := entries (d_v s) in let dt := k_dt ld in let t' := d_t s + dt in
  bindO (match d_old s with
         | Some a => Ok (a, true, d_mem s)
         | None => ode_solve en (d_told s) 0 0 x v (k_params ld) (k_solver ld) (d_mem s)
         end) (fun p0 =>
  let a0 := fst (fst p0) in
  let x1 := vadd ((0.5 - beta) * dt * dt) (vadd dt x v) a0 in
  let v1 := vadd ((1 - gamma) * dt) v a0 in
  bindO (ode_solve en t' (beta * dt * dt) (gamma * dt) x1 v1 (k_params ld) (k_solver ld) (snd p0)) (fun p1 =>
  let a1 := fst (fst p1) in
  let xv := patch held_dofs en t' (vadd (beta * dt * dt) x1 a1) (vadd (gamma * dt) v1 a1) in
  Ok (fst xv, snd xv, a1, snd (fst p0) && snd (fst p1), snd p1))).
(** odes.cpp:101-150 with MFEM's BackwardEulerSolver (as in Ode.v) *)
Definition euler_move (en : enforcement) (ld : push) (s : motion) : outcome stepped :=
  let x := entries (d_u s) in let v := entries (d_v s) in let dt := k_dt ld in let t' := d_t s + dt in
  bindO (ode_solve en t' (dt * dt) dt (vadd dt x v) v (k_params ld) (k_solver ld) (d_mem s)) (fun p =>
  let a := fst (fst p) in
  Ok (vadd dt x (vadd dt v a), vadd dt v a, a, snd (fst p), snd p)).
Definition move (it : integrator) (en : enforcement) (ld : push) (s : motion) : outcome stepped :=
  match it with Newmark beta gamma => newmark_move beta gamma en ld s | BackwardEuler => euler_move en ld s end.
(** solid_mechanics.hpp:1243-1295 advanceTimestep, dynamic branch, without the bookkeeping of C01; odes.cpp:248 has stored the
    last solution in acceleration_ *)
Definition dynamic_step (it : integrator) (en : enforcement) (ld : push) (s : motion) : outcome (motion * bool) :=
  let t' := d_t s + k_dt ld in
  bindO (move it en ld s) (fun '(x, v, a, ok, m) =>
  let u' := tab n x in let v' := tab n v in let a' := tab n a in
  bindO (evaluate f t' None true (inputs (inputs (k_params ld) a') u') n m) (fun r =>
  Ok ({| d_u := u'; d_v := v'; d_a := a'; d_old := match it with Newmark _ _ => Some a | BackwardEuler => d_old s end; d_told := t';
         d_t := t'; d_cycle := S (d_cycle s); d_mem := snd r; d_react := fst r; d_saved := d_saved s ++ [(u', v', a')] |}, ok))).
Fixpoint dynamic_run (it : integrator) (en : enforcement) (loads : list push) (s : motion) : outcome (list motion) :=
  match loads with
  | [] => Ok []
  | ld :: rest => bindO (dynamic_step it en ld s) (fun p => bindO (dynamic_run it en rest (fst p)) (fun l => Ok (fst p :: l)))
  end.

(** temperature_, temperature_rate_, time_, cycle_, the buffers and the checkpoints *)
Record warmth := { w_u : list R; w_rate : list R; w_t : R; w_cycle : nat; w_mem : mem; w_saved : list (list R * list R) }.
(** odes.cpp:302-365 FirstOrderODE::Solve and heat_transfer.hpp:334-374 with BackwardEulerSolver; the guess at free dofs is the last rate *)
Definition heat_step (en : enforcement) (ld : push) (s : warmth) : outcome (warmth * bool) :=
  let x := entries (w_u s) in let dt := k_dt ld in let t' := w_t s + dt in
  let g := setup1 held_dofs en t' dt x in
  bindO (solve_rate t' (k_params ld) dt (fst g) (k_solver ld (merge held_dofs (snd g) (entries (w_rate s)))) (w_mem s)) (fun p =>
  let k := fst (fst p) in let u' := tab n (vadd dt x k) in
  Ok ({| w_u := u'; w_rate := tab n k; w_t := t'; w_cycle := S (w_cycle s); w_mem := snd p;
         w_saved := w_saved s ++ [(u', tab n k)] |}, snd (fst p))).
(** heat_transfer.hpp:336-343 and 709-727: the steady problem *)
Definition steady_step (ld : push) (s : warmth) : outcome (warmth * bool) :=
  let t' := w_t s + k_dt ld in
  let x0 := fun i => if bc i then target t' i else entries (w_u s) i in
  bindO (solve f n c bc t' (inputs (k_params ld) (w_rate s)) (k_solver ld x0) (w_mem s)) (fun p =>
  let u' := tab n (fst (fst p)) in
  Ok ({| w_u := u'; w_rate := w_rate s; w_t := t'; w_cycle := S (w_cycle s); w_mem := snd p;
         w_saved := w_saved s ++ [(u', w_rate s)] |}, snd (fst p))).
Fixpoint heat_run (step1 : push -> warmth -> outcome (warmth * bool)) (loads : list push) (s : warmth) : outcome (list (warmth * bool)) :=
  match loads with
  | [] => Ok []
  | ld :: rest => bindO (step1 ld s) (fun p => bindO (heat_run step1 rest (fst p)) (fun l => Ok (p :: l)))
  end.

(** ** specification *)
(** residual and Jacobian of one solve as functions of the rate [x], with the material state of [m]: the nodal forces at [w + c0 x] and
    [x], and [M + c0 K] *)
Definition of_motion (m : mem) (t : R) (params : nat -> list R) (c0 : R) (w : vec) (F : vec -> vec) (J : vec -> mat) : Prop :=
  (forall x, exists L, force f n t (inputs params (tab n x)) m (tab n (vadd c0 w x)) L /\ F x = zeroed bc (entries L)) /\
  (forall x, exists K M, tangent f n c t (inputs params (tab n x)) m (tab n (vadd c0 w x)) K /\
     param_tangent f n 0 cm t (inputs params (tab n x)) m (tab n (vadd c0 w x)) M /\ J x = eliminate bc (fun i j => M i j + c0 * K i j)).

Variable tsize : nat -> nat.
(** sizes of the arguments from number 2 on *)
Definition params_fit (params : nat -> list R) : Prop := forall w, length (params w) = tsize (S (S w)).
Hypothesis R0 : ready f n c tsize.
Hypothesis Rm : ready_for f n tsize 0 n cm.

Lemma rate_fits params a : params_fit params -> length a = n -> fitting tsize (inputs params a).
Proof. intros P H [|w]; cbn [inputs]; [|apply P]. destruct Rm as (E & _). congruence. Qed.
Lemma fits_tab params (x : vec) : params_fit params -> fitting tsize (inputs params (tab n x)).
Proof. intros P. apply rate_fits; [exact P|apply tab_length]. Qed.

Lemma rate_residual_value t params c0 w x m m0 L : params_fit params -> same_material m m0 ->
  force f n t (inputs params (tab n x)) m0 (tab n (vadd c0 w x)) L ->
  exists m', rate_residual t params c0 w x m = Ok (zeroed bc (entries L), m') /\ same_material m' m0.
Proof. intros P. apply (residual_value f n c bc tsize R0 t (inputs params (tab n x)) (vadd c0 w x) m m0 L (fits_tab params x P)). Qed.
Lemma mass_stored t params (u a : vec) m : params_fit params ->
  exists L m1, evaluate f t (Some 1%nat) false (inputs (inputs params (tab n a)) (tab n u)) n m = Ok (L, m1) /\ same_material m1 m /\
    stored_at f 1 t (inputs (inputs params (tab n a)) (tab n u)) m m1.
Proof.
  intros P. destruct (evaluate_quiet f n c tsize R0 t (Some 1%nat) (inputs params (tab n a)) (tab n u) m m (fits_tab params a P) (tab_length n u) (same_refl m))
    as (L & m' & E & Sm' & _ & _ & Em).
  assert (S1 := mem_sum_stored f 1 t false (inputs (inputs params (tab n a)) (tab n u)) m). rewrite <- Em in S1. exists L, m'. auto.
Qed.
Lemma mass_exists t params (u a : vec) m : params_fit params -> exists M, param_tangent f n 0 cm t (inputs params (tab n a)) m (tab n u) M.
Proof.
  intros P. destruct (mass_stored t params u a m P) as (L & m1 & E & _ & S1). destruct Rm as (_ & WA & SE & VC & Bd).
  destruct R0 as (_ & _ & _ & _ & _ & Z & _).
  destruct (assembled_agrees f 1 m1 cm n n WA SE (stored_written_for f 1 _ _ _ _ S1) VC Z Bd) as (V & A & _).
  exists (csr_entry cm V), L, m1, V. auto.
Qed.
Lemma mass_value t params (u a : vec) m m0 M : params_fit params -> same_material m m0 ->
  param_tangent f n 0 cm t (inputs params (tab n a)) m0 (tab n u) M ->
  exists m', mass t params u a m = Ok (M, m') /\ same_material m' m0.
Proof.
  intros P Sm (L0 & m1 & V & E0 & B0 & ->).
  destruct (mass_stored t params u a m P) as (L & m2 & E & Sm2 & S2). destruct (mass_stored t params u a m0 P) as (L' & m3 & E' & _ & S3).
  rewrite E' in E0. injection E0 as _ Q. subst m3. exists m2. split; [|exact (same_trans m2 m m0 Sm2 Sm)].
  unfold mass. rewrite E. cbn [bindO snd]. rewrite (assemble_same_for f 1 cm _ _ _ _ _ _ S2 S3 Sm), B0. reflexivity.
Qed.
Lemma rate_jacobian_value t params c0 w x m m0 K M : params_fit params -> same_material m m0 ->
  tangent f n c t (inputs params (tab n x)) m0 (tab n (vadd c0 w x)) K ->
  param_tangent f n 0 cm t (inputs params (tab n x)) m0 (tab n (vadd c0 w x)) M ->
  exists m', rate_jacobian t params c0 w x m = Ok (eliminate bc (fun i j => M i j + c0 * K i j), m') /\ same_material m' m0.
Proof.
  intros P Sm HK HM.
  destruct (jacobian_value f n c tsize R0 t (inputs params (tab n x)) (vadd c0 w x) m m0 K (fits_tab params x P) Sm HK) as (m1 & E1 & S1).
  destruct (mass_value t params (vadd c0 w x) x m1 m0 M P S1 HM) as (m2 & E2 & S2). exists m2. split; [|exact S2].
  unfold rate_jacobian. rewrite E1. cbn [bindO fst snd]. rewrite E2. reflexivity.
Qed.

(** during a solve, residual and Jacobian are functions of the rate, which the evaluations do not disturb *)
Theorem solve_rate_pure t params c0 w m0 F J : params_fit params -> of_motion m0 t params c0 w F J ->
  forall s m, same_material m m0 -> exists m', solve_rate t params c0 w s m = Ok (pure F J s, m') /\ same_material m' m0.
Proof.
  intros P [HF HJ]. unfold solve_rate. induction s as [x b|x k IH|x k IH]; intros m Sm.
  - exists m. split; [reflexivity|exact Sm].
  - destruct (HF x) as (L & A & B). destruct (rate_residual_value t params c0 w x m m0 L P Sm A) as (m1 & C & D).
    destruct (IH (F x) m1 D) as (m2 & E1 & E2). exists m2. split; [|exact E2]. cbn [ask_all pure]. rewrite C. cbn [bindO fst snd]. now rewrite <- B.
  - destruct (HJ x) as (K & M & A & B & C). destruct (rate_jacobian_value t params c0 w x m m0 K M P Sm A B) as (m1 & D1 & D2).
    destruct (IH (J x) m1 D2) as (m2 & E1 & E2). exists m2. split; [|exact E2]. cbn [ask_all pure]. rewrite D1. cbn [bindO fst snd]. now rewrite <- C.
Qed.
Theorem motion_exists t params c0 w m : params_fit params -> exists F J, of_motion m t params c0 w F J.
Proof.
  intros P.
  exists (fun x => match rate_residual t params c0 w x m with Ok p => fst p | _ => fun _ => 0 end).
  exists (fun x => match rate_jacobian t params c0 w x m with Ok p => fst p | _ => fun _ _ => 0 end). split; intros x.
  - destruct (force_exists f n c tsize R0 t (inputs params (tab n x)) (tab n (vadd c0 w x)) m (fits_tab params x P) (tab_length n _)) as (L & A & _).
    exists L. split; [exact A|]. destruct (rate_residual_value t params c0 w x m m L P (same_refl m) A) as (m' & -> & _). reflexivity.
  - destruct (tangent_exists f n c tsize R0 t (inputs params (tab n x)) (tab n (vadd c0 w x)) m (fits_tab params x P) (tab_length n _)) as (K & A).
    destruct (mass_exists t params (vadd c0 w x) x m P) as (M & B). exists K, M. split; [exact A|]. split; [exact B|].
    destruct (rate_jacobian_value t params c0 w x m m K M P (same_refl m) A B) as (m' & -> & _). reflexivity.
Qed.

(** ** one step *)
(** the solve which the integrator asks for at time [t]: the solver [sv] started from the guess which the boundary conditions allow gives
    [a] for every pair of functions which describes the forces and the Jacobian *)
Definition rate_found (en : enforcement) (t c0 c1 : R) (u v : vec) (params : nat -> list R) (sv : vec -> solver) (m : mem) (a : vec) (ok : bool) : Prop :=
  exists st, setup2 held_dofs en t c0 c1 u v = Some st /\
    forall F J, of_motion m t params c0 (su st) F J -> pure F J (sv (sguess st)) = (a, ok).
Lemma ode_solve_ok en t c0 c1 u v params sv m m0 : params_fit params -> same_material m m0 ->
  setup2 held_dofs en t c0 c1 u v <> None ->
  exists a ok m', ode_solve en t c0 c1 u v params sv m = Ok (a, ok, m') /\ rate_found en t c0 c1 u v params sv m0 a ok /\ same_material m' m0.
Proof.
  intros P Sm N. unfold ode_solve, rate_found. destruct (setup2 held_dofs en t c0 c1 u v) as [st|]; [|congruence].
  destruct (motion_exists t params c0 (su st) m0 P) as (F & J & H).
  destruct (solve_rate_pure t params c0 (su st) m0 F J P H (sv (sguess st)) m Sm) as (m' & E & S').
  destruct (pure F J (sv (sguess st))) as [a ok] eqn:EP. exists a, ok, m'. split; [exact E|]. split; [|exact S'].
  exists st. split; [reflexivity|]. intros F' J' H'.
  destruct (solve_rate_pure t params c0 (su st) m0 F' J' P H' (sv (sguess st)) m Sm) as (m2 & E' & _). rewrite E in E'. injection E' as Q _. now symmetry.
Qed.
(** nothing is divided by zero *)
Definition step_allowed (it : integrator) (en : enforcement) (dt : R) : Prop :=
  match it, en with
  | Newmark beta gamma, DirectControl => beta * dt * dt <> 0
  | Newmark beta gamma, _ => gamma * dt <> 0
  | BackwardEuler, _ => dt <> 0
  end.
(** a Newmark step of length zero finds the acceleration at the present time *)
Definition step_still (it : integrator) (dt : R) : Prop := match it with Newmark _ _ => dt = 0 | BackwardEuler => False end.
Definition step_defined (it : integrator) (en : enforcement) (dt : R) : Prop := step_allowed it en dt \/ step_still it dt.
Lemma setup_explicit en t u v : setup2 held_dofs en t 0 0 u v <> None.
Proof. unfold setup2. rewrite is_zero_0. cbn [negb orb]. discriminate. Qed.
Lemma is_zero_no x : x <> 0 -> is_zero x = false.
Proof. intros H. unfold is_zero. now destruct (Req_EM_T x 0). Qed.
Lemma setup_implicit en t c0 c1 u v : match en with DirectControl => c0 <> 0 | _ => c1 <> 0 end -> setup2 held_dofs en t c0 c1 u v <> None.
Proof.
  intros H. unfold setup2. destruct en; rewrite (is_zero_no _ H); cbn [negb orb andb]; rewrite ?Bool.orb_true_r; discriminate.
Qed.

Definition first_acceleration (en : enforcement) (ld : push) (s : motion) (a0 : vec) (ok : bool) : Prop :=
  match d_old s with
  | Some a => a0 = a /\ ok = true
  | None => rate_found en (d_told s) 0 0 (entries (d_u s)) (entries (d_v s)) (k_params ld) (k_solver ld) (d_mem s) a0 ok
  end.
(** where an integrator goes, without mentioning the evaluations in between *)
Definition goes (it : integrator) (en : enforcement) (ld : push) (s : motion) (x v a : vec) (ok : bool) : Prop :=
  let x0 := entries (d_u s) in let v0 := entries (d_v s) in let dt := k_dt ld in let t' := d_t s + dt in
  match it with
  | Newmark beta gamma => exists a0 ok0 ok1, first_acceleration en ld s a0 ok0 /\ ok = ok0 && ok1 /\
      let x1 := vadd ((0.5 - beta) * dt * dt) (vadd dt x0 v0) a0 in
      let v1 := vadd ((1 - gamma) * dt) v0 a0 in
      rate_found en t' (beta * dt * dt) (gamma * dt) x1 v1 (k_params ld) (k_solver ld) (d_mem s) a ok1 /\
      (x, v) = patch held_dofs en t' (vadd (beta * dt * dt) x1 a) (vadd (gamma * dt) v1 a)
  | BackwardEuler =>
      rate_found en t' (dt * dt) dt (vadd dt x0 v0) v0 (k_params ld) (k_solver ld) (d_mem s) a ok /\
      x = vadd dt x0 (vadd dt v0 a) /\ v = vadd dt v0 a
  end.
Lemma move_ok it en ld s : params_fit (k_params ld) -> step_defined it en (k_dt ld) ->
  exists x v a ok m, move it en ld s = Ok (x, v, a, ok, m) /\ goes it en ld s x v a ok /\ same_material m (d_mem s).
Proof.
  intros P Al. unfold step_defined in Al. destruct it as [beta gamma|]; cbn [move step_allowed step_still] in *.
  - assert (X : exists a0 ok0 m0, match d_old s with
         | Some a => Ok (a, true, d_mem s)
         | None => ode_solve en (d_told s) 0 0 (entries (d_u s)) (entries (d_v s)) (k_params ld) (k_solver ld) (d_mem s)
         end = Ok (a0, ok0, m0) /\ first_acceleration en ld s a0 ok0 /\ same_material m0 (d_mem s)).
    { unfold first_acceleration. destruct (d_old s) as [a|].
      - exists a, true, (d_mem s). split; [reflexivity|]. split; [auto|apply same_refl].
      - apply ode_solve_ok; [exact P|apply same_refl|apply setup_explicit]. }
    destruct X as (a0 & ok0 & m0 & E0 & F0 & S0). unfold newmark_move. rewrite E0. cbn [bindO fst snd].
    edestruct (ode_solve_ok en (d_t s + k_dt ld) (beta * k_dt ld * k_dt ld) (gamma * k_dt ld)) as (a1 & ok1 & m1 & E1 & F1 & S1);
      [exact P|exact S0| |rewrite E1].
    + destruct Al as [Al|Al]; [apply setup_implicit; destruct en; exact Al|]. rewrite Al, !Rmult_0_r. apply setup_explicit.
    + cbn [bindO fst snd]. eexists _, _, a1, _, m1. split; [reflexivity|]. split; [|exact S1].
      exists a0, ok0, ok1. split; [exact F0|]. split; [reflexivity|]. cbv zeta. split; [exact F1|]. symmetry. apply surjective_pairing.
  - assert (N : k_dt ld <> 0) by (destruct Al as [Al|[]]; destruct en; exact Al).
    assert (N2 : k_dt ld * k_dt ld <> 0) by (now apply Rmult_integral_contrapositive_currified).
    assert (N3 : setup2 held_dofs en (d_t s + k_dt ld) (k_dt ld * k_dt ld) (k_dt ld) (vadd (k_dt ld) (entries (d_u s)) (entries (d_v s))) (entries (d_v s)) <> None)
      by (apply setup_implicit; destruct en; assumption).
    destruct (ode_solve_ok en _ _ _ _ _ (k_params ld) (k_solver ld) (d_mem s) (d_mem s) P (same_refl _) N3) as (a1 & ok1 & m1 & E1 & F1 & S1).
    unfold euler_move. rewrite E1. cbn [bindO fst snd]. eexists _, _, a1, _, m1. split; [reflexivity|]. split; [|exact S1]. split; [exact F1|]. auto.
Qed.

Record moves (it : integrator) (en : enforcement) (ld : push) (s s' : motion) (ok : bool) : Prop := {
  mv_time : d_t s' = d_t s + k_dt ld;
  mv_told : d_told s' = d_t s';
  mv_cycle : d_cycle s' = S (d_cycle s);
  mv_goes : exists x v a, goes it en ld s x v a ok /\ d_u s' = tab n x /\ d_v s' = tab n v /\ d_a s' = tab n a /\
    d_old s' = match it with Newmark _ _ => Some a | BackwardEuler => d_old s end;
  mv_react : force f n (d_t s') (inputs (k_params ld) (d_a s')) (d_mem s) (d_u s') (d_react s');
  mv_material : material_step f (d_t s') (inputs (k_params ld) (d_a s')) (d_u s') (d_mem s) (d_mem s');
  mv_saved : d_saved s' = d_saved s ++ [(d_u s', d_v s', d_a s')];
}.

(** an evaluation which updates the material: its value is the force before the update, and every point has been called once *)
Lemma evaluate_update t others u m m0 : fitting tsize others -> length u = n -> same_material m m0 ->
  exists L m', evaluate f t None true (inputs others u) n m = Ok (L, m') /\ force f n t others m0 u L /\ material_step f t others u m0 m'.
Proof.
  intros Fo Hu E. destruct (evaluate_spec f t None true (inputs others u) n m (wf_inputs f n c tsize R0 others u Fo Hu)) as (L & G & HL & GL).
  exists L, (mem_sum f t None true (inputs others u) 0 (f_integrals f) m). split; [exact G|]. split.
  - destruct (force_exists f n c tsize R0 t others u m0 Fo Hu) as (L0 & H0 & H1). replace L with L0; [exact H0|]. destruct H0 as (m3 & H0).
    destruct (evaluate_quiet f n c tsize R0 t None others u m0 m0 Fo Hu (same_refl _)) as (L1 & m4 & P1 & _ & P2 & P3 & _).
    rewrite P1 in H0. injection H0 as Q _. rewrite <- Q. apply (same_list n); auto. intros k Hk. rewrite P3, GL by exact Hk.
    symmetry. apply res_sum_mem. intros n' _.
    apply functional_extensionality; intros g. apply functional_extensionality; intros e. apply functional_extensionality; intros q. apply E.
  - split; [|intros k g e q H; rewrite mem_sum_q, ltb_0, Nat.sub_0_r; rewrite E; destruct (nth_error (f_integrals f) k) as [Ig|] eqn:H1; [|reflexivity];
        destruct (nth_error (i_geoms Ig) g) as [G'|] eqn:H2; [|reflexivity]; cbn [andb];
        destruct (Nat.ltb_spec e (length (gk_elems G'))), (Nat.ltb_spec q (gk_nq G')); cbn [andb]; try reflexivity; exfalso; now apply (H Ig G')].
    intros k Ig g G' e q H1 H2 H3 H4. rewrite mem_sum_q. rewrite ltb_0, Nat.sub_0_r, H1, H2. cbn [andb].
    apply Nat.ltb_lt in H3, H4. rewrite H3, H4. cbn [andb]. now rewrite E.
Qed.
Theorem dynamic_step_ok it en ld s : params_fit (k_params ld) -> step_defined it en (k_dt ld) ->
  exists s' ok, dynamic_step it en ld s = Ok (s', ok) /\ moves it en ld s s' ok.
Proof.
  intros P Al. destruct (move_ok it en ld s P Al) as (x & v & a & ok & m & E & G & Sm).
  destruct (evaluate_update (d_t s + k_dt ld) (inputs (k_params ld) (tab n a)) (tab n x) m (d_mem s) (fits_tab _ _ P) (tab_length n x) Sm) as (L & m' & E' & Fr & Ms).
  eexists _, ok. unfold dynamic_step. rewrite E. cbn [bindO]. rewrite E'. split; [reflexivity|].
  constructor; cbn [d_t d_told d_cycle d_u d_v d_a d_old d_react d_mem d_saved fst snd]; try reflexivity; [|exact Fr|exact Ms].
  exists x, v, a. auto 6.
Qed.
Theorem dynamic_step_moves it en ld s s' ok : params_fit (k_params ld) -> step_defined it en (k_dt ld) ->
  dynamic_step it en ld s = Ok (s', ok) -> moves it en ld s s' ok.
Proof. intros P Al E. destruct (dynamic_step_ok it en ld s P Al) as (s1 & ok1 & E1 & H). rewrite E1 in E. now injection E as <- <-. Qed.

(** ** runs *)
Definition pushes_fit (it : integrator) (en : enforcement) (loads : list push) : Prop :=
  List.Forall (fun ld => params_fit (k_params ld) /\ step_defined it en (k_dt ld)) loads.
Fixpoint motions (it : integrator) (en : enforcement) (loads : list push) (s : motion) (l : list motion) : Prop :=
  match loads, l with
  | [], [] => True
  | ld :: loads', s' :: l' => (exists ok, moves it en ld s s' ok) /\ motions it en loads' s' l'
  | _, _ => False
  end.
Theorem dynamic_run_ok it en loads : pushes_fit it en loads -> forall s, exists l, dynamic_run it en loads s = Ok l /\ motions it en loads s l.
Proof.
  induction loads as [|ld loads IH]; intros Fo s; [exists []; split; [reflexivity|exact Logic.I]|].
  apply Forall_cons_iff in Fo as [[F1 F2] F3]. destruct (dynamic_step_ok it en ld s F1 F2) as (s' & ok & A & B).
  destruct (IH F3 s') as (l & D & E). exists (s' :: l). split.
  - cbn [dynamic_run]. rewrite A. cbn [bindO fst snd]. rewrite D. reflexivity.
  - split; [now exists ok|exact E].
Qed.
Lemma run_motions it en loads s l : pushes_fit it en loads -> dynamic_run it en loads s = Ok l -> motions it en loads s l.
Proof. intros Fo E. destruct (dynamic_run_ok it en loads Fo s) as (l' & A & B). rewrite A in E. now injection E as <-. Qed.

(** the material at one quadrature point over a run *)
Definition last_motion (s : motion) (l : list motion) : motion := last l s.
Fixpoint motion_history (Ig : integral St) (G : gkernel St) (g e q : nat) (loads : list push) (l : list motion) (st : St) : St :=
  match loads, l with
  | ld :: loads', s' :: l' => motion_history Ig G g e q loads' l'
      (snd (gk_qf G e q (d_t s') (qf_inputs G g (Es_of f (inputs (inputs (k_params ld) (d_a s')) (d_u s')) Ig) e q) st))
  | _, _ => st
  end.
Lemma last_motion_cons s s' l : last_motion s (s' :: l) = last_motion s' l.
Proof.
  unfold last_motion. destruct l as [|a l]; [reflexivity|]. change (last (s' :: a :: l) s) with (last (a :: l) s). revert a.
  induction l as [|b l IH]; intros a; [reflexivity|].
  change (last (a :: b :: l) s) with (last (b :: l) s). change (last (a :: b :: l) s') with (last (b :: l) s'). apply IH.
Qed.
Theorem motion_material_history it en loads : forall s l, pushes_fit it en loads -> dynamic_run it en loads s = Ok l ->
  forall k Ig g G e q, nth_error (f_integrals f) k = Some Ig -> nth_error (i_geoms Ig) g = Some G -> (e < length (gk_elems G))%nat -> (q < gk_nq G)%nat ->
  m_q (d_mem (last_motion s l)) k g e q = motion_history Ig G g e q loads l (m_q (d_mem s) k g e q).
Proof.
  intros s l Fo E. assert (C := run_motions it en loads s l Fo E). clear Fo E. revert s l C.
  induction loads as [|ld loads IH]; intros s l C k Ig g G e q H1 H2 H3 H4.
  - destruct l; [reflexivity|contradiction].
  - destruct l as [|s' l]; [contradiction|]. destruct C as [(ok & A) C]. rewrite last_motion_cons, (IH s' l C k Ig g G e q H1 H2 H3 H4).
    cbn [motion_history]. f_equal. apply (proj1 (mv_material _ _ _ _ _ _ A)); assumption.
Qed.

(** the way to the solutions leaves no trace *)
Definition same_push (ld ld' : push) : Prop := k_dt ld = k_dt ld' /\ k_params ld = k_params ld'.
Definition same_motion (s s' : motion) : Prop :=
  d_u s = d_u s' /\ d_a s = d_a s' /\ d_t s = d_t s' /\ d_cycle s = d_cycle s' /\ d_react s = d_react s' /\ same_material (d_mem s) (d_mem s').
Theorem dynamics_solver_invisible it it' en en' loads loads' : forall s1 s2 l1 l2, pushes_fit it en loads -> pushes_fit it' en' loads' ->
  List.Forall2 same_push loads loads' -> same_motion s1 s2 ->
  dynamic_run it en loads s1 = Ok l1 -> dynamic_run it' en' loads' s2 = Ok l2 ->
  map d_u l1 = map d_u l2 -> map d_a l1 = map d_a l2 -> List.Forall2 same_motion l1 l2.
Proof.
  intros s1 s2 l1 l2 Fo Fo' L O E1 E2. assert (C1 := run_motions it en loads s1 l1 Fo E1). assert (C2 := run_motions it' en' loads' s2 l2 Fo' E2). clear E1 E2.
  revert s1 s2 l1 l2 O C1 C2. induction L as [|a b la lb [H1 H2] _ IH]; intros s1 s2 l1 l2 O C1 C2 U A.
  - destruct l1; [|contradiction]. destruct l2; [constructor|contradiction].
  - destruct l1 as [|x1 l1]; [contradiction|]. destruct l2 as [|x2 l2]; [contradiction|]. injection U as U0 U. injection A as A0 A.
    destruct C1 as [(o1 & A1) C1], C2 as [(o2 & A2) C2]. apply Forall_cons_iff in Fo as [[F1 _] F2]. apply Forall_cons_iff in Fo' as [_ F2'].
    destruct O as (O1 & O2 & O3 & O4 & O5 & O6).
    assert (T : d_t x1 = d_t x2) by (rewrite (mv_time _ _ _ _ _ _ A1), (mv_time _ _ _ _ _ _ A2); congruence).
    assert (X : same_motion x1 x2).
    { split; [exact U0|]. split; [exact A0|]. split; [exact T|]. split; [rewrite (mv_cycle _ _ _ _ _ _ A1), (mv_cycle _ _ _ _ _ _ A2); congruence|].
      destruct (mv_goes _ _ _ _ _ _ A1) as (x & v & ac & _ & Ux & _ & Ua & _). split.
      - destruct (mv_react _ _ _ _ _ _ A1) as (m1 & E1).
        apply (force_value f n c tsize R0 (d_t x1) None (inputs (k_params a) (d_a x1)) (d_u x1) (d_mem s1) (d_mem s2) (d_react x1) m1 (d_react x2)); auto.
        + rewrite Ua. now apply fits_tab.
        + rewrite Ux. apply tab_length.
        + assert (Q := mv_react _ _ _ _ _ _ A2). now rewrite <- U0, <- A0, <- T, <- H2 in Q.
      - assert (M1 := mv_material _ _ _ _ _ _ A1). assert (M2 := mv_material _ _ _ _ _ _ A2). rewrite <- U0, <- A0, <- T, <- H2 in M2.
        eapply material_step_same; eauto. }
    constructor; [exact X|]. eapply IH; eauto.
Qed.

(** ** heat *)
Theorem heat_step_ok en ld s : params_fit (k_params ld) ->
  exists s' ok, heat_step en ld s = Ok (s', ok) /\ w_t s' = w_t s + k_dt ld /\ w_cycle s' = S (w_cycle s) /\ same_material (w_mem s') (w_mem s) /\
    w_saved s' = w_saved s ++ [(w_u s', w_rate s')] /\
    exists k, let g := setup1 held_dofs en (w_t s') (k_dt ld) (entries (w_u s)) in
      (forall F J, of_motion (w_mem s) (w_t s') (k_params ld) (k_dt ld) (fst g) F J ->
         pure F J (k_solver ld (merge held_dofs (snd g) (entries (w_rate s)))) = (k, ok)) /\
      w_rate s' = tab n k /\ w_u s' = tab n (vadd (k_dt ld) (entries (w_u s)) k).
Proof.
  intros P. set (t' := w_t s + k_dt ld). set (g := setup1 held_dofs en t' (k_dt ld) (entries (w_u s))).
  destruct (motion_exists t' (k_params ld) (k_dt ld) (fst g) (w_mem s) P) as (F & J & H).
  set (sv := k_solver ld (merge held_dofs (snd g) (entries (w_rate s)))).
  destruct (solve_rate_pure t' (k_params ld) (k_dt ld) (fst g) (w_mem s) F J P H sv (w_mem s) (same_refl _)) as (m' & E & S').
  destruct (pure F J sv) as [k ok] eqn:EP. eexists _, ok. unfold heat_step. fold t' g sv. rewrite E. cbn [bindO fst snd]. split; [reflexivity|].
  cbn [w_t w_cycle w_mem w_saved w_u w_rate]. repeat (split; [try reflexivity; exact S'|]). exists k. split; [|split; reflexivity].
  intros F' J' H'. destruct (solve_rate_pure t' (k_params ld) (k_dt ld) (fst g) (w_mem s) F' J' P H' sv (w_mem s) (same_refl _)) as (m2 & E' & _).
  rewrite E in E'. injection E' as Q _. now symmetry.
Qed.
Theorem steady_step_ok ld s : params_fit (k_params ld) -> length (w_rate s) = n ->
  exists s' ok, steady_step ld s = Ok (s', ok) /\ w_t s' = w_t s + k_dt ld /\ w_cycle s' = S (w_cycle s) /\ same_material (w_mem s') (w_mem s) /\
    w_saved s' = w_saved s ++ [(w_u s', w_rate s')] /\ w_rate s' = w_rate s /\
    exists x, (forall F J, of_material f n c bc (w_mem s) (w_t s') (inputs (k_params ld) (w_rate s)) F J ->
         pure F J (k_solver ld (fun i => if bc i then target (w_t s') i else entries (w_u s) i)) = (x, ok)) /\ w_u s' = tab n x.
Proof.
  intros P Hr. set (t' := w_t s + k_dt ld). assert (Fo := rate_fits _ _ P Hr).
  destruct (material_exists f n c bc tsize R0 t' _ (w_mem s) Fo) as (F & J & H).
  set (sv := k_solver ld (fun i => if bc i then target t' i else entries (w_u s) i)).
  destruct (solve_pure f n c bc tsize R0 t' _ (w_mem s) F J Fo H sv (w_mem s) (same_refl _)) as (m' & E & S').
  destruct (pure F J sv) as [x ok] eqn:EP. eexists _, ok. unfold steady_step. fold t' sv. rewrite E. cbn [bindO fst snd]. split; [reflexivity|].
  cbn [w_t w_cycle w_mem w_saved w_u w_rate]. repeat (split; [try reflexivity; exact S'|]). exists x. split; [|reflexivity].
  intros F' J' H'. destruct (solve_pure f n c bc tsize R0 t' _ (w_mem s) F' J' Fo H' sv (w_mem s) (same_refl _)) as (m2 & E' & _).
  rewrite E in E'. injection E' as Q _. now symmetry.
Qed.
End Transient.
