(** * Time integration (C24, C05)

    numerics/odes.cpp and the implicit methods of MFEM used by default, over the reals.

    A problem has [p_n] true dofs, a set of essential dofs, prescribed motion [p_g t i] and a residual
    [p_res t u a], where [a] is the highest time derivative (solid_mechanics.hpp:1173-1186: the residual is evaluated at the
    predicted displacement u + c0 a).  The nonlinear solver is any function that meets [solves]: Newton on the residual with
    zeroed essential entries (solid_mechanics.hpp:1184) and an eliminated Jacobian (line 1205) never moves essential entries
    of its guess, and stops when the free entries of the residual vanish.  Rounding and solver tolerances are not modelled. *)
From Coq Require Import Reals Lra Lia Bool List.
From Verif Require Import Sums Tensor.
Import ListNotations.
Local Open Scope R_scope.

Inductive enforcement := DirectControl | RateControl | FullControl.

Record problem := {
  p_n : nat;
  p_ess : nat -> bool;
  p_g : R -> vec;
  p_res : R -> vec -> vec -> vec }.

Definition is_zero (x : R) : bool := if Req_EM_T x 0 then true else false.
Definition vadd (c : R) (a b : vec) : vec := fun i => a i + c * b i.

Section Problem.
Variable p : problem.
(** the nonlinear solver: time, c0, state u, guess -> answer *)
Variable solver : R -> R -> vec -> vec -> vec.

Definition ess_dofs : list nat := filter (p_ess p) (seq 0 (p_n p)).
Definition has_ess : bool := match ess_dofs with [] => false | _ => true end.
(** odes.cpp:167-174: prescribed values, zero elsewhere *)
Definition U (t : R) : vec := fun i => if p_ess p i then p_g p t i else 0.
(** odes.hpp:45 and 249 *)
Definition eps2 : R := 1 / 10000.
Definition eps1 : R := 1 / 1000000.
Definition rate (eps t : R) : vec := fun i => (U (t + eps) i - U (t - eps) i) / (2 * eps).
Definition second (eps t : R) : vec := fun i => (U (t - eps) i - 2 * U t i + U (t + eps) i) / (eps * eps).
(** odes.cpp:223-229, 345-351: essential entries from the first, others from the second *)
Definition merge (e f : vec) : vec := fun i => if p_ess p i then e i else f i.

Record setup := { su : vec; sv : vec; sguess : vec }.

(** odes.cpp:152-240 SecondOrderODE::Solve up to the call of the solver.  [None]: a division by zero reaches an essential
    entry (1.0 / c0 or / c1 with the coefficient zero). *)
Definition setup2 (en : enforcement) (t c0 c1 : R) (u v : vec) : option setup :=
  let fin Ut Vt At := Some {| su := merge Ut u; sv := merge Vt v; sguess := merge At (fun _ => 0) |} in
  if negb (is_zero c0) || negb (is_zero c1) then
    match en with
    | DirectControl => if is_zero c0 && has_ess then None else fin u v (fun i => (U t i - u i) / c0)
    | RateControl => if is_zero c1 && has_ess then None else fin u v (fun i => (rate eps2 t i - v i) / c1)
    | FullControl => if is_zero c1 && has_ess then None else
        let a := fun i => (rate eps2 t i - v i) / c1 in
        fin (fun i => U t i - c0 * a i) (fun i => rate eps2 t i - c1 * a i) a
    end
  else fin (U t) (rate eps2 t) (second eps2 t).

Definition solve2 (en : enforcement) (t c0 c1 : R) (u v : vec) : option vec :=
  match setup2 en t c0 c1 u v with None => None | Some s => Some (solver t c0 (su s) (sguess s)) end.

(** MFEM linalg/ode.cpp NewmarkSolver (not in /repo): memory of the solver object is the flag [first] (here [None]) and the last
    acceleration.  [told] is the time the operator holds before the step. *)
Definition newmark (beta gamma : R) (en : enforcement) (mem : option vec) (told t dt : R) (x v : vec)
  : option (vec * vec * vec) :=
  match (match mem with Some a => Some a | None => solve2 en told 0 0 x v end) with
  | None => None
  | Some a0 =>
      let x1 := vadd ((0.5 - beta) * dt * dt) (vadd dt x v) a0 in
      let v1 := vadd ((1 - gamma) * dt) v a0 in
      match solve2 en (t + dt) (beta * dt * dt) (gamma * dt) x1 v1 with
      | None => None
      | Some a1 => Some (vadd (beta * dt * dt) x1 a1, vadd (gamma * dt) v1 a1, a1)
      end
  end.

(** odes.cpp:77-100 SecondOrderODE::Step with a second-order method: with FullControl, for i < number of constrained dofs,
    entries number i (not number constrained_dofs[i]) are overwritten, using the values prescribed at the operator's time *)
Definition patch (en : enforcement) (t : R) (x v : vec) : vec * vec :=
  match en with
  | FullControl => (fun i => if Nat.ltb i (length ess_dofs) then U t i else x i,
                    fun i => if Nat.ltb i (length ess_dofs) then rate eps2 t i else v i)
  | _ => (x, v)
  end.

Definition newmark_step (beta gamma : R) (en : enforcement) (mem : option vec) (told t dt : R) (x v : vec)
  : option (vec * vec * vec) :=
  match newmark beta gamma en mem told t dt x v with
  | None => None
  | Some (x1, v1, a1) => let (x2, v2) := patch en (t + dt) x1 v1 in Some (x2, v2, a1)
  end.

(** odes.cpp:120-150 with BackwardEuler on the first-order system (u, v): MFEM BackwardEulerSolver calls ImplicitSolve(dt, x, k)
    and adds dt k *)
Definition backward_euler2 (en : enforcement) (t dt : R) (x v : vec) : option (vec * vec * vec) :=
  let un := vadd dt x v in
  match solve2 en (t + dt) (dt * dt) dt un v with
  | None => None
  | Some a => let k0 := vadd dt v a in Some (vadd dt x k0, vadd dt v a, a)
  end.

(** odes.cpp:302-365 FirstOrderODE::Solve, and MFEM BackwardEulerSolver *)
Definition setup1 (en : enforcement) (t dt : R) (u : vec) : vec * vec :=
  if negb (is_zero dt) then
    match en with
    | DirectControl => (u, merge (fun i => (U t i - u i) / dt) (fun _ => 0))
    | RateControl => (u, merge (rate eps1 t) (fun _ => 0))
    | FullControl => (merge (fun i => U t i - dt * rate eps1 t i) u, merge (rate eps1 t) (fun _ => 0))
    end
  else (merge (U t) u, merge (rate eps1 t) (fun _ => 0)).
(** the guess for free dofs is the previous rate (line 349); the solver's answer does not depend on it here *)
Definition backward_euler1 (en : enforcement) (t dt : R) (x : vec) : vec * vec :=
  let (u, guess) := setup1 en (t + dt) dt x in
  let k := solver (t + dt) dt u guess in (vadd dt x k, k).

(** ** specification *)
(** the solver's contract on this problem *)
Definition solves : Prop := forall t c0 u guess, 0 <= c0 ->
  (forall i, (i < p_n p)%nat -> p_ess p i = true -> solver t c0 u guess i = guess i) /\
  (forall i, (i < p_n p)%nat -> p_ess p i = false ->
     p_res p t (vadd c0 u (solver t c0 u guess)) (solver t c0 u guess) i = 0).
(** the residual reads the entries of its arguments, not the functions *)
Definition extensional : Prop := forall t u u' a a' i, (forall j, (j < p_n p)%nat -> u j = u' j) ->
  (forall j, (j < p_n p)%nat -> a j = a' j) -> (i < p_n p)%nat -> p_res p t u a i = p_res p t u' a' i.
Definition motion_at_free (t : R) (x a : vec) : Prop := forall i, (i < p_n p)%nat -> p_ess p i = false -> p_res p t x a i = 0.
Definition newmark_relations (beta gamma dt : R) (x v a x' v' a' : vec) : Prop := forall i, (i < p_n p)%nat ->
  x' i = x i + dt * v i + dt * dt * ((1 / 2 - beta) * a i + beta * a' i) /\
  v' i = v i + dt * ((1 - gamma) * a i + gamma * a' i).

Hypothesis Sol : solves.
Hypothesis Ext : extensional.

Lemma is_zero_true x : is_zero x = true -> x = 0.
Proof. unfold is_zero. now destruct (Req_EM_T x 0). Qed.
Lemma is_zero_false x : is_zero x = false -> x <> 0.
Proof. unfold is_zero. now destruct (Req_EM_T x 0). Qed.
Lemma is_zero_0 : is_zero 0 = true.
Proof. unfold is_zero. destruct (Req_EM_T 0 0); congruence. Qed.
Lemma has_ess_true i : (i < p_n p)%nat -> p_ess p i = true -> has_ess = true.
Proof.
  intros Hi He. assert (X : In i ess_dofs) by (apply filter_In; split; [apply in_seq; lia|exact He]).
  unfold has_ess. destruct ess_dofs; [destruct X|reflexivity].
Qed.


Lemma implicit_case c0 c1 : c0 <> 0 \/ c1 <> 0 -> negb (is_zero c0) || negb (is_zero c1) = true.
Proof.
  intros H. destruct (is_zero c0) eqn:E0, (is_zero c1) eqn:E1; try reflexivity.
  apply is_zero_true in E0. apply is_zero_true in E1. lra.
Qed.

Lemma direct_solve t c0 c1 u v : 0 < c0 -> exists a, solve2 DirectControl t c0 c1 u v = Some a /\
  motion_at_free t (vadd c0 u a) a /\
  (forall i, (i < p_n p)%nat -> p_ess p i = true -> u i + c0 * a i = p_g p t i).
Proof.
  intros P. assert (N : c0 <> 0) by lra. unfold solve2, setup2. rewrite implicit_case by tauto.
  destruct (is_zero c0) eqn:Z; [apply is_zero_true in Z; contradiction|]. cbn [andb]. eexists. split; [reflexivity|]. cbn [su sguess].
  destruct (Sol t c0 (merge u u) (merge (fun i => (U t i - u i) / c0) (fun _ => 0)) ltac:(lra)) as [Se Sf].
  set (a := solver _ _ _ _) in *. split.
  - intros i Hi He. rewrite <- (Sf i Hi He). apply Ext; [|reflexivity|exact Hi].
    intros j _. unfold vadd, merge. destruct (p_ess p j); reflexivity.
  - intros i Hi He. rewrite (Se i Hi He). unfold merge, U. rewrite He. field. exact N.
Qed.

Lemma rate_solve t c0 c1 u v : 0 <= c0 -> c1 <> 0 -> exists a, solve2 RateControl t c0 c1 u v = Some a /\
  motion_at_free t (vadd c0 u a) a /\
  (forall i, (i < p_n p)%nat -> p_ess p i = true -> v i + c1 * a i = rate eps2 t i).
Proof.
  intros P N. unfold solve2, setup2. rewrite implicit_case by tauto.
  destruct (is_zero c1) eqn:Z; [apply is_zero_true in Z; contradiction|]. cbn [andb]. eexists. split; [reflexivity|]. cbn [su sguess].
  destruct (Sol t c0 (merge u u) (merge (fun i => (rate eps2 t i - v i) / c1) (fun _ => 0)) P) as [Se Sf].
  set (a := solver _ _ _ _) in *. split.
  - intros i Hi He. rewrite <- (Sf i Hi He). apply Ext; [|reflexivity|exact Hi].
    intros j _. unfold vadd, merge. destruct (p_ess p j); reflexivity.
  - intros i Hi He. rewrite (Se i Hi He). unfold merge. rewrite He. field. exact N.
Qed.

(** with FullControl the residual is evaluated at the prescribed displacement and the end velocity is the prescribed rate *)
Lemma full_solve t c0 c1 u v : 0 <= c0 -> c1 <> 0 -> exists a, solve2 FullControl t c0 c1 u v = Some a /\
  motion_at_free t (merge (U t) (vadd c0 u a)) a /\
  (forall i, (i < p_n p)%nat -> p_ess p i = true -> v i + c1 * a i = rate eps2 t i).
Proof.
  intros P N. unfold solve2, setup2. rewrite implicit_case by tauto.
  destruct (is_zero c1) eqn:Z; [apply is_zero_true in Z; contradiction|]. cbn [andb]. cbv zeta. eexists. split; [reflexivity|]. cbn [su sguess].
  set (w := fun i => (rate eps2 t i - v i) / c1).
  destruct (Sol t c0 (merge (fun i => U t i - c0 * w i) u) (merge w (fun _ => 0)) P) as [Se Sf].
  set (a := solver _ _ _ _) in *. split.
  - intros i Hi He. rewrite <- (Sf i Hi He). apply Ext; [|reflexivity|exact Hi].
    intros j Hj. assert (Sj := Se j Hj). unfold vadd, merge in *. destruct (p_ess p j) eqn:Ej; [|reflexivity].
    rewrite Sj by reflexivity. ring.
  - intros i Hi He. rewrite (Se i Hi He). unfold merge, w. rewrite He. field. exact N.
Qed.

(** the explicit solve of the first call: consistent initial acceleration, with the prescribed displacement at essential dofs *)
Lemma explicit_solve en t u v : exists a, solve2 en t 0 0 u v = Some a /\
  motion_at_free t (merge (U t) u) a /\
  (forall i, (i < p_n p)%nat -> p_ess p i = true -> a i = second eps2 t i).
Proof.
  unfold solve2, setup2. rewrite is_zero_0. cbn [negb orb]. eexists. split; [reflexivity|]. cbn [su sguess].
  destruct (Sol t 0 (merge (U t) u) (merge (second eps2 t) (fun _ => 0)) (Rle_refl 0)) as [Se Sf].
  set (a := solver _ _ _ _) in *. split.
  - intros i Hi He. rewrite <- (Sf i Hi He). apply Ext; [|reflexivity|exact Hi]. intros j _. unfold vadd. ring.
  - intros i Hi He. rewrite (Se i Hi He). unfold merge. now rewrite He.
Qed.

(** ** Newmark *)
Definition start_acceleration (mem : option vec) (told : R) (x v a0 : vec) (en : enforcement) : Prop :=
  match mem with Some a => a0 = a | None => solve2 en told 0 0 x v = Some a0 end.

Lemma newmark_unfold beta gamma en mem told t dt x v : exists a0, start_acceleration mem told x v a0 en /\
  newmark beta gamma en mem told t dt x v =
  match solve2 en (t + dt) (beta * dt * dt) (gamma * dt)
          (vadd ((0.5 - beta) * dt * dt) (vadd dt x v) a0) (vadd ((1 - gamma) * dt) v a0) with
  | None => None
  | Some a1 => Some (vadd (beta * dt * dt) (vadd ((0.5 - beta) * dt * dt) (vadd dt x v) a0) a1,
                     vadd (gamma * dt) (vadd ((1 - gamma) * dt) v a0) a1, a1)
  end.
Proof.
  unfold newmark. destruct mem as [a|].
  - exists a. split; reflexivity.
  - destruct (explicit_solve en told x v) as [a [E _]]. exists a. split; [exact E|]. now rewrite E.
Qed.

Lemma newmark_kinematics beta gamma dt x v a0 a1 :
  newmark_relations beta gamma dt x v a0
    (vadd (beta * dt * dt) (vadd ((0.5 - beta) * dt * dt) (vadd dt x v) a0) a1)
    (vadd (gamma * dt) (vadd ((1 - gamma) * dt) v a0) a1) a1.
Proof. intros i _. unfold vadd. split; lra. Qed.

Theorem newmark_direct beta gamma mem told t dt x v : 0 < beta -> dt <> 0 ->
  exists a0 x' v' a', newmark_step beta gamma DirectControl mem told t dt x v = Some (x', v', a') /\
    start_acceleration mem told x v a0 DirectControl /\
    newmark_relations beta gamma dt x v a0 x' v' a' /\
    motion_at_free (t + dt) x' a' /\
    (forall i, (i < p_n p)%nat -> p_ess p i = true -> x' i = p_g p (t + dt) i).
Proof.
  intros Pb Nd. assert (N : 0 < beta * dt * dt) by (rewrite Rmult_assoc; apply Rmult_lt_0_compat; nra).
  destruct (newmark_unfold beta gamma DirectControl mem told t dt x v) as [a0 [Sa E]].
  set (x1 := vadd ((0.5 - beta) * dt * dt) (vadd dt x v) a0) in *. set (v1 := vadd ((1 - gamma) * dt) v a0) in *.
  destruct (direct_solve (t + dt) (beta * dt * dt) (gamma * dt) x1 v1 N) as [a1 [E1 [Mo Pr]]]. rewrite E1 in E.
  exists a0, (vadd (beta * dt * dt) x1 a1), (vadd (gamma * dt) v1 a1), a1.
  unfold newmark_step. rewrite E. cbn [patch]. split; [reflexivity|]. split; [exact Sa|].
  split; [apply newmark_kinematics|]. split; [exact Mo|exact Pr].
Qed.

Theorem newmark_rate beta gamma mem told t dt x v : 0 <= beta -> gamma * dt <> 0 ->
  exists a0 x' v' a', newmark_step beta gamma RateControl mem told t dt x v = Some (x', v', a') /\
    start_acceleration mem told x v a0 RateControl /\
    newmark_relations beta gamma dt x v a0 x' v' a' /\
    motion_at_free (t + dt) x' a' /\
    (forall i, (i < p_n p)%nat -> p_ess p i = true -> v' i = rate eps2 (t + dt) i).
Proof.
  intros Pb N. assert (P0 : 0 <= beta * dt * dt) by (rewrite Rmult_assoc; apply Rmult_le_pos; nra).
  destruct (newmark_unfold beta gamma RateControl mem told t dt x v) as [a0 [Sa E]].
  set (x1 := vadd ((0.5 - beta) * dt * dt) (vadd dt x v) a0) in *. set (v1 := vadd ((1 - gamma) * dt) v a0) in *.
  destruct (rate_solve (t + dt) (beta * dt * dt) (gamma * dt) x1 v1 P0 N) as [a1 [E1 [Mo Pr]]]. rewrite E1 in E.
  exists a0, (vadd (beta * dt * dt) x1 a1), (vadd (gamma * dt) v1 a1), a1.
  unfold newmark_step. rewrite E. cbn [patch]. split; [reflexivity|]. split; [exact Sa|].
  split; [apply newmark_kinematics|]. split; [exact Mo|exact Pr].
Qed.

(** FullControl is right when the essential dofs are exactly the first ones *)
Theorem newmark_full beta gamma mem told t dt x v : 0 <= beta -> gamma * dt <> 0 ->
  (forall i, (i < p_n p)%nat -> (p_ess p i = true <-> (i < length ess_dofs)%nat)) ->
  exists x' v' a', newmark_step beta gamma FullControl mem told t dt x v = Some (x', v', a') /\
    motion_at_free (t + dt) x' a' /\
    (forall i, (i < p_n p)%nat -> p_ess p i = true -> x' i = p_g p (t + dt) i /\ v' i = rate eps2 (t + dt) i).
Proof.
  intros Pb N First. assert (P0 : 0 <= beta * dt * dt) by (rewrite Rmult_assoc; apply Rmult_le_pos; nra).
  destruct (newmark_unfold beta gamma FullControl mem told t dt x v) as [a0 [Sa E]].
  set (x1 := vadd ((0.5 - beta) * dt * dt) (vadd dt x v) a0) in *. set (v1 := vadd ((1 - gamma) * dt) v a0) in *.
  destruct (full_solve (t + dt) (beta * dt * dt) (gamma * dt) x1 v1 P0 N) as [a1 [E1 [Mo Pr]]]. rewrite E1 in E.
  unfold newmark_step. rewrite E. cbn [patch]. eexists. eexists. exists a1. split; [reflexivity|]. split.
  - intros i Hi He. rewrite <- (Mo i Hi He). apply Ext; [|reflexivity|exact Hi]. intros j Hj. unfold merge.
    destruct (p_ess p j) eqn:Ej.
    + apply First in Ej; [|exact Hj]. apply PeanoNat.Nat.ltb_lt in Ej. now rewrite Ej.
    + destruct (PeanoNat.Nat.ltb_spec j (length ess_dofs)) as [L|L]; [|reflexivity].
      apply First in L; [|exact Hj]. congruence.
  - intros i Hi He. assert (Ei := He). apply First in Ei; [|exact Hi]. apply PeanoNat.Nat.ltb_lt in Ei. rewrite Ei.
    unfold U. rewrite He. auto.
Qed.

(** ** any number of steps: the integrator's memory carries the last acceleration (solid_mechanics.hpp:1265) *)
Fixpoint newmark_run (beta gamma : R) (en : enforcement) (mem : option vec) (told t : R) (x v : vec) (dts : list R)
  : option (list (vec * vec * vec)) :=
  match dts with
  | [] => Some []
  | dt :: rest =>
      match newmark_step beta gamma en mem told t dt x v with
      | None => None
      | Some (x', v', a') =>
          match newmark_run beta gamma en (Some a') (t + dt) (t + dt) x' v' rest with
          | None => None
          | Some l => Some ((x', v', a') :: l)
          end
      end
  end.
(** specification: consecutive states (displacement, velocity, acceleration) *)
Fixpoint trajectory (beta gamma : R) (held : R -> vec -> vec -> Prop) (t : R) (x v a : vec) (dts : list R)
  (states : list (vec * vec * vec)) : Prop :=
  match dts, states with
  | [], [] => True
  | dt :: dts', (x', v', a') :: states' =>
      newmark_relations beta gamma dt x v a x' v' a' /\ motion_at_free (t + dt) x' a' /\ held (t + dt) x' v' /\
      trajectory beta gamma held (t + dt) x' v' a' dts' states'
  | _, _ => False
  end.
Definition rate_held (t : R) (x v : vec) : Prop :=
  forall i, (i < p_n p)%nat -> p_ess p i = true -> v i = rate eps2 t i.
Definition value_held (t : R) (x v : vec) : Prop :=
  forall i, (i < p_n p)%nat -> p_ess p i = true -> x i = p_g p t i.

Theorem newmark_run_rate beta gamma dts : 0 <= beta -> List.Forall (fun dt => gamma * dt <> 0) dts ->
  forall mem told t x v a0, start_acceleration mem told x v a0 RateControl ->
  exists states, newmark_run beta gamma RateControl mem told t x v dts = Some states /\
    trajectory beta gamma rate_held t x v a0 dts states.
Proof.
  intros Pb. induction dts as [|dt dts IH]; intros F mem told t x v a0 Sa; [exists []; split; [reflexivity|exact I]|].
  inversion F as [|? ? Fd Fr]; subst.
  destruct (newmark_rate beta gamma mem told t dt x v Pb Fd) as [a [x' [v' [a' [E [Sa' [K [Mo Pr]]]]]]]].
  assert (a = a0) by (destruct mem; cbn [start_acceleration] in *; congruence). subst a.
  destruct (IH Fr (Some a') (t + dt) (t + dt) x' v' a' eq_refl) as [st [E' T]].
  exists ((x', v', a') :: st). cbn [newmark_run trajectory]. rewrite E, E'. auto 6.
Qed.
Theorem newmark_run_direct beta gamma dts : 0 < beta -> List.Forall (fun dt => dt <> 0) dts ->
  forall mem told t x v a0, start_acceleration mem told x v a0 DirectControl ->
  exists states, newmark_run beta gamma DirectControl mem told t x v dts = Some states /\
    trajectory beta gamma value_held t x v a0 dts states.
Proof.
  intros Pb. induction dts as [|dt dts IH]; intros F mem told t x v a0 Sa; [exists []; split; [reflexivity|exact I]|].
  inversion F as [|? ? Fd Fr]; subst.
  destruct (newmark_direct beta gamma mem told t dt x v Pb Fd) as [a [x' [v' [a' [E [Sa' [K [Mo Pr]]]]]]]].
  assert (a = a0) by (destruct mem; cbn [start_acceleration] in *; congruence). subst a.
  destruct (IH Fr (Some a') (t + dt) (t + dt) x' v' a' eq_refl) as [st [E' T]].
  exists ((x', v', a') :: st). cbn [newmark_run trajectory]. rewrite E, E'. auto 6.
Qed.

(** ** backward Euler *)
Definition euler2_relations (dt : R) (x v x' v' a' : vec) : Prop := forall i, (i < p_n p)%nat ->
  x' i = x i + dt * v' i /\ v' i = v i + dt * a' i.
Theorem euler2_ok t dt x v : dt <> 0 ->
  (exists x' v' a', backward_euler2 DirectControl t dt x v = Some (x', v', a') /\ euler2_relations dt x v x' v' a' /\
     motion_at_free (t + dt) x' a' /\
     forall i, (i < p_n p)%nat -> p_ess p i = true -> x' i = p_g p (t + dt) i) /\
  (exists x' v' a', backward_euler2 RateControl t dt x v = Some (x', v', a') /\ euler2_relations dt x v x' v' a' /\
     motion_at_free (t + dt) x' a' /\
     forall i, (i < p_n p)%nat -> p_ess p i = true -> v' i = rate eps2 (t + dt) i).
Proof.
  intros N. assert (N2 : 0 < dt * dt) by nra.
  assert (X : forall a i, vadd dt x (vadd dt v a) i = vadd (dt * dt) (vadd dt x v) a i) by (intros; unfold vadd; ring).
  split.
  - destruct (direct_solve (t + dt) (dt * dt) dt (vadd dt x v) v N2) as [a [E [Mo Pr]]]. unfold backward_euler2. cbv zeta. rewrite E.
    eexists. eexists. exists a. split; [reflexivity|]. split; [intros i _; unfold vadd; split; ring|]. split.
    + intros i Hi He. rewrite <- (Mo i Hi He). apply Ext; [intros; apply X|reflexivity|exact Hi].
    + intros i Hi He. rewrite X. now apply Pr.
  - destruct (rate_solve (t + dt) (dt * dt) dt (vadd dt x v) v (Rlt_le _ _ N2) N) as [a [E [Mo Pr]]]. unfold backward_euler2. cbv zeta. rewrite E.
    eexists. eexists. exists a. split; [reflexivity|]. split; [intros i _; unfold vadd; split; ring|]. split.
    + intros i Hi He. rewrite <- (Mo i Hi He). apply Ext; [intros; apply X|reflexivity|exact Hi].
    + intros i Hi He. now apply Pr.
Qed.

Theorem euler1_ok t dt x : 0 < dt ->
  (let (x', k) := backward_euler1 DirectControl t dt x in
     (forall i, x' i = x i + dt * k i) /\ motion_at_free (t + dt) x' k /\
     forall i, (i < p_n p)%nat -> p_ess p i = true -> x' i = p_g p (t + dt) i) /\
  (let (x', k) := backward_euler1 RateControl t dt x in
     (forall i, x' i = x i + dt * k i) /\ motion_at_free (t + dt) x' k /\
     forall i, (i < p_n p)%nat -> p_ess p i = true -> k i = rate eps1 (t + dt) i).
Proof.
  intros P. assert (N : dt <> 0) by lra. unfold backward_euler1, setup1. destruct (is_zero dt) eqn:Z; [apply is_zero_true in Z; contradiction|]. cbn [negb]. split.
  - destruct (Sol (t + dt) dt x (merge (fun i => (U (t + dt) i - x i) / dt) (fun _ => 0)) (Rlt_le _ _ P)) as [Se Sf].
    set (k := solver _ _ _ _) in *. split; [reflexivity|]. split; [exact Sf|].
    intros i Hi He. unfold vadd. rewrite (Se i Hi He). unfold merge, U. rewrite He. field. exact N.
  - destruct (Sol (t + dt) dt x (merge (rate eps1 (t + dt)) (fun _ => 0)) (Rlt_le _ _ P)) as [Se Sf].
    set (k := solver _ _ _ _) in *. split; [reflexivity|]. split; [exact Sf|].
    intros i Hi He. rewrite (Se i Hi He). unfold merge. now rewrite He.
Qed.
End Problem.
