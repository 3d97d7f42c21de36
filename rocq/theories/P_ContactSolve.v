(** * Quasi-static steps with contact (C65) *)
From Coq Require Import Reals List Arith Bool.
From Coquelicot Require Import Coquelicot.
Import ListNotations.
From Verif Require Import Sums Contact ContactSolve ContactNewton ContactSolveEx.
Local Open Scope R_scope.

(** after any step with multipliers, whatever the history of the iteration: no penetration beyond the tolerance, pressures only push,
    and a pressure acts only where the gap is closed; tied surfaces stay together.  The gaps stored are those of the new displacement *)
Theorem C65_contact_conditions : forall internal ess geo n s dt s', step_multipliers internal ess geo n s dt s' ->
  time s' = time s + dt /\
  List.Forall (fun it => lm it = true ->
    match tied it with
    | None => forall k, (k < length (pres it))%nat -> - / 10 ^ 14 <= nth k (gap it) 0 /\ nth k (pres it) 0 <= 0 /\ nth k (pres it) 0 * nth k (gap it) 0 = 0
    | Some fixed => forall k, (k < length (pres it))%nat -> if existsb (Nat.eqb k) fixed then nth k (pres it) 0 = 0 else nth k (gap it) 0 = 0
    end) (its (con s')) /\
  Forall2 (fun it g => gap it = g) (its (con s')) (gaps_at (its (con s')) geo (disp s')).
Proof. exact step_conditions. Qed.
Print Assumptions C65_contact_conditions.
Example C65_contact_conditions_nonvacuous : step_multipliers (spring pull) free [wall 0] 1 pressed 1 stuck.
Proof. exact stuck_step. Qed.

(** internal, applied and contact forces balance at the end of the step, when the last evaluation used no tensile pressure.
    Missing: a last evaluation with tensile pressure, refuted below *)
Theorem C65_balance_partial : forall internal ess geo n s dt c1 s', step_from internal ess geo n s dt c1 s' ->
  List.Forall (fun it => lm it = true) (its c1) -> List.Forall (fun it => lm it = true -> List.Forall (fun x => x <= 0) (pres it)) (its c1) ->
  forall j, (j < n)%nat -> ess j = false -> internal (time s') (disp s') j + forces (its (con s')) geo (disp s') j = 0.
Proof. exact step_balance. Qed.
Print Assumptions C65_balance_partial.
(** a body pressed against a wall and then pulled off it: Newton's method stops with the body still on the wall *)
Theorem C65_separation_refuted : exists internal K geo s p c1 u1 p1 c2 s',
  (exists c', converged internal free geo 1 (time s) (con s) (disp s) p c' /\ its c' = its (con s)) /\ merged_pressures (con s) = Some (map Some p) /\ reachable (con s) /\
  newton_step internal free geo 1 K (time s + 1) (con s) (disp s) p c1 u1 p1 /\ converged internal free geo 1 (time s + 1) c1 u1 p1 c2 /\
  u1 = disp s' /\ step_multipliers internal free geo 1 s 1 s' /\
  internal (time s') (disp s') 0%nat + forces (its (con s')) geo (disp s') 0 <> 0 /\
  exists x, internal (time s') (at_ x) 0%nat = 0 /\ List.Forall (fun s => 0 < gapf s (at_ x) 0%nat) geo.
Proof. exact separation_refuted. Qed.
Print Assumptions C65_separation_refuted.

(** with penalty enforcement only, the forces balance at the time the module was created with.  Missing: at the end of the step *)
Theorem C65_penalty_balance_partial : forall internal ess geo n s dt s', step_penalty internal ess geo n s dt s' ->
  time s' = time s + dt /\ ode s' = ode s /\ forall j, (j < n)%nat -> ess j = false -> internal (ode s) (disp s') j + forces (its (con s')) geo (disp s') j = 0.
Proof. exact penalty_balance. Qed.
Print Assumptions C65_penalty_balance_partial.
Theorem C65_penalty_time_refuted : exists internal geo s s', reachable (con s) /\ ode s = time s /\ step_penalty internal free geo 1 s 1 s' /\
  internal (time s') (disp s') 0%nat + forces (its (con s')) geo (disp s') 0 <> 0.
Proof. exact penalty_time_refuted. Qed.
Print Assumptions C65_penalty_time_refuted.
Example C65_penalty_steps : forall t, step_penalty (spring (fun t => t)) free [wall 10] 1 (rest t) 1 (rest (t + 1)).
Proof. exact rest_step. Qed.

(** the Jacobian returned after an evaluation is the derivative of the next evaluation, once evaluations have settled and no separated
    dof sits exactly on the tolerance: displacement rows, any mix of enforcements *)
Theorem C65_jacobian_forces : forall n (internal : (nat -> R) -> nat -> R) (K : nat -> nat -> R) geo c u p du dp i,
  reachable c -> length (its c) = length geo -> length p = npd c -> length dp = npd c ->
  (exists c', eval_contact c (gaps_at (its c) geo u) p = Some c' /\ its c' = its c) ->
  List.Forall off_edge (its c) -> List.Forall (fun s => smooth n s u du) geo ->
  is_derive (fun t : R => internal (moved u du t) i) 0 (sumn n (fun j => K i j * du j)) ->
  exists f, is_derive f 0 (J_top n K (its c) geo u du dp i) /\
    forall t, exists c', eval_contact c (gaps_at (its c) geo (moved u du t)) (stepped p dp t) = Some c' /\ f t = internal (moved u du t) i + forces (its c') geo (moved u du t) i.
Proof. exact jacobian_top. Qed.
Print Assumptions C65_jacobian_forces.
(** pressure rows, apart from the identity block of C31 *)
Theorem C65_jacobian_gaps : forall n geo c u p du dp i k,
  reachable c -> length (its c) = length geo -> length p = npd c -> length dp = npd c ->
  (exists c', eval_contact c (gaps_at (its c) geo u) p = Some c' /\ its c' = its c) ->
  List.Forall off_edge (its c) -> List.Forall (fun s => smooth n s u du) geo ->
  (i < length (its c))%nat -> lm (nth i (its c) no_interaction) = true -> (k < length (pres (nth i (its c) no_interaction)))%nat ->
  exists f, is_derive f 0 (sumn n (fun j => row u (nth i (its c) no_interaction, nth i geo no_surface) k j * du j)) /\
    forall t, exists c', eval_contact c (gaps_at (its c) geo (moved u du t)) (stepped p dp t) = Some c' /\
      f t = nth k (zero_at (inactive (nth i (its c') no_interaction)) (gap (nth i (its c') no_interaction))) 0.
Proof. exact jacobian_bottom. Qed.
Print Assumptions C65_jacobian_gaps.
Example C65_jacobian_nonvacuous : reachable (closed (-1)) /\ (exists c', eval_contact (closed (-1)) (gaps_at (its (closed (-1))) [wall 0] (at_ 0)) [-1] = Some c' /\ its c' = its (closed (-1))) /\
  List.Forall off_edge (its (closed (-1))) /\ forall a u du, smooth 1 (wall a) u du.
Proof. exact (conj (closed_reachable (-1)) (conj closed_settled (conj closed_off_edge wall_smooth))). Qed.

(** Newton corrections: essential displacements and inactive multipliers do not move, and the remaining equations are the uneliminated ones *)
Theorem C65_correction : forall n ess K geo c m u du dp r g,
  reachable c -> List.Forall (fun it => lm it = true) (its c) -> List.Forall sorted_tied (its c) -> length (its c) = length geo -> identity_block c = Some m ->
  (forall i, (i < n)%nat -> ess i = true -> r i = 0) -> (forall q, In q (inactive_positions c) -> g q = 0) ->
  (forall i, (i < n)%nat -> elim_top n ess K (its c) geo u du dp i = r i) -> (forall q, (q < npd c)%nat -> elim_bottom n ess (its c) geo m u du dp q = g q) ->
  (forall i, (i < n)%nat -> ess i = true -> du i = 0) /\
  (forall q, In q (inactive_positions c) -> nth q dp 0 = 0) /\
  (forall i, (i < n)%nat -> ess i = false -> J_top n K (its c) geo u du dp i = r i) /\
  (forall q, (q < npd c)%nat -> J_bottom n (its c) geo m u du dp q = g q).
Proof. exact correction. Qed.
Print Assumptions C65_correction.
Example C65_correction_case : newton_step (spring pull) free [wall 0] 1 unit_K (0 + 1) (closed (-1)) (at_ 0) [-1] (closed (-1)) (at_ 0) [2].
Proof. exact one_correction. Qed.
