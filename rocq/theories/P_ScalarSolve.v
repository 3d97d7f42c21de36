(** Property theorems C21: solve_scalar_equation. *)
From Coq Require Import Reals Lra Lia.
From Coquelicot Require Import Coquelicot.
From Verif Require Import ScalarSolve ScalarSolveDeriv.
Local Open Scope R_scope.

(** intervals are refused exactly when both end values have the same strict sign *)
Theorem C21_refuses_iff_no_sign_change : forall f fd o x0 lower upper,
  solve_scalar_equation f fd o x0 lower upper = Refused <-> 0 < f lower * f upper.
Proof. exact refuses_iff. Qed.
Print Assumptions C21_refuses_iff_no_sign_change.

(** every answer: a point of the interval, its true residual and slope, a bracket with a sign change around it, and an
    unconverged answer has used all iterations.  No assumption on [f], [fd] or the initial guess. *)
Theorem C21_answer_in_interval : forall f fd o x0 lower upper a,
  solve_scalar_equation f fd o x0 lower upper = Answer a ->
  between lower upper (a_x a) /\ a_residual a = f (a_x a) /\ a_slope a = fd (a_x a) /\
  (a_iterations a <= max_iter o)%nat /\ (a_converged a = false -> a_iterations a = max_iter o) /\
  exists xl xh, between lower upper xl /\ between lower upper xh /\ between xl xh (a_x a) /\ f xl * f xh <= 0.
Proof. exact answer_facts. Qed.
Print Assumptions C21_answer_in_interval.

(** a continuous function has a root in that bracket *)
Theorem C21_root_bracketed : forall f fd o x0 lower upper a, (forall x, between lower upper x -> continuous f x) ->
  solve_scalar_equation f fd o x0 lower upper = Answer a ->
  exists xl xh r, between lower upper xl /\ between lower upper xh /\ between xl xh (a_x a) /\ between xl xh r /\ f r = 0.
Proof. exact root_bracketed. Qed.
Print Assumptions C21_root_bracketed.

(** reported convergence *)
Theorem C21_converged_means_tolerance_met : forall f fd o x0 lower upper a,
  solve_scalar_equation f fd o x0 lower upper = Answer a -> a_converged a = true ->
  f (a_x a) = 0 \/ Rabs (f (a_x a)) < rtol o \/
  exists old, between lower upper old /\
    ((fd old <> 0 /\ a_x a = old - f old / fd old /\ Rabs (f old / fd old) < xtol o) \/
     (exists xl xh, between lower upper xl /\ between lower upper xh /\ f xl < 0 /\ 0 <= f xh /\
        a_x a = (xl + xh) / 2 /\ Rabs (xh - xl) / 2 < xtol o)).
Proof. exact converged_means. Qed.
Print Assumptions C21_converged_means_tolerance_met.

(** distance to the root of a function whose slope is bounded away from zero *)
Theorem C21_distance_to_root : forall f fd o x0 lower upper a m, 0 < m ->
  (forall x, between lower upper x -> is_derive f x (fd x)) -> (forall x, between lower upper x -> m <= Rabs (fd x)) ->
  solve_scalar_equation f fd o x0 lower upper = Answer a ->
  exists r, between lower upper r /\ f r = 0 /\ Rabs (a_x a - r) <= Rabs (a_residual a) / m.
Proof. exact monotone_accuracy. Qed.
Print Assumptions C21_distance_to_root.

(** enough iterations always lead to convergence, for any function whatsoever *)
Theorem C21_enough_iterations_converge : forall f fd o x0 lower upper K a,
  0 < xtol o -> Rabs (upper - lower) < 2 ^ K * xtol o -> ((K + 1) * (2 * K + 1) <= max_iter o)%nat ->
  solve_scalar_equation f fd o x0 lower upper = Answer a -> a_converged a = true.
Proof. exact enough_iterations. Qed.
Print Assumptions C21_enough_iterations_converge.

Theorem C21_enough_iterations_converge_residual : forall f fd o x0 lower upper D K a,
  (forall x, between lower upper x -> is_derive f x (fd x)) -> (forall x, between lower upper x -> Rabs (fd x) <= D) ->
  0 < rtol o -> 2 * D * Rabs (upper - lower) < 2 ^ K * rtol o -> ((K + 1) * (2 * K + 1) <= max_iter o)%nat ->
  solve_scalar_equation f fd o x0 lower upper = Answer a -> a_converged a = true.
Proof. exact enough_iterations_residual. Qed.
Print Assumptions C21_enough_iterations_converge_residual.

(** the derivative: the one of any continuous curve of points keeping the residual while the parameters move *)
Theorem C21_root_derivative : forall F fd o (t0 x0 lower upper df g : R) a (X : R -> R),
  solve_scalar_equation (fun x => F x t0) fd o x0 lower upper = Answer a ->
  differentiable_pt_lim F (a_x a) t0 (fd (a_x a)) df ->
  continuous X t0 -> X t0 = a_x a -> locally t0 (fun t => F (X t) t = a_residual a) ->
  root_gradient a df = Some g -> is_derive X t0 g.
Proof. exact root_gradient_ok. Qed.
Print Assumptions C21_root_derivative.

(** not-a-number instead of an answer is possible only if a point of the interval is a root with zero slope ... *)
Theorem C21_nan_only_at_flat_roots_partial : forall f fd o x0 lower upper,
  solve_scalar_equation f fd o x0 lower upper = NotANumber -> exists x, between lower upper x /\ f x = 0 /\ fd x = 0.
Proof. exact nan_only_at_flat_roots. Qed.
Print Assumptions C21_nan_only_at_flat_roots_partial.

(** ... and happens: x^3 on [-1, 1] from the exact root 0, although the interval brackets the root *)
Theorem C21_point_of_interval_refuted : exists f fd x0 lower upper,
  (forall x, is_derive f x (fd x)) /\ f lower * f upper < 0 /\ lower <= x0 <= upper /\ f x0 = 0 /\
  solve_scalar_equation f fd default_options x0 lower upper = NotANumber.
Proof. exact flat_root_refutes. Qed.
Print Assumptions C21_point_of_interval_refuted.

Example C21_example : exists a,
  solve_scalar_equation (fun x => 2 * x - 1) (fun _ => 2) {| xtol := 0; rtol := 1 / 1000; max_iter := 25 |} 0 0 1 = Answer a /\
  a_converged a = true /\ a_x a = 1 / 2 /\ a_iterations a = 1%nat.
Proof. exact linear_example. Qed.
(** x(t) = t/2 solves 2 x - t = 0 *)
Example C21_derivative_example : exists (F : R -> R -> R) (X : R -> R) a g,
  solve_scalar_equation (fun x => F x 1) (fun _ => 2) {| xtol := 0; rtol := 1 / 1000; max_iter := 25 |} 0 0 1 = Answer a /\
  differentiable_pt_lim F (a_x a) 1 2 (-1) /\ continuous X 1 /\ X 1 = a_x a /\
  locally 1 (fun t => F (X t) t = a_residual a) /\ root_gradient a (-1) = Some g /\ g = 1 / 2.
Proof. exact derivative_example. Qed.
