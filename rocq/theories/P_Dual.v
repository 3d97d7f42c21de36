(** Property theorems C15: dual numbers compute exact derivatives. *)
From Coq Require Import Reals Lra.
From Coquelicot Require Import Coquelicot.
From Verif Require Import Dual.
Local Open Scope R_scope.

(** C15.  Inputs are doubles or duals with any gradients.  If every operation performed on a varying operand is
    differentiable at the point, the dual evaluation returns the value of the expression, and component [d] of the
    gradient is the derivative of the expression along any curve of inputs whose velocity is component [d] of the
    input gradients.  Partial: [pow] with a constant exponent 0 at base 0, and [pow] of the constant 0, are excluded
    by [smooth] although they are differentiable (see the refutations). *)
Theorem C15_exact_derivative_partial : forall e ins v,
  eval e (fun i => get_value (ins i)) = Some v ->
  smooth (fun i => kind (ins i)) (fun i => get_value (ins i)) e ->
  exists r, deval e ins = Some r /\ get_value r = v /\
    forall d x t0, moves ins d x t0 ->
      exists G, locally t0 (fun t => eval e (x t) = Some (G t)) /\ G t0 = v /\ is_derive G t0 (get_gradient r d).
Proof. exact exact_derivative. Qed.
Print Assumptions C15_exact_derivative_partial.

(** the usual seeding: component [j] of the gradient is the partial derivative with respect to input [j] *)
Theorem C15_seeded_inputs_partial : forall e x v,
  eval e x = Some v -> smooth (fun _ => true) x e ->
  exists r, deval e (seed x) = Some r /\ get_value r = v /\
    forall j, exists G, locally (x j) (fun s => eval e (with_input x j s) = Some (G s)) /\ G (x j) = v /\
      is_derive G (x j) (get_gradient r j).
Proof. exact seeded_gradient. Qed.
Print Assumptions C15_seeded_inputs_partial.

(** ties of max and min, also at equal operands: right whenever the maximum is differentiable at all *)
Theorem C15_max_min_right_when_differentiable : forall b v g w h (G H : R -> R) t0 d l,
  (b = Max \/ b = Min) -> G t0 = v -> H t0 = w -> is_derive G t0 (g d) -> is_derive H t0 (h d) ->
  is_derive (fun t => match b with Max => std_max (G t) (H t) | _ => std_min (G t) (H t) end) t0 l ->
  exists r, bin_dd b v g w h = Some r /\ bin_std b v w = Some (get_value r) /\ get_gradient r d = l.
Proof. exact ties_right. Qed.
Print Assumptions C15_max_min_right_when_differentiable.

Theorem C15_abs_right_when_differentiable : forall v g (G : R -> R) t0 d l,
  G t0 = v -> is_derive G t0 (g d) -> is_derive (fun t => std_abs (G t)) t0 l ->
  exists r, un_dual Abs v g = Some r /\ un_std Abs v = Some (get_value r) /\ get_gradient r d = l.
Proof. exact abs_right. Qed.
Print Assumptions C15_abs_right_when_differentiable.

(** pow(x, 0.0) is the constant 1, but its dual overload returns NaN at x = 0 *)
Theorem C15_pow_zero_exponent_refuted : exists e,
  (forall x, eval e x = Some 1) /\ (forall g, deval e (fun _ => Dua 0 g) = None).
Proof. exists (Bin Pow (Var 0) (Cst 0)). exact pow_zero_exponent. Qed.
Print Assumptions C15_pow_zero_exponent_refuted.

(** pow(0.0, y) is the constant 0 for positive y, but its dual overload returns NaN *)
Theorem C15_pow_zero_base_refuted : forall y, 0 < y -> exists e,
  (forall x : nat -> R, 0 < x O -> eval e x = Some 0) /\ (forall g, deval e (fun _ => Dua y g) = None).
Proof. intros y Hy. exists (Bin Pow (Cst 0) (Var 0)). exact (pow_zero_base y Hy). Qed.
Print Assumptions C15_pow_zero_base_refuted.

(** hypotheses are met by sqrt(x*x + y*y) * log(x) + max(x, pow(y, 3.0)) at (3, -2) *)
Example C15_smooth_example : let x := fun i => match i with O => 3 | _ => -2 end in
  (exists v, eval demo x = Some v) /\ smooth (fun _ => true) x demo.
Proof. exact demo_smooth. Qed.
