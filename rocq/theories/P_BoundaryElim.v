(** * Property C45: strong enforcement of essential boundary conditions *)
From Coq Require Import Reals List.
From Verif Require Import Sums Tensor BoundaryElim.
Import ListNotations.
Local Open Scope R_scope.

(** elimination has exactly the constrained solutions: no equation of a free dof is lost, none is added *)
Theorem C45_one_condition : forall n d A x b y,
  solution n (eliminate d A) (eliminate_rhs n d (removed d A) x b) y <-> constrained_solution n d x A b y.
Proof. exact eliminate_iff. Qed.
Print Assumptions C45_one_condition.

(** any list of conditions, overlapping or not, in any order *)
Theorem C45_all_conditions : forall n x bcs A b y,
  solution n (fst (apply_all n x bcs (A, b))) (snd (apply_all n x bcs (A, b))) y <-> constrained_solution n (any bcs) x A b y.
Proof. exact apply_all_iff. Qed.
Print Assumptions C45_all_conditions.
Example C45_sample :
  solution 2 (fst (apply_all 2 (fun _ => 3) [fun i => Nat.eqb i 0; fun i => Nat.eqb i 0] (sample_matrix, fun _ => 5)))
    (snd (apply_all 2 (fun _ => 3) [fun i => Nat.eqb i 0; fun i => Nat.eqb i 0] (sample_matrix, fun _ => 5)))
    (fun i => match i with O => 3 | _ => 2 end).
Proof. exact sample_solution. Qed.

(** Newton corrections never move constrained dofs and solve the linearised equations elsewhere *)
Theorem C45_newton : forall n d J r y,
  solution n (eliminate d J) (zeroed d r) y <-> constrained_solution n d (fun _ => 0) J r y.
Proof. exact newton_correction. Qed.
Print Assumptions C45_newton.

(** the warm start puts the constrained dofs on their new values and solves the linearised equations elsewhere *)
Theorem C45_warm_start : forall n d lin J r g u,
  (forall b, solution n (eliminate d J) b (lin (eliminate d J) b)) ->
  (forall i, (i < n)%nat -> d i = true -> warm_start n d lin true J r g u i = g i) /\
  (forall i, (i < n)%nat -> d i = false ->
     r i + mvec n J (fun j => warm_start n d lin true J r g u j - u j) i = 0).
Proof. exact warm_start_ok. Qed.
Print Assumptions C45_warm_start.
Theorem C45_without_warm_start : forall n d lin J r g u i, warm_start n d lin false J r g u i = if d i then g i else u i.
Proof. exact cold_start_ok. Qed.
Print Assumptions C45_without_warm_start.
Example C45_linear_solver : forall b, solution 2 (eliminate (fun i => Nat.eqb i 0) sample_matrix) b
  ((fun A c i => c i / A i i) (eliminate (fun i => Nat.eqb i 0) sample_matrix) b).
Proof. exact sample_linear_solver. Qed.
