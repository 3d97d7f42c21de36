(** Property theorems C18 (inverse and determinant), C19 (linear solves), C20 (tensor decompositions). *)
From Coq Require Import Reals Lra Lia.
From Coquelicot Require Import Coquelicot.
From Verif Require Import Sums Tensor LU LUDeriv LUSpd TensorEx.
Local Open Scope R_scope.

(** C18 *)
Theorem C18_inverse2 : forall A, det2 A <> 0 ->
  exists B, inv2 A = Some B /\ meq 2 (mmul 2 A B) ident /\ meq 2 (mmul 2 B A) ident.
Proof. exact inv2_works. Qed.
Print Assumptions C18_inverse2.

Theorem C18_inverse3 : forall A, det3 A <> 0 ->
  exists B, inv3 A = Some B /\ meq 3 (mmul 3 A B) ident /\ meq 3 (mmul 3 B A) ident.
Proof. exact inv3_works. Qed.
Print Assumptions C18_inverse3.

(** no inverse is invented for a singular matrix, and none exists *)
Theorem C18_singular2 : forall A, det2 A = 0 -> inv2 A = None /\ ~ exists B, meq 2 (mmul 2 A B) ident.
Proof. exact inv2_singular. Qed.
Print Assumptions C18_singular2.
Theorem C18_singular3 : forall A, det3 A = 0 -> inv3 A = None /\ ~ exists B, meq 3 (mmul 3 A B) ident.
Proof. exact inv3_singular. Qed.
Print Assumptions C18_singular3.

Theorem C18_det_multiplicative : forall A B,
  det2 (mmul 2 A B) = det2 A * det2 B /\ det3 (mmul 3 A B) = det3 A * det3 B.
Proof. exact det_multiplicative. Qed.
Print Assumptions C18_det_multiplicative.

Theorem C18_det_identity_and_transpose : forall A,
  det2 ident = 1 /\ det3 ident = 1 /\ det2 (transpose A) = det2 A /\ det3 (transpose A) = det3 A.
Proof. exact det_identity_transpose. Qed.
Print Assumptions C18_det_identity_and_transpose.

Theorem C18_detApIm1 : forall A,
  detApIm1_2 A = det2 (fun i j => A i j + ident i j) - 1 /\ detApIm1_3 A = det3 (fun i j => A i j + ident i j) - 1.
Proof. exact detApIm1_both. Qed.
Print Assumptions C18_detApIm1.

(** the inverse of duals carries the derivative of the inverse *)
Theorem C18_dual_inverse2 : forall (A : R -> mat) dA (t0 : R),
  (forall i j, (i < 2)%nat -> (j < 2)%nat -> is_derive (fun t => A t i j) t0 (dA i j)) -> det2 (A t0) <> 0 ->
  exists B, locally t0 (fun t => inv2 (A t) = Some (B t)) /\
    forall i j, (i < 2)%nat -> (j < 2)%nat -> is_derive (fun t => B t i j) t0 (inv_grad 2 (B t0) dA i j).
Proof. exact inv2_derivative. Qed.
Print Assumptions C18_dual_inverse2.
Theorem C18_dual_inverse3 : forall (A : R -> mat) dA (t0 : R),
  (forall i j, (i < 3)%nat -> (j < 3)%nat -> is_derive (fun t => A t i j) t0 (dA i j)) -> det3 (A t0) <> 0 ->
  exists B, locally t0 (fun t => inv3 (A t) = Some (B t)) /\
    forall i j, (i < 3)%nat -> (j < 3)%nat -> is_derive (fun t => B t i j) t0 (inv_grad 3 (B t0) dA i j).
Proof. exact inv3_derivative. Qed.
Print Assumptions C18_dual_inverse3.

Example C18_example : det3 (mat3 2 1 0 1 3 1 0 1 4) = 18.
Proof. exact det3_example. Qed.
Example C18_curve_example : let A := fun t : R => mat2 (1 + t) t 0 2 in
  det2 (A 0) <> 0 /\ forall i j, (i < 2)%nat -> (j < 2)%nat -> is_derive (fun t => A t i j) 0 (mat2 1 1 0 0 i j).
Proof. exact curve_example. Qed.

(** C19.  Whatever the size, an answer is a solution, and the only one.  Partial: for an invertible matrix an answer
    need not be produced (see the refutation); it is for every invertible 2x2 matrix and for every strictly column
    diagonally dominant matrix of any size. *)
Theorem C19_answer_solves_partial : forall n A b x, linear_solve n A b = Some x ->
  (forall i, (i < n)%nat -> mvec n A x i = b i) /\
  (forall y, (forall i, (i < n)%nat -> mvec n A y i = b i) -> forall i, (i < n)%nat -> y i = x i).
Proof. exact answer_solves. Qed.
Print Assumptions C19_answer_solves_partial.

Theorem C19_every_invertible_2x2 : forall A b, det2 A <> 0 ->
  exists x, linear_solve 2 A b = Some x /\ forall i, (i < 2)%nat -> mvec 2 A x i = b i.
Proof. exact linear_solve_2. Qed.
Print Assumptions C19_every_invertible_2x2.

Theorem C19_every_dominant_matrix_partial : forall n A b,
  (forall j, (j < n)%nat -> sumn n (fun i => if Nat.eqb i j then 0 else Rabs (A i j)) < Rabs (A j j)) ->
  exists x, linear_solve n A b = Some x /\ forall i, (i < n)%nat -> mvec n A x i = b i.
Proof. exact linear_solve_dominant. Qed.
Print Assumptions C19_every_dominant_matrix_partial.

(** an invertible 3x3 matrix on which the elimination divides by zero: rows are ordered before elimination starts, so a
    zero that appears in a pivot later is not avoided *)
Theorem C19_some_invertible_3x3_refuted :
  exists A, (exists B, meq 3 (mmul 3 A B) ident /\ meq 3 (mmul 3 B A) ident) /\ forall b, linear_solve 3 A b = None.
Proof. exact invertible_but_unsolved. Qed.
Print Assumptions C19_some_invertible_3x3_refuted.

(** symmetry and positive definiteness do not help: the same happens for [[1,2,1],[2,8,4],[1,4,10]] *)
Theorem C19_positive_definite_refuted : exists A : mat,
  (forall i j, (i < 3)%nat -> (j < 3)%nat -> A i j = A j i) /\
  (forall x, (exists i, (i < 3)%nat /\ x i <> 0) -> 0 < sumn 3 (fun i => x i * mvec 3 A x i)) /\
  forall b, linear_solve 3 A b = None.
Proof. exact positive_but_unsolved. Qed.
Print Assumptions C19_positive_definite_refuted.

(** exactly when an answer is produced: rows are put in an order [P] in which each diagonal entry is the largest of its
    column among the rows below, by the entries of the original matrix; then every leading block must be regular *)
Theorem C19_answers_exactly : forall n A b, exists P,
  ((forall i, (i < n)%nat -> (P i < n)%nat) /\ (forall r, (r < n)%nat -> exists i, (i < n)%nat /\ P i = r)) /\
  (forall i r, (i < r < n)%nat -> Rabs (A (P r) i) <= Rabs (A (P i) i)) /\
  ((exists x, linear_solve n A b = Some x) <->
   forall k, (k <= n)%nat -> forall x : vec, (forall i, (i < k)%nat -> sumn k (fun j => A (P i) j * x j) = 0) -> forall j, (j < k)%nat -> x j = 0).
Proof. exact solved_exactly. Qed.
Print Assumptions C19_answers_exactly.

(** whether an answer is produced does not depend on the right-hand side *)
Theorem C19_any_right_hand_side : forall n A b x b', linear_solve n A b = Some x -> exists x', linear_solve n A b' = Some x'.
Proof. exact linear_solve_any_rhs. Qed.
Print Assumptions C19_any_right_hand_side.

(** the n x n inverse built by solving for the columns of the identity is two-sided *)
Theorem C19_inverse_by_columns_partial : forall n A b x, linear_solve n A b = Some x ->
  exists B, (forall j, (j < n)%nat -> exists c, inv_column n A j = Some c /\ forall i, (i < n)%nat -> B i j = c i) /\
    meq n (mmul n A B) ident /\ meq n (mmul n B A) ident.
Proof. exact solve_inverse. Qed.
Print Assumptions C19_inverse_by_columns_partial.

(** with dual arguments: any curve of solutions has the returned value and derivative *)
Theorem C19_dual_solution_partial : forall n (A : R -> mat) dA (b : R -> vec) db (X : R -> vec) (t0 : R) x dx,
  (forall i j, (i < n)%nat -> (j < n)%nat -> is_derive (fun t => A t i j) t0 (dA i j)) ->
  (forall i, (i < n)%nat -> is_derive (fun t => b t i) t0 (db i)) ->
  locally t0 (fun t => forall i, (i < n)%nat -> mvec n (A t) (X t) i = b t i) ->
  linear_solve_dual n (A t0) dA (b t0) db = Some (x, dx) ->
  forall i, (i < n)%nat -> X t0 i = x i /\ is_derive (fun t => X t i) t0 (dx i).
Proof. exact linear_solve_derivative. Qed.
Print Assumptions C19_dual_solution_partial.

Example C19_dominant_example : forall j, (j < 3)%nat ->
  sumn 3 (fun i => if Nat.eqb i j then 0 else Rabs (mat3 2 1 0 1 3 1 0 1 4 i j)) < Rabs (mat3 2 1 0 1 3 1 0 1 4 j j).
Proof. exact dominant_example. Qed.
(** rows are exchanged here *)
Example C19_pivoting_example : exists x, linear_solve 2 (mat2 0 2 3 1) (fun i => match i with O => 4 | _ => 5 end) = Some x /\
  x 0%nat = 1 /\ x 1%nat = 2.
Proof. exact pivoting_example. Qed.

(** C20 *)
Theorem C20_sym_antisym : forall A i j,
  sym A i j + antisym A i j = A i j /\ sym A i j = sym A j i /\ antisym A i j = - antisym A j i.
Proof. exact sym_antisym_all. Qed.
Print Assumptions C20_sym_antisym.

Theorem C20_sym_antisym_orthogonal : forall n A B, inner n n (sym A) (antisym B) = 0.
Proof. exact inner_sym_antisym. Qed.
Print Assumptions C20_sym_antisym_orthogonal.

Theorem C20_dev_spherical : forall n A, (0 < n)%nat ->
  (forall i j, dev n A i j + tr n A / INR n * ident i j = A i j) /\ tr n (dev n A) = 0 /\
  (forall B, inner n n (dev n A) (fun i j => tr n B / INR n * ident i j) = 0) /\
  squared_norm n n A = squared_norm n n (dev n A) + tr n A * tr n A / INR n.
Proof. exact dev_spherical_all. Qed.
Print Assumptions C20_dev_spherical.

Theorem C20_isotropic_rank4 : forall n c1 c2 c3 A i j, (i < n)%nat -> (j < n)%nat ->
  iso4_double_dot n c1 c2 c3 A i j = sumn n (fun k => sumn n (fun l => iso4 c1 c2 c3 i j k l * A k l)).
Proof. exact iso4_contraction. Qed.
Print Assumptions C20_isotropic_rank4.

Theorem C20_isotropic_rank2 : forall n v A, iso2_double_dot n v A = inner n n (iso2 v) A.
Proof. exact iso2_apply. Qed.
Print Assumptions C20_isotropic_rank2.

Theorem C20_isotropic_rank3 : forall v,
  iso3 v 0 1 2 = v /\ iso3 v 1 2 0 = v /\ iso3 v 2 0 1 = v /\
  iso3 v 0 2 1 = - v /\ iso3 v 2 1 0 = - v /\ iso3 v 1 0 2 = - v /\
  forall i j k, (i = j \/ j = k \/ k = i)%nat -> iso3 v i j k = 0.
Proof. exact iso3_levi_civita. Qed.
Print Assumptions C20_isotropic_rank3.

Example C20_example : dev 3 (mat3 3 1 2 0 6 1 5 4 0) 0%nat 0%nat = 0 /\ tr 3 (mat3 3 1 2 0 6 1 5 4 0) = 9 /\
  antisym (mat3 3 1 2 0 6 1 5 4 0) 0%nat 1%nat = 0.5.
Proof. exact dev_example. Qed.
