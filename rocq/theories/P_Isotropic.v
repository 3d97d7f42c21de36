(** Property theorems C86 (zero, isotropic and dense tensors in one expression). *)
From Coq Require Import Reals List.
From Verif Require Import Sums Tensor Isotropic IsotropicProof.
Local Open Scope R_scope.

(** An expression whose variables are held as zeros, isotropic tensors or dense tensors: where index notation gives it a
    value, the program, if it compiles, divides by no zero and returns something that stands for that value.  Missing:
    expressions that write [*] with a dense tensor on the left and an isotropic one on the right (see C86_refuted). *)
Theorem C86_partial : forall n rho sigma, (0 < n)%nat -> (forall k, stands n (rho k) (projT1 (sigma k)) (projT2 (sigma k))) ->
  forall e t s, means n sigma e t s -> plain n rho e ->
  match eval n rho e with Value v => stands n v t s | Absent => True | Undefined => False end.
Proof. exact means_ok. Qed.
Print Assumptions C86_partial.

(** with every variable a number or a dense tensor the program always compiles, and returns the value *)
Theorem C86_dense : forall n rho sigma, n = 2%nat \/ n = 3%nat -> (forall k, stands n (rho k) (projT1 (sigma k)) (projT2 (sigma k))) -> (forall k, dense (rho k)) ->
  forall e t s, means n sigma e t s -> (exists v, eval n rho e = Value v /\ dense v /\ stands n v t s) /\ plain n rho e.
Proof. exact dense_ok. Qed.
Print Assumptions C86_dense.

(** Hooke's law written with the isotropic identity, for every displacement gradient *)
Example C86_nonvacuous : forall H l m2, exists s v,
  (forall k, stands 3 (hooke_values H l m2 k) (projT1 (hooke_meanings H l m2 k)) (projT2 (hooke_meanings H l m2 k))) /\
  means 3 (hooke_meanings H l m2) hooke Matr s /\ plain 3 (hooke_values H l m2) hooke /\ eval 3 (hooke_values H l m2) hooke = Value v /\
  (forall i j, (i < 3)%nat -> (j < 3)%nat -> s i j = l * (H 0%nat 0%nat + H 1%nat 1%nat + H 2%nat 2%nat) * delta i j + m2 * ((H i j + H j i) / 2)).
Proof. exact hooke_case. Qed.
Print Assumptions C86_nonvacuous.

Example C86_dense_nonvacuous : forall H l m2, (forall k, dense (hooke_dense H l m2 k)) /\
  (forall k, stands 3 (hooke_dense H l m2 k) (projT1 (hooke_meanings H l m2 k)) (projT2 (hooke_meanings H l m2 k))) /\
  exists s, means 3 (hooke_meanings H l m2) hooke Matr s.
Proof. exact hooke_dense_case. Qed.
Print Assumptions C86_dense_nonvacuous.

(** a quotient or an inverse is only returned where there is one: the divisor is not zero, and the inverse returned is one *)
Theorem C86_quotient : forall n rho a b v w t x y r, eval n rho a = Value v -> eval n rho b = Value w -> stands n v t x -> stands n w Scal y -> v <> Zero ->
  eval n rho (E2 Div a b) = Value r -> y <> 0.
Proof. exact quotient_defined. Qed.
Print Assumptions C86_quotient.
Theorem C86_inverse : forall n rho a v x r, eval n rho a = Value v -> stands n v Matr x -> eval n rho (E1 Inv a) = Value r ->
  exists y, stands n r Matr y /\ forall i j, (i < n)%nat -> (j < n)%nat -> sumn n (fun k => x i k * y k j) = delta i j.
Proof. exact inverse_defined. Qed.
Print Assumptions C86_inverse.
Example C86_defined_nonvacuous : eval 3 (fun _ => Num 2) (E2 Div (Var 0) (Var 1)) = Value (Num (2 / 2)) /\ eval 3 (fun _ => Num 0) (E2 Div (Var 0) (Var 1)) = Undefined /\
  eval 3 (fun _ => Iso 2) (E1 Inv (Var 0)) = Value (Iso (1 / 2)) /\ eval 3 (fun _ => Iso 0) (E1 Inv (Var 0)) = Undefined.
Proof. exact defined_case. Qed.

(** antisym(A * I) is zero although A has an antisymmetric part *)
Theorem C86_refuted : exists (s : sem Matr) v,
  (forall k, stands 2 (nested_values k) (projT1 (nested_meanings k)) (projT2 (nested_meanings k))) /\
  means 2 nested_meanings nested Matr s /\ eval 2 nested_values nested = Value v /\ ~ stands 2 v Matr s /\ s 0%nat 1%nat = 1 /\ v = Zero.
Proof. exact nested_wrong. Qed.
Print Assumptions C86_refuted.

(** dot(inv(A * I), x) is not the product of the inverse with x *)
Theorem C86_inverse_refuted : exists (s : sem Vect) x,
  (forall k, stands 2 (recip_values k) (projT1 (recip_meanings k)) (projT2 (recip_meanings k))) /\
  means 2 recip_meanings recip Vect s /\ eval 2 recip_values recip = Value (Vec x) /\ s 0%nat = 1 /\ x 0%nat = 2.
Proof. exact recip_wrong. Qed.
Print Assumptions C86_inverse_refuted.
