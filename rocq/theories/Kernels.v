(** * Element kernels: interpolation, q-function derivative, integration
    Models, for one element, evaluation / action_of_gradient / element_gradient kernels of
    domain_integral_kernels.hpp:152-361 and boundary_integral_kernels.hpp:159-325, in terms of
    finite_element<..>::interpolate / batch_apply_shape_fn / integrate (detail/triangle_H1.inl:242-334).
    A trial (or test) function at a quadrature point is the family of its value (slot 0) and its dim
    parent-space derivatives (slots 1..dim) for each component.  Real arithmetic; sums may be
    reassociated.  QoI: one test function, identically 1, with dim 0 (detail/qoi.inl).  Boundary integrals:
    the flux slots of the test output are zero (boundary_integral_kernels.hpp:119, 220). *)
From Coq Require Import Reals List Lra Lia Arith.
From Verif Require Import Sums.
Import ListNotations.
Local Open Scope R_scope.

(** One element type of one space at a fixed quadrature rule: components, nodes, and slot [a] of node
    function [k] at quadrature point [q]. *)
Record elem_space := { es_c : nat; es_n : nat; es_B : nat -> nat -> nat -> R }.

Definition slots := nat -> nat -> R.                       (* component, slot *)
Definition local := nat -> nat -> R.                       (* component, node *)
Definition deriv := nat -> nat -> nat -> nat -> R.         (* test comp, test slot, trial comp, trial slot *)

(** interpolate (triangle_H1.inl:269-290) *)
Definition interpolate (S : elem_space) (X : local) (q : nat) : slots :=
  fun i a => sumn (es_n S) (fun k => X i k * es_B S k q a).

(** integrate (triangle_H1.inl:292-334); [dim1] = dim + 1 slots, [w] quadrature weights *)
Definition integrate (S : elem_space) (dim1 nq : nat) (w : nat -> R) (out : nat -> slots) : local :=
  fun i k => sumn nq (fun q => sumn dim1 (fun b => out q i b * es_B S k q b) * w q).

(** chain_rule (domain_integral_kernels.hpp:223-237; boundary 207-213) *)
Definition chain_rule (T : elem_space) (dim1 : nat) (D : deriv) (v : slots) : slots :=
  fun i b => sumn (es_c T) (fun j => sumn dim1 (fun a => D i b j a * v j a)).

(** action_of_gradient_kernel, one element (hpp:294-303) *)
Definition jvp (S T : elem_space) (dim1 nq : nat) (w : nat -> R) (D : nat -> deriv) (X : local) : local :=
  integrate S dim1 nq w (fun q => chain_rule T dim1 (D q) (interpolate T X q)).

(** batch_apply_shape_fn (triangle_H1.inl:242-266): node function J of trial component j *)
Definition shape_fn (T : elem_space) (dim1 : nat) (D : deriv) (q j J : nat) : slots :=
  fun i b => sumn dim1 (fun a => D i b j a * es_B T J q a).

(** element_gradient_kernel, one element (hpp:344-360): entry (trial comp j, trial node J; test i, k) *)
Definition elem_grad (S T : elem_space) (dim1 nq : nat) (w : nat -> R) (D : nat -> deriv) (j J : nat) : local :=
  integrate S dim1 nq w (fun q => shape_fn T dim1 (D q) q j J).

Lemma jvp_elem_grad S T dim1 nq w D X i k :
  jvp S T dim1 nq w D X i k = sumn (es_c T) (fun j => sumn (es_n T) (fun J => elem_grad S T dim1 nq w D j J i k * X j J)).
Proof.
  unfold jvp, elem_grad, integrate, chain_rule, shape_fn, interpolate.
  transitivity (sumn nq (fun q => sumn (es_c T) (fun j => sumn (es_n T) (fun J =>
     sumn dim1 (fun b => sumn dim1 (fun a => D q i b j a * es_B T J q a) * es_B S k q b) * w q * X j J)))).
  - apply sumn_ext. intros q _.
    rewrite (sumn_ext dim1 _ (fun b => sumn (es_c T) (fun j => sumn (es_n T) (fun J =>
       sumn dim1 (fun a => D q i b j a * es_B T J q a) * es_B S k q b * X j J)))).
    + rewrite sumn_swap, <- sumn_scal_r. apply sumn_ext. intros j _. rewrite sumn_swap, <- sumn_scal_r.
      apply sumn_ext. intros J _.
      rewrite (sumn_scal_r dim1 (X j J)). ring.
    + intros b _. rewrite <- sumn_scal_r. apply sumn_ext. intros j _.
      rewrite (sumn_ext dim1 _ (fun a => sumn (es_n T) (fun J => D q i b j a * es_B T J q a * X j J))).
      * rewrite sumn_swap, <- sumn_scal_r. apply sumn_ext. intros J _.
        rewrite (sumn_scal_r dim1 (X j J)). ring.
      * intros a _. rewrite <- sumn_scal_l. apply sumn_ext. intros J _. ring.
  - rewrite sumn_swap. apply sumn_ext. intros j _. rewrite sumn_swap. apply sumn_ext. intros J _.
    rewrite <- sumn_scal_r. reflexivity.
Qed.

(** linearity of interpolation *)
Lemma interpolate_lin S X Y e q i a :
  interpolate S (fun j k => X j k + e * Y j k) q i a = interpolate S X q i a + e * interpolate S Y q i a.
Proof.
  unfold interpolate. rewrite <- sumn_scal_l, <- sumn_plus. apply sumn_ext. intros. ring.
Qed.
Lemma interpolate_ext S X Y q i a : (forall k, (k < es_n S)%nat -> X i k = Y i k) -> interpolate S X q i a = interpolate S Y q i a.
Proof. intros H. apply sumn_ext. intros k Hk. now rewrite H. Qed.
Lemma integrate_ext S dim1 nq w o o' i k :
  (forall q b, (q < nq)%nat -> (b < dim1)%nat -> o q i b = o' q i b) -> integrate S dim1 nq w o i k = integrate S dim1 nq w o' i k.
Proof. intros H. apply sumn_ext. intros q Hq. f_equal. apply sumn_ext. intros b Hb. now rewrite H. Qed.
