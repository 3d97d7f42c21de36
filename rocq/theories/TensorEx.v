(** Combined statements and examples for C18-C20. *)
From Coq Require Import Reals Lra Lia.
From Coquelicot Require Import Coquelicot.
From Verif Require Import Sums Tensor LU LUDeriv Dual.
Local Open Scope R_scope.

Lemma inv2_works A : det2 A <> 0 -> exists B, inv2 A = Some B /\ meq 2 (mmul 2 A B) ident /\ meq 2 (mmul 2 B A) ident.
Proof. intros D. apply inv2_defined in D. destruct D as [B E]. exists B. split; [exact E|exact (inv2_mul A B E)]. Qed.
Lemma inv3_works A : det3 A <> 0 -> exists B, inv3 A = Some B /\ meq 3 (mmul 3 A B) ident /\ meq 3 (mmul 3 B A) ident.
Proof. intros D. apply inv3_defined in D. destruct D as [B E]. exists B. split; [exact E|exact (inv3_mul A B E)]. Qed.
Lemma inv2_singular A : det2 A = 0 -> inv2 A = None /\ ~ exists B, meq 2 (mmul 2 A B) ident.
Proof.
  intros D. split.
  - unfold inv2. destruct (Req_EM_T (det2 A) 0); [reflexivity|contradiction].
  - intros [B H]. exact (inverse2_det A B H D).
Qed.
Lemma inv3_singular A : det3 A = 0 -> inv3 A = None /\ ~ exists B, meq 3 (mmul 3 A B) ident.
Proof.
  intros D. split.
  - unfold inv3. destruct (Req_EM_T (det3 A) 0); [reflexivity|contradiction].
  - intros [B H]. exact (inverse3_det A B H D).
Qed.
Lemma det_multiplicative A B : det2 (mmul 2 A B) = det2 A * det2 B /\ det3 (mmul 3 A B) = det3 A * det3 B.
Proof. split; [apply det2_mul|apply det3_mul]. Qed.
Lemma det_identity_transpose A :
  det2 ident = 1 /\ det3 ident = 1 /\ det2 (transpose A) = det2 A /\ det3 (transpose A) = det3 A.
Proof. auto using det2_ident, det3_ident, det2_transpose, det3_transpose. Qed.
Lemma detApIm1_both A :
  detApIm1_2 A = det2 (fun i j => A i j + ident i j) - 1 /\ detApIm1_3 A = det3 (fun i j => A i j + ident i j) - 1.
Proof. split; [apply detApIm1_2_ok|apply detApIm1_3_ok]. Qed.

Lemma det3_example : det3 (mat3 2 1 0 1 3 1 0 1 4) = 18.
Proof. unfold det3, mat3. lra. Qed.

Ltac below := repeat match goal with
  | H : (S _ < S _)%nat |- _ => apply PeanoNat.Nat.succ_lt_mono in H
  | H : (_ < 0)%nat |- _ => exfalso; lia
  | H : (?i < S _)%nat |- _ => is_var i; destruct i
  end.

Lemma curve_example : let A := fun t : R => mat2 (1 + t) t 0 2 in
  det2 (A 0) <> 0 /\ forall i j, (i < 2)%nat -> (j < 2)%nat -> is_derive (fun t => A t i j) 0 (mat2 1 1 0 0 i j).
Proof.
  cbv zeta. split; [unfold det2, mat2; lra|]. intros i j Hi Hj. unfold mat2. below.
  - eapply d_ext; [apply d_plus; [apply d_const|apply d_id]|lra].
  all: first [exact (d_const 0 0) | exact (d_const 2 0) | exact (d_id 0)].
Qed.

Lemma answer_solves n A b x : linear_solve n A b = Some x ->
  (forall i, (i < n)%nat -> mvec n A x i = b i) /\
  (forall y, (forall i, (i < n)%nat -> mvec n A y i = b i) -> forall i, (i < n)%nat -> y i = x i).
Proof.
  intros E. split; [exact (linear_solve_ok n A b x E)|]. intros y Hy i Hi. assert (Z : y i - x i = 0); [|lra].
  apply (linear_solve_injective n A b x E (fun i => y i - x i)); [|exact Hi]. intros r Hr. unfold mvec.
  rewrite (sumn_ext n _ (fun j => A r j * y j - A r j * x j)) by (intros; ring). rewrite sumn_minus.
  fold (mvec n A y r) (mvec n A x r). rewrite Hy, (linear_solve_ok n A b x E) by exact Hr. ring.
Qed.

Lemma invertible_but_unsolved :
  exists A, (exists B, meq 3 (mmul 3 A B) ident /\ meq 3 (mmul 3 B A) ident) /\ forall b, linear_solve 3 A b = None.
Proof.
  exists bad3. split; [|exact bad3_fails]. destruct bad3_invertible as [_ [B E]]. exists B. exact (inv3_mul _ _ E).
Qed.

Lemma dominant_example j : (j < 3)%nat ->
  sumn 3 (fun i => if Nat.eqb i j then 0 else Rabs (mat3 2 1 0 1 3 1 0 1 4 i j)) < Rabs (mat3 2 1 0 1 3 1 0 1 4 j j).
Proof.
  intros H. unfold mat3. below; cbn [sumn Nat.eqb]; rewrite ?Rabs_R0, !Rabs_pos_eq by lra; lra.
Qed.

Lemma pivoting_example : exists x, linear_solve 2 (mat2 0 2 3 1) (fun i => match i with O => 4 | _ => 5 end) = Some x /\
  x 0%nat = 1 /\ x 1%nat = 2.
Proof.
  destruct (linear_solve_2 (mat2 0 2 3 1) (fun i => match i with O => 4 | _ => 5 end)) as [x [E H]].
  { unfold det2, mat2. lra. }
  exists x. split; [exact E|]. assert (H0 := H 0%nat ltac:(lia)). assert (H1 := H 1%nat ltac:(lia)).
  unfold mvec, mat2 in *. cbn [sumn] in *. lra.
Qed.

Lemma sym_antisym_all A i j :
  sym A i j + antisym A i j = A i j /\ sym A i j = sym A j i /\ antisym A i j = - antisym A j i.
Proof. auto using sym_antisym, sym_symmetric, antisym_antisymmetric. Qed.

Lemma dev_spherical_all n A : (0 < n)%nat ->
  (forall i j, dev n A i j + tr n A / INR n * ident i j = A i j) /\ tr n (dev n A) = 0 /\
  (forall B, inner n n (dev n A) (fun i j => tr n B / INR n * ident i j) = 0) /\
  squared_norm n n A = squared_norm n n (dev n A) + tr n A * tr n A / INR n.
Proof. intros H. auto using dev_spherical, tr_dev, inner_dev_spherical, squared_norm_split. Qed.

Lemma iso4_contraction n c1 c2 c3 A i j : (i < n)%nat -> (j < n)%nat ->
  iso4_double_dot n c1 c2 c3 A i j = sumn n (fun k => sumn n (fun l => iso4 c1 c2 c3 i j k l * A k l)).
Proof. intros Hi Hj. exact (iso4_apply n c1 c2 c3 A i j Hi Hj). Qed.

Lemma dev_example : dev 3 (mat3 3 1 2 0 6 1 5 4 0) 0%nat 0%nat = 0 /\ tr 3 (mat3 3 1 2 0 6 1 5 4 0) = 9 /\
  antisym (mat3 3 1 2 0 6 1 5 4 0) 0%nat 1%nat = 0.5.
Proof. unfold dev, tr, antisym, mat3. cbn [sumn Nat.eqb INR]. lra. Qed.
