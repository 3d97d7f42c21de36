(** * Small dense tensors (C18, C20, and the inverse rule of C15)

    /repo/src/serac/numerics/functional/tensor.hpp and isotropic_tensor.hpp.  A [tensor<double, m, n>] is a function
    of its indices, only entries below the extents are meaningful.  Doubles are real numbers. *)
From Coq Require Import Reals Lra Lia Bool.
From Verif Require Import Sums.
Local Open Scope R_scope.

Notation mat := (nat -> nat -> R) (only parsing).
Notation vec := (nat -> R) (only parsing).

(** equality of the meaningful entries *)
Definition meq (n : nat) (A B : mat) : Prop := forall i j, (i < n)%nat -> (j < n)%nat -> A i j = B i j.

(** tensor.hpp:1197-1208 DenseIdentity: [(i == j)] *)
Definition ident : mat := fun i j => if Nat.eqb i j then 1 else 0.
(** tensor.hpp:706-718 dot(matrix, matrix), 808-820 dot(matrix, vector), 758-770 dot(vector, matrix) *)
Definition mmul (n : nat) (A B : mat) : mat := fun i j => sumn n (fun k => A i k * B k j).
Definition mvec (n : nat) (A : mat) (x : vec) : vec := fun i => sumn n (fun j => A i j * x j).
Definition vmat (m : nat) (x : vec) (B : mat) : vec := fun i => sumn m (fun j => x j * B j i).
(** tensor.hpp:744-752 dot(vector, vector) *)
Definition vdot (n : nat) (x y : vec) : R := sumn n (fun i => x i * y i).
(** tensor.hpp:645-655 outer *)
Definition outer (a b : vec) : mat := fun i j => a i * b j.
(** tensor.hpp:666-676 inner, 982-994 double_dot of two matrices *)
Definition inner (m n : nat) (A B : mat) : R := sumn m (fun i => sumn n (fun j => A i j * B i j)).
(** tensor.hpp:1018-1030 squared_norm, 1043-1049 norm *)
Definition squared_norm (m n : nat) (A : mat) : R := sumn m (fun i => sumn n (fun j => A i j * A i j)).
Definition norm (m n : nat) (A : mat) : R := sqrt (squared_norm m n A).
(** tensor.hpp:1087-1096 tr *)
Definition tr (n : nat) (A : mat) : R := sumn n (fun i => A i i).
(** tensor.hpp:1103-1113 sym, 1120-1130 antisym *)
Definition sym (A : mat) : mat := fun i j => 0.5 * (A i j + A j i).
Definition antisym (A : mat) : mat := fun i j => 0.5 * (A i j - A j i).
(** tensor.hpp:1139-1148 dev: subtract trA / n from the diagonal entries *)
Definition dev (n : nat) (A : mat) : mat := fun i j => if Nat.eqb i j then A i j - tr n A / INR n else A i j.
(** tensor.hpp:1214-1224 transpose *)
Definition transpose (A : mat) : mat := fun i j => A j i.
(** tensor.hpp:944-958 double_dot of a fourth-order tensor and a matrix *)
Definition double_dot4 (n : nat) (C : nat -> nat -> nat -> nat -> R) (B : mat) : mat :=
  fun i j => sumn n (fun k => sumn n (fun l => C i j k l * B k l)).

(** tensor.hpp:1241-1253 det *)
Definition det2 (A : mat) : R := A 0%nat 0%nat * A 1%nat 1%nat - A 0%nat 1%nat * A 1%nat 0%nat.
Definition det3 (A : mat) : R :=
  A 0%nat 0%nat * A 1%nat 1%nat * A 2%nat 2%nat + A 0%nat 1%nat * A 1%nat 2%nat * A 2%nat 0%nat
  + A 0%nat 2%nat * A 1%nat 0%nat * A 2%nat 1%nat - A 0%nat 0%nat * A 1%nat 2%nat * A 2%nat 1%nat
  - A 0%nat 1%nat * A 1%nat 0%nat * A 2%nat 2%nat - A 0%nat 2%nat * A 1%nat 1%nat * A 2%nat 0%nat.

(** tensor.hpp:1265-1295 detApIm1 *)
Definition detApIm1_2 (A : mat) : R :=
  A 0%nat 0%nat - A 0%nat 1%nat * A 1%nat 0%nat + A 1%nat 1%nat + A 0%nat 0%nat * A 1%nat 1%nat.
Definition detApIm1_3 (A : mat) : R :=
  A 0%nat 0%nat + A 1%nat 1%nat + A 2%nat 2%nat
  - A 0%nat 1%nat * A 1%nat 0%nat * (1 + A 2%nat 2%nat)
  + A 0%nat 0%nat * A 1%nat 1%nat * (1 + A 2%nat 2%nat)
  - A 0%nat 2%nat * A 2%nat 0%nat * (1 + A 1%nat 1%nat)
  - A 1%nat 2%nat * A 2%nat 1%nat * (1 + A 0%nat 0%nat)
  + A 0%nat 0%nat * A 2%nat 2%nat
  + A 1%nat 1%nat * A 2%nat 2%nat
  + A 0%nat 1%nat * A 1%nat 2%nat * A 2%nat 0%nat
  + A 0%nat 2%nat * A 1%nat 0%nat * A 2%nat 1%nat.
(** tensor.hpp:1230-1235 I2 *)
Definition inv2_3 (A : mat) : R :=
  A 0%nat 0%nat * A 1%nat 1%nat + A 1%nat 1%nat * A 2%nat 2%nat + A 2%nat 2%nat * A 0%nat 0%nat
  - A 0%nat 1%nat * A 1%nat 0%nat - A 1%nat 2%nat * A 2%nat 1%nat - A 2%nat 0%nat * A 0%nat 2%nat.

(** tensor.hpp:1592-1604 inv of a 2x2 matrix and 1610-1627 of a 3x3 matrix.  [None]: the division 1.0 / det(A) does
    not give a number. *)
Definition mat2 (a b c d : R) : mat := fun i j =>
  match i, j with O, O => a | O, _ => b | _, O => c | _, _ => d end.
Definition mat3 (a b c d e f g h k : R) : mat := fun i j =>
  match i, j with
  | O, O => a | O, S O => b | O, _ => c
  | S O, O => d | S O, S O => e | S O, _ => f
  | _, O => g | _, S O => h | _, _ => k
  end.
Definition inv2_raw (A : mat) : mat :=
  let s := 1 / det2 A in
  mat2 (A 1%nat 1%nat * s) (- A 0%nat 1%nat * s) (- A 1%nat 0%nat * s) (A 0%nat 0%nat * s).
Definition inv3_raw (A : mat) : mat :=
  let s := 1 / det3 A in
  mat3 ((A 1%nat 1%nat * A 2%nat 2%nat - A 1%nat 2%nat * A 2%nat 1%nat) * s)
       ((A 0%nat 2%nat * A 2%nat 1%nat - A 0%nat 1%nat * A 2%nat 2%nat) * s)
       ((A 0%nat 1%nat * A 1%nat 2%nat - A 0%nat 2%nat * A 1%nat 1%nat) * s)
       ((A 1%nat 2%nat * A 2%nat 0%nat - A 1%nat 0%nat * A 2%nat 2%nat) * s)
       ((A 0%nat 0%nat * A 2%nat 2%nat - A 0%nat 2%nat * A 2%nat 0%nat) * s)
       ((A 0%nat 2%nat * A 1%nat 0%nat - A 0%nat 0%nat * A 1%nat 2%nat) * s)
       ((A 1%nat 0%nat * A 2%nat 1%nat - A 1%nat 1%nat * A 2%nat 0%nat) * s)
       ((A 0%nat 1%nat * A 2%nat 0%nat - A 0%nat 0%nat * A 2%nat 1%nat) * s)
       ((A 0%nat 0%nat * A 1%nat 1%nat - A 0%nat 1%nat * A 1%nat 0%nat) * s).
Definition inv2 (A : mat) : option mat := if Req_EM_T (det2 A) 0 then None else Some (inv2_raw A).
Definition inv3 (A : mat) : option mat := if Req_EM_T (det3 A) 0 then None else Some (inv3_raw A).

(** isotropic_tensor.hpp: rank 2 (value on the diagonal), rank 3 (multiple of the Levi-Civita symbol) and rank 4 *)
Definition iso2 (v : R) : mat := fun i j => (if Nat.eqb i j then 1 else 0) * v.
Definition iso3 (v : R) (i j k : nat) : R :=
  0.5 * (INR i - INR j) * (INR j - INR k) * (INR k - INR i) * v.
Definition iso4 (c1 c2 c3 : R) (i j k l : nat) : R :=
  c1 * ident i j * ident k l + c2 * (ident i k * ident j l + ident i l * ident j k) * 0.5
  + c3 * (ident i k * ident j l - ident i l * ident j k) * 0.5.
(** isotropic_tensor.hpp double_dot(isotropic rank 4, matrix): I.c1 * tr(A) * Identity + I.c2 * sym(A) + I.c3 * antisym(A) *)
Definition iso4_double_dot (n : nat) (c1 c2 c3 : R) (A : mat) : mat :=
  fun i j => c1 * tr n A * ident i j + c2 * sym A i j + c3 * antisym A i j.
(** isotropic_tensor.hpp: double_dot(isotropic rank 2, matrix), dot, tr, squared_norm, inv *)
Definition iso2_double_dot (n : nat) (v : R) (A : mat) : R := v * tr n A.

(** ** 2x2 and 3x3 *)
Ltac small := repeat match goal with
  | H : (?i < 0)%nat |- _ => lia
  | H : (?i < S _)%nat |- _ => is_var i; destruct i as [|i]; [clear H|apply PeanoNat.Nat.succ_lt_mono in H] end.
Ltac calc := unfold mmul, ident, inv2_raw, inv3_raw, mat2, mat3; cbn [sumn Nat.eqb].

Lemma inv2_mul A B : inv2 A = Some B -> meq 2 (mmul 2 A B) ident /\ meq 2 (mmul 2 B A) ident.
Proof.
  unfold inv2. destruct (Req_EM_T (det2 A) 0) as [|N]; [discriminate|]. intros E. injection E as <-.
  split; intros i j Hi Hj; small; calc; unfold det2 in *; field; exact N.
Qed.

Lemma inv3_mul A B : inv3 A = Some B -> meq 3 (mmul 3 A B) ident /\ meq 3 (mmul 3 B A) ident.
Proof.
  unfold inv3. destruct (Req_EM_T (det3 A) 0) as [|N]; [discriminate|]. intros E. injection E as <-.
  split; intros i j Hi Hj; small; calc; unfold det3 in *; field; exact N.
Qed.

Lemma det2_mul A B : det2 (mmul 2 A B) = det2 A * det2 B.
Proof. unfold det2, mmul; cbn [sumn]; ring. Qed.
Lemma det3_mul A B : det3 (mmul 3 A B) = det3 A * det3 B.
Proof. unfold det3, mmul; cbn [sumn]; ring. Qed.
Lemma det2_ident : det2 ident = 1.
Proof. unfold det2, ident; cbn [Nat.eqb]; ring. Qed.
Lemma det3_ident : det3 ident = 1.
Proof. unfold det3, ident; cbn [Nat.eqb]; ring. Qed.
Lemma det2_ext A B : meq 2 A B -> det2 A = det2 B.
Proof. intros H. unfold det2. rewrite !H by lia. reflexivity. Qed.
Lemma det3_ext A B : meq 3 A B -> det3 A = det3 B.
Proof. intros H. unfold det3. rewrite !H by lia. reflexivity. Qed.
Lemma det2_transpose A : det2 (transpose A) = det2 A.
Proof. unfold det2, transpose. ring. Qed.
Lemma det3_transpose A : det3 (transpose A) = det3 A.
Proof. unfold det3, transpose. ring. Qed.

Lemma inv2_defined A : (exists B, inv2 A = Some B) <-> det2 A <> 0.
Proof. unfold inv2. destruct (Req_EM_T (det2 A) 0); split; intros H; try contradiction; eauto. destruct H; discriminate. Qed.
Lemma inv3_defined A : (exists B, inv3 A = Some B) <-> det3 A <> 0.
Proof. unfold inv3. destruct (Req_EM_T (det3 A) 0); split; intros H; try contradiction; eauto. destruct H; discriminate. Qed.

Lemma inverse2_det A B : meq 2 (mmul 2 A B) ident -> det2 A <> 0.
Proof. intros H Z. apply det2_ext in H. rewrite det2_mul, det2_ident, Z in H. lra. Qed.
Lemma inverse3_det A B : meq 3 (mmul 3 A B) ident -> det3 A <> 0.
Proof. intros H Z. apply det3_ext in H. rewrite det3_mul, det3_ident, Z in H. lra. Qed.

Lemma detApIm1_2_ok A : detApIm1_2 A = det2 (fun i j => A i j + ident i j) - 1.
Proof. unfold detApIm1_2, det2, ident; cbn [Nat.eqb]; ring. Qed.
Lemma detApIm1_3_ok A : detApIm1_3 A = det3 (fun i j => A i j + ident i j) - 1.
Proof. unfold detApIm1_3, det3, ident; cbn [Nat.eqb]; ring. Qed.

(** ** any dimension *)
Lemma mmul_ident_l n A : meq n (mmul n ident A) A.
Proof.
  intros i j Hi Hj. unfold mmul, ident. rewrite (sumn_ext n _ (fun k => if Nat.eqb k i then A k j else 0)).
  - now rewrite sumn_delta.
  - intros k _. rewrite (PeanoNat.Nat.eqb_sym i k). destruct (Nat.eqb k i); ring.
Qed.
Lemma mmul_ident_r n A : meq n (mmul n A ident) A.
Proof.
  intros i j Hi Hj. unfold mmul, ident. rewrite (sumn_ext n _ (fun k => if Nat.eqb k j then A i k else 0)).
  - now rewrite sumn_delta.
  - intros k _. destruct (Nat.eqb k j); ring.
Qed.
Lemma mmul_assoc n A B C : meq n (mmul n (mmul n A B) C) (mmul n A (mmul n B C)).
Proof.
  intros i j _ _. unfold mmul. rewrite (sumn_ext n _ (fun k => sumn n (fun l => A i l * B l k * C k j))).
  2:{ intros k _. now rewrite sumn_scal_r. }
  rewrite sumn_swap. apply sumn_ext. intros l _. rewrite <- sumn_scal_l. apply sumn_ext. intros k _. ring.
Qed.
Lemma mmul_ext n A A' B B' : meq n A A' -> meq n B B' -> meq n (mmul n A B) (mmul n A' B').
Proof. intros HA HB i j Hi Hj. apply sumn_ext. intros k Hk. rewrite HA, HB by assumption. reflexivity. Qed.
Lemma meq_trans n A B C : meq n A B -> meq n B C -> meq n A C.
Proof. intros H K i j Hi Hj. now rewrite H, K. Qed.
Lemma meq_sym n A B : meq n A B -> meq n B A.
Proof. intros H i j Hi Hj. now rewrite H. Qed.

(** a left inverse and a right inverse coincide *)
Lemma inverse_unique n A B C : meq n (mmul n B A) ident -> meq n (mmul n A C) ident -> meq n B C.
Proof.
  intros HB HC. eapply meq_trans; [apply meq_sym, mmul_ident_r|].
  eapply meq_trans; [apply mmul_ext; [intros ? ? _ _; reflexivity|apply meq_sym, HC]|].
  eapply meq_trans; [apply meq_sym, mmul_assoc|].
  eapply meq_trans; [apply mmul_ext; [exact HB|intros ? ? _ _; reflexivity]|]. apply mmul_ident_l.
Qed.

Lemma sym_antisym A i j : sym A i j + antisym A i j = A i j.
Proof. unfold sym, antisym. lra. Qed.
Lemma sym_symmetric A i j : sym A i j = sym A j i.
Proof. unfold sym. lra. Qed.
Lemma antisym_antisymmetric A i j : antisym A i j = - antisym A j i.
Proof. unfold antisym. lra. Qed.

Lemma inner_sym_antisym n A B : inner n n (sym A) (antisym B) = 0.
Proof.
  assert (H : inner n n (sym A) (antisym B) = - inner n n (sym A) (antisym B)); [|lra].
  unfold inner at 1. rewrite sumn_swap. unfold inner. rewrite <- sumn_opp. apply sumn_ext. intros i _.
  rewrite <- sumn_opp. apply sumn_ext. intros j _. unfold sym, antisym. lra.
Qed.

Lemma dev_spherical n A i j : dev n A i j + tr n A / INR n * ident i j = A i j.
Proof. unfold dev, ident. destruct (Nat.eqb i j); ring. Qed.

Lemma tr_dev n A : (0 < n)%nat -> tr n (dev n A) = 0.
Proof.
  intros Hn. unfold tr at 1, dev. rewrite (sumn_ext n _ (fun i => A i i - tr n A / INR n)).
  2:{ intros i _. now rewrite PeanoNat.Nat.eqb_refl. }
  rewrite sumn_minus, sumn_const. fold (tr n A). field. apply not_0_INR. lia.
Qed.

Lemma inner_ident n B s : inner n n (fun i j => s * ident i j) B = s * tr n B.
Proof.
  unfold inner, tr. rewrite <- sumn_scal_l. apply sumn_ext. intros i Hi.
  rewrite (sumn_ext n _ (fun j => if Nat.eqb j i then s * B i j else 0)).
  - now rewrite sumn_delta.
  - intros j _. unfold ident. rewrite (PeanoNat.Nat.eqb_sym i j). destruct (Nat.eqb j i); ring.
Qed.

Lemma inner_comm n A B : inner n n A B = inner n n B A.
Proof. unfold inner. apply sumn_ext; intros i _. apply sumn_ext; intros j _. ring. Qed.

Lemma inner_dev_spherical n A B : (0 < n)%nat ->
  inner n n (dev n A) (fun i j => tr n B / INR n * ident i j) = 0.
Proof. intros Hn. rewrite inner_comm, inner_ident, tr_dev by exact Hn. ring. Qed.

Lemma squared_norm_split n A : (0 < n)%nat ->
  squared_norm n n A = squared_norm n n (dev n A) + tr n A * tr n A / INR n.
Proof.
  intros Hn. assert (N : INR n <> 0) by (apply not_0_INR; lia).
  assert (E : squared_norm n n A = squared_norm n n (dev n A)
     + 2 * inner n n (dev n A) (fun i j => tr n A / INR n * ident i j)
     + inner n n (fun i j => tr n A / INR n * ident i j) (fun i j => tr n A / INR n * ident i j)).
  { unfold squared_norm, inner. rewrite <- sumn_scal_l, <- !sumn_plus. apply sumn_ext; intros i _.
    rewrite <- sumn_scal_l, <- !sumn_plus. apply sumn_ext; intros j _. rewrite <- (dev_spherical n A i j) at 1 2. ring. }
  assert (T : forall s, tr n (fun i j => s * ident i j) = INR n * s).
  { intros s. unfold tr. rewrite <- sumn_const. apply sumn_ext. intros i _. unfold ident.
    rewrite PeanoNat.Nat.eqb_refl. ring. }
  rewrite E, inner_dev_spherical, inner_ident, T by exact Hn. field. exact N.
Qed.

Lemma sumn_ident n (f : nat -> R) k : (k < n)%nat -> sumn n (fun i => ident i k * f i) = f k.
Proof.
  intros H. rewrite (sumn_ext n _ (fun i => if Nat.eqb i k then f i else 0)); [now apply sumn_delta|].
  intros i _. unfold ident. destruct (Nat.eqb i k); ring.
Qed.
Lemma ident_comm i j : ident i j = ident j i.
Proof. unfold ident. now rewrite PeanoNat.Nat.eqb_sym. Qed.

Lemma iso4_apply n c1 c2 c3 A : meq n (iso4_double_dot n c1 c2 c3 A) (double_dot4 n (iso4 c1 c2 c3) A).
Proof.
  intros i j Hi Hj. unfold double_dot4.
  assert (E1 : sumn n (fun k => sumn n (fun l => ident k l * A k l)) = tr n A).
  { unfold tr. apply sumn_ext; intros k Hk. rewrite (sumn_ext n _ (fun l => ident l k * A k l)).
    - now apply (sumn_ident n (fun l => A k l)).
    - intros l _. now rewrite ident_comm. }
  assert (E2 : forall p q, (p < n)%nat -> (q < n)%nat ->
                sumn n (fun k => sumn n (fun l => ident p k * ident q l * A k l)) = A p q).
  { intros p q Hp Hq. rewrite (sumn_ext n _ (fun k => ident k p * A k q)); [now apply (sumn_ident n (fun k => A k q))|].
    intros k _. rewrite (sumn_ext n _ (fun l => ident l q * (ident k p * A k l))).
    - now rewrite (sumn_ident n (fun l => ident k p * A k l)) by exact Hq.
    - intros l _. rewrite (ident_comm p k), (ident_comm q l). ring. }
  rewrite (sumn_ext n _ (fun k => c1 * ident i j * sumn n (fun l => ident k l * A k l)
     + ((c2 + c3) * 0.5 * sumn n (fun l => ident i k * ident j l * A k l)
     + (c2 - c3) * 0.5 * sumn n (fun l => ident j k * ident i l * A k l)))).
  - rewrite !sumn_plus, !sumn_scal_l, E1, !E2 by assumption. unfold iso4_double_dot, sym, antisym. lra.
  - intros k _. rewrite <- !sumn_scal_l, <- !sumn_plus. apply sumn_ext. intros l _. unfold iso4. lra.
Qed.

Lemma iso2_apply n v A : iso2_double_dot n v A = inner n n (iso2 v) A.
Proof.
  unfold iso2_double_dot. rewrite <- inner_ident. unfold inner. apply sumn_ext; intros i _.
  apply sumn_ext; intros j _. unfold iso2, ident. ring.
Qed.

(** the rank-3 isotropic tensor is the Levi-Civita symbol *)
Lemma iso3_levi_civita v : 
  iso3 v 0 1 2 = v /\ iso3 v 1 2 0 = v /\ iso3 v 2 0 1 = v /\
  iso3 v 0 2 1 = - v /\ iso3 v 2 1 0 = - v /\ iso3 v 1 0 2 = - v /\
  forall i j k, (i = j \/ j = k \/ k = i)%nat -> iso3 v i j k = 0.
Proof.
  unfold iso3. simpl. repeat split; try lra. intros i j k H. destruct H as [H|[H|H]]; rewrite H; ring.
Qed.
