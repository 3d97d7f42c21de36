(** * Matrix algebra on small tensors used by the material models *)
From Coq Require Import Reals Lra Lia Bool Setoid Morphisms.
From Coquelicot Require Import Coquelicot.
From Verif Require Import Sums Dual Tensor LU LUDeriv.
Local Open Scope R_scope.

(** tensor.hpp:425-438 operator+, 459-472 operator-, 600-640 multiplication by a scalar *)
Definition madd (A B : mat) : mat := fun i j => A i j + B i j.
Definition msub (A B : mat) : mat := fun i j => A i j - B i j.
Definition mscal (c : R) (A : mat) : mat := fun i j => c * A i j.

(** det, inv and detApIm1 are overloaded for 2x2 and 3x3 only: tensor.hpp:1241-1295, 1577-1611.  Other extents do not
    compile; theorems assume [dim23]. *)
Definition dim23 (n : nat) : Prop := n = 2%nat \/ n = 3%nat.
Definition detn (n : nat) (A : mat) : R := if Nat.eqb n 2 then det2 A else det3 A.
Definition invn (n : nat) (A : mat) : option mat := if Nat.eqb n 2 then inv2 A else inv3 A.
Definition detApIm1n (n : nat) (A : mat) : R := if Nat.eqb n 2 then detApIm1_2 A else detApIm1_3 A.

Ltac dims H := destruct H as [H|H]; subst.

#[global] Instance meq_equiv n : Equivalence (meq n).
Proof.
  split.
  - intros A i j _ _. reflexivity.
  - intros A B. apply meq_sym.
  - intros A B C. apply meq_trans.
Qed.
#[global] Instance mmul_proper n : Proper (meq n ==> meq n ==> meq n) (mmul n).
Proof. intros A A' HA B B' HB. now apply mmul_ext. Qed.
#[global] Instance madd_proper n : Proper (meq n ==> meq n ==> meq n) madd.
Proof. intros A A' HA B B' HB i j Hi Hj. unfold madd. now rewrite HA, HB. Qed.
#[global] Instance msub_proper n : Proper (meq n ==> meq n ==> meq n) msub.
Proof. intros A A' HA B B' HB i j Hi Hj. unfold msub. now rewrite HA, HB. Qed.
#[global] Instance mscal_proper n : Proper (eq ==> meq n ==> meq n) mscal.
Proof. intros c c' -> A A' HA i j Hi Hj. unfold mscal. now rewrite HA. Qed.
#[global] Instance transpose_proper n : Proper (meq n ==> meq n) transpose.
Proof. intros A A' HA i j Hi Hj. unfold transpose. now apply HA. Qed.
#[global] Instance tr_proper n : Proper (meq n ==> eq) (tr n).
Proof. intros A A' HA. unfold tr. apply sumn_ext. intros i Hi. now apply HA. Qed.
#[global] Instance dev_proper n : Proper (meq n ==> meq n) (dev n).
Proof.
  intros A A' HA i j Hi Hj. unfold dev. rewrite (tr_proper n A A' HA). rewrite (HA i j Hi Hj). reflexivity.
Qed.
#[global] Instance inner_proper n : Proper (meq n ==> meq n ==> eq) (inner n n).
Proof.
  intros A A' HA B B' HB. unfold inner. apply sumn_ext. intros i Hi. apply sumn_ext. intros j Hj. now rewrite HA, HB.
Qed.

Lemma transpose_mul n A B : meq n (transpose (mmul n A B)) (mmul n (transpose B) (transpose A)).
Proof. intros i j _ _. unfold transpose, mmul. apply sumn_ext. intros; ring. Qed.
Lemma transpose_twice A : transpose (transpose A) = A.
Proof. reflexivity. Qed.
Lemma transpose_add A B : transpose (madd A B) = madd (transpose A) (transpose B).
Proof. reflexivity. Qed.
Lemma transpose_scal c A : transpose (mscal c A) = mscal c (transpose A).
Proof. reflexivity. Qed.
Lemma transpose_ident n : meq n (transpose ident) ident.
Proof. intros i j _ _. unfold transpose. apply ident_comm. Qed.
Lemma mmul_scal_l n c A B : meq n (mmul n (mscal c A) B) (mscal c (mmul n A B)).
Proof. intros i j _ _. unfold mmul, mscal. rewrite <- sumn_scal_l. apply sumn_ext. intros; ring. Qed.
Lemma mmul_scal_r n c A B : meq n (mmul n A (mscal c B)) (mscal c (mmul n A B)).
Proof. intros i j _ _. unfold mmul, mscal. rewrite <- sumn_scal_l. apply sumn_ext. intros; ring. Qed.
Lemma mmul_add_l n A B C : meq n (mmul n (madd A B) C) (madd (mmul n A C) (mmul n B C)).
Proof. intros i j _ _. unfold mmul, madd. rewrite <- sumn_plus. apply sumn_ext. intros; ring. Qed.
Lemma mmul_add_r n A B C : meq n (mmul n A (madd B C)) (madd (mmul n A B) (mmul n A C)).
Proof. intros i j _ _. unfold mmul, madd. rewrite <- sumn_plus. apply sumn_ext. intros; ring. Qed.
Lemma mmul_sub_l n A B C : meq n (mmul n (msub A B) C) (msub (mmul n A C) (mmul n B C)).
Proof. intros i j _ _. unfold mmul, msub. rewrite <- sumn_minus. apply sumn_ext. intros; ring. Qed.
Lemma mmul_sub_r n A B C : meq n (mmul n A (msub B C)) (msub (mmul n A B) (mmul n A C)).
Proof. intros i j _ _. unfold mmul, msub. rewrite <- sumn_minus. apply sumn_ext. intros; ring. Qed.

Lemma tr_mul_comm n A B : tr n (mmul n A B) = tr n (mmul n B A).
Proof.
  unfold tr, mmul. rewrite sumn_swap. apply sumn_ext. intros i _. apply sumn_ext. intros; ring.
Qed.
Lemma inner_tr n A B : inner n n A B = tr n (mmul n (transpose A) B).
Proof. unfold inner, tr, mmul, transpose. now rewrite sumn_swap. Qed.
Lemma tr_transpose n A : tr n (transpose A) = tr n A.
Proof. reflexivity. Qed.
Lemma inner_mul_l n A S B : inner n n (mmul n A S) B = inner n n S (mmul n (transpose A) B).
Proof.
  rewrite !inner_tr. apply tr_proper. rewrite transpose_mul. now rewrite mmul_assoc.
Qed.

(** ** determinants and inverses in 2 and 3 dimensions *)
Lemma invn_some n A B : dim23 n -> invn n A = Some B ->
  meq n (mmul n A B) ident /\ meq n (mmul n B A) ident /\ detn n A <> 0.
Proof.
  intros D E. dims D; unfold invn, detn in *; cbn [Nat.eqb] in *.
  - destruct (inv2_mul A B E) as [H1 H2]. split; [exact H1|]. split; [exact H2|]. apply inv2_defined. now exists B.
  - destruct (inv3_mul A B E) as [H1 H2]. split; [exact H1|]. split; [exact H2|]. apply inv3_defined. now exists B.
Qed.
Lemma invn_works n A : dim23 n -> detn n A <> 0 -> exists B, invn n A = Some B.
Proof. intros D. dims D; unfold invn, detn; cbn [Nat.eqb]; [apply inv2_defined|apply inv3_defined]. Qed.
Lemma detn_mul n A B : dim23 n -> detn n (mmul n A B) = detn n A * detn n B.
Proof. intros D. dims D; [apply det2_mul|apply det3_mul]. Qed.
Lemma detn_ext n A B : dim23 n -> meq n A B -> detn n A = detn n B.
Proof. intros D. dims D; [apply det2_ext|apply det3_ext]. Qed.
Lemma detn_ident n : dim23 n -> detn n ident = 1.
Proof. intros D. dims D; [apply det2_ident|apply det3_ident]. Qed.
Lemma detn_transpose n A : dim23 n -> detn n (transpose A) = detn n A.
Proof. intros D. dims D; [apply det2_transpose|apply det3_transpose]. Qed.
Lemma detApIm1n_ok n A : dim23 n -> detApIm1n n A = detn n (madd A ident) - 1.
Proof. intros D. dims D; [apply detApIm1_2_ok|apply detApIm1_3_ok]. Qed.

(** an inverse on one side is the computed one *)
Lemma invn_unique n A B C : dim23 n -> invn n A = Some B -> meq n (mmul n C A) ident -> meq n C B.
Proof. intros D E H. destruct (invn_some n A B D E) as [H1 _]. exact (inverse_unique n A C B H H1). Qed.

(** derivative of the determinant along any curve *)
Lemma detn_derive n (A : R -> mat) D (t0 : R) B : dim23 n -> invn n (A t0) = Some B ->
  (forall i j, (i < n)%nat -> (j < n)%nat -> is_derive (fun t => A t i j) t0 (D i j)) ->
  is_derive (fun t => detn n (A t)) t0 (detn n (A t0) * tr n (mmul n B D)).
Proof.
  intros Dm E HA. dims Dm; unfold invn, detn in *; cbn [Nat.eqb] in *.
  - unfold inv2 in E. destruct (Req_EM_T (det2 (A t0)) 0) as [|N]; [discriminate|]. injection E as <-.
    eapply d_ext.
    + unfold det2. apply (d_minus (fun t => A t 0%nat 0%nat * A t 1%nat 1%nat) (fun t => A t 0%nat 1%nat * A t 1%nat 0%nat)).
      * apply (d_mult (fun t => A t 0%nat 0%nat) (fun t => A t 1%nat 1%nat)); apply HA; lia.
      * apply (d_mult (fun t => A t 0%nat 1%nat) (fun t => A t 1%nat 0%nat)); apply HA; lia.
    + unfold tr, mmul, inv2_raw, mat2. cbn [sumn]. unfold det2 in *. field. exact N.
  - unfold inv3 in E. destruct (Req_EM_T (det3 (A t0)) 0) as [|N]; [discriminate|]. injection E as <-.
    assert (M : forall i j k l p q, (i < 3)%nat -> (j < 3)%nat -> (k < 3)%nat -> (l < 3)%nat -> (p < 3)%nat -> (q < 3)%nat ->
        is_derive (fun t => A t i j * A t k l * A t p q) t0
          ((D i j * A t0 k l + A t0 i j * D k l) * A t0 p q + A t0 i j * A t0 k l * D p q)).
    { intros i j k l p q H1 H2 H3 H4 H5 H6.
      apply (d_mult (fun t => A t i j * A t k l) (fun t => A t p q)); [|now apply HA].
      apply (d_mult (fun t => A t i j) (fun t => A t k l)); now apply HA. }
    eapply d_ext.
    + unfold det3.
      exact (d_minus _ _ _ _ _ (d_minus _ _ _ _ _ (d_minus _ _ _ _ _ (d_plus _ _ _ _ _ (d_plus _ _ _ _ _
        (M 0 0 1 1 2 2 ltac:(lia) ltac:(lia) ltac:(lia) ltac:(lia) ltac:(lia) ltac:(lia))%nat
        (M 0 1 1 2 2 0 ltac:(lia) ltac:(lia) ltac:(lia) ltac:(lia) ltac:(lia) ltac:(lia))%nat)
        (M 0 2 1 0 2 1 ltac:(lia) ltac:(lia) ltac:(lia) ltac:(lia) ltac:(lia) ltac:(lia))%nat)
        (M 0 0 1 2 2 1 ltac:(lia) ltac:(lia) ltac:(lia) ltac:(lia) ltac:(lia) ltac:(lia))%nat)
        (M 0 1 1 0 2 2 ltac:(lia) ltac:(lia) ltac:(lia) ltac:(lia) ltac:(lia) ltac:(lia))%nat)
        (M 0 2 1 1 2 0 ltac:(lia) ltac:(lia) ltac:(lia) ltac:(lia) ltac:(lia) ltac:(lia))%nat).
    + unfold tr, mmul, inv3_raw, mat3. cbn [sumn]. unfold det3 in *. field. exact N.
Qed.

(** ** curves of tensors *)
Definition mderive (n : nat) (A : R -> mat) (t0 : R) (D : mat) : Prop :=
  forall i j, (i < n)%nat -> (j < n)%nat -> is_derive (fun t => A t i j) t0 (D i j).

Lemma d_scal (c : R) (f : R -> R) x l : is_derive f x l -> is_derive (fun t => c * f t) x (c * l).
Proof. intros H. eapply d_ext; [apply (d_mult (fun _ => c) f); [apply d_const|exact H]|ring]. Qed.

Lemma tr_derive n A t0 D : mderive n A t0 D -> is_derive (fun t => tr n (A t)) t0 (tr n D).
Proof. intros H. unfold tr. apply (d_sumn (fun t i => A t i i)). intros i Hi. now apply H. Qed.
Lemma squared_norm_derive n A t0 D : mderive n A t0 D ->
  is_derive (fun t => squared_norm n n (A t)) t0 (2 * inner n n (A t0) D).
Proof.
  intros H. eapply d_ext.
  - unfold squared_norm. apply (d_sumn (fun t i => sumn n (fun j => A t i j * A t i j)) n t0
      (fun i => sumn n (fun j => D i j * A t0 i j + A t0 i j * D i j))). intros i Hi.
    apply (d_sumn (fun t j => A t i j * A t i j) n t0 (fun j => D i j * A t0 i j + A t0 i j * D i j)). intros j Hj.
    apply (d_mult (fun t => A t i j) (fun t => A t i j)); now apply H.
  - unfold inner. rewrite <- sumn_scal_l. apply sumn_ext. intros i _. rewrite <- sumn_scal_l. apply sumn_ext. intros j _. ring.
Qed.
Lemma madd_derive n A B t0 D E : mderive n A t0 D -> mderive n B t0 E -> mderive n (fun t => madd (A t) (B t)) t0 (madd D E).
Proof. intros HA HB i j Hi Hj. unfold madd. apply d_plus; [now apply HA|now apply HB]. Qed.
Lemma mscal_derive n c A t0 D : mderive n A t0 D -> mderive n (fun t => mscal c (A t)) t0 (mscal c D).
Proof. intros HA i j Hi Hj. unfold mscal. apply d_scal. now apply HA. Qed.
Lemma transpose_derive n A t0 D : mderive n A t0 D -> mderive n (fun t => transpose (A t)) t0 (transpose D).
Proof. intros HA i j Hi Hj. unfold transpose. now apply HA. Qed.
Lemma mmul_derive n A B t0 D E : mderive n A t0 D -> mderive n B t0 E ->
  mderive n (fun t => mmul n (A t) (B t)) t0 (madd (mmul n D (B t0)) (mmul n (A t0) E)).
Proof.
  intros HA HB i j Hi Hj. unfold mmul, madd. rewrite <- sumn_plus.
  apply (d_sumn (fun t k => A t i k * B t k j) n t0 (fun k => D i k * B t0 k j + A t0 i k * E k j)). intros k Hk.
  apply (d_mult (fun t => A t i k) (fun t => B t k j)); [now apply HA|now apply HB].
Qed.
Lemma mconst_derive n C t0 : mderive n (fun _ => C) t0 (fun _ _ => 0).
Proof. intros i j _ _. apply d_const. Qed.
Lemma mderive_ext n A t0 D D' : mderive n A t0 D -> meq n D D' -> mderive n A t0 D'.
Proof. intros H E i j Hi Hj. rewrite <- (E i j Hi Hj). now apply H. Qed.
Lemma mderive_value n (A : R -> mat) C t0 D : (forall t, meq n (A t) (C t)) -> mderive n A t0 D -> mderive n C t0 D.
Proof.
  intros E H i j Hi Hj. apply (is_derive_ext (fun t => A t i j)); [intros t; exact (E t i j Hi Hj)|exact (H i j Hi Hj)].
Qed.

Lemma dev_derive n A t0 D : mderive n A t0 D -> mderive n (fun t => dev n (A t)) t0 (dev n D).
Proof.
  intros H i j Hi Hj. unfold dev. destruct (Nat.eqb i j); [|now apply H].
  apply d_minus; [now apply H|]. unfold Rdiv. eapply d_ext.
  - apply (d_mult (fun t => tr n (A t)) (fun _ => / INR n)); [exact (tr_derive n A t0 D H)|apply d_const].
  - ring.
Qed.
