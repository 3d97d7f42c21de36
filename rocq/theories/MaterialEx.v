(** * Concrete cases for the material theorems *)
From Coq Require Import Reals Lra Lia Bool.
From Coquelicot Require Import Coquelicot.
From Verif Require Import Sums Dual Tensor LU LUDeriv MatAlg Materials MaterialFacts.
Local Open Scope R_scope.

Definition shear2 : mat := mat2 0 1 0 0.
Lemma det_shear2 : detn 2 (defgrad shear2) = 1.
Proof. unfold detn, det2, defgrad, shear2, mat2, madd, ident. cbn [Nat.eqb]. ring. Qed.

(** simple shear of a neo-Hookean square: sigma = G (B - I) *)
Lemma neo_shear : exists s, neo 2 1 2 shear2 = Some s /\ s 0%nat 0%nat = 2 /\ s 0%nat 1%nat = 2 /\ s 1%nat 0%nat = 2 /\ s 1%nat 1%nat = 0.
Proof.
  assert (Dm : dim23 2) by now left.
  destruct (neo_defined 2 1 2 shear2 Dm) as [s E]; [rewrite det_shear2; lra|]. exists s. split; [exact E|].
  destruct (neo_some 2 1 2 shear2 s Dm E) as [_ H]. rewrite det_shear2, ln_1 in H.
  repeat split; (rewrite H by lia); unfold mscal, madd, b_minus_i, madd, mmul, transpose, shear2, mat2, ident; cbn [sumn Nat.eqb]; lra.
Qed.
Lemma stvk_shear : exists s, stvk 2 3 1 shear2 = Some s /\ s 0%nat 1%nat <> 0.
Proof.
  unfold stvk, push. rewrite det_shear2. destruct (Req_EM_T 1 0); [lra|]. eexists. split; [reflexivity|].
  unfold mscal, mmul, svk_S, defgrad, dev, tr, green_strain, mscal, madd, mmul, transpose, shear2, mat2, ident.
  cbn [sumn Nat.eqb INR]. lra.
Qed.
Lemma quarter_turn : rotation 2 (mat2 0 (-1) 1 0).
Proof.
  split; [|split].
  1,2: intros i j Hi Hj; destruct i as [|[|i]]; try lia; destruct j as [|[|j]]; try lia;
    unfold mmul, transpose, mat2, ident; cbn [sumn Nat.eqb]; ring.
  unfold detn, det2, mat2. cbn [Nat.eqb]. ring.
Qed.
(** the curve of growing shears *)
Lemma shear_curve (t0 : R) : mderive 2 (fun t => mat2 0 t 0 0) t0 shear2.
Proof.
  intros i j Hi Hj. destruct i as [|[|i]]; try lia; destruct j as [|[|j]]; try lia; unfold shear2, mat2; cbn.
  - apply d_const.
  - apply d_id.
  - apply d_const.
  - apply d_const.
Qed.
Lemma shear_curve_zero : meq 2 (mat2 0 0 0 0) zero.
Proof. intros i j Hi Hj. destruct i as [|[|i]]; try lia; destruct j as [|[|j]]; try lia; reflexivity. Qed.

(** a heated thermoelastic body at rest pushes back with pressure 3 K alpha dtheta *)
Definition rubber : gsv := {| g_E := 1; g_nu := 0; g_Cv := 2; g_alpha := 1; g_theta_ref := 1; g_k := 1 |}.
Lemma gsv_heated : exists out, gsv_response rubber 0 zero 2 (fun _ => 1) = Some out /\ o_stress out 0%nat 0%nat = -1 /\ o_source out = 0.
Proof.
  unfold gsv_response, push. destruct (finite_moduli_dec (g_nu rubber)) as [_|X]; [|elim X; unfold finite_moduli; cbn [g_nu rubber]; split; lra].
  assert (D1 : detn 3 (defgrad zero) = 1).
  { rewrite (detn_ext 3 _ _ (or_intror eq_refl) (defgrad_zero 3)). apply detn_ident. now right. }
  rewrite D1. destruct (Req_EM_T 1 0); [lra|]. eexists. split; [reflexivity|]. cbn [o_stress o_source].
  unfold mscal, mmul, gsv_S, defgrad, dev, tr, green_strain, mscal, madd, mmul, transpose, zero, ident, rubber, bulk, shear.
  cbn [sumn Nat.eqb INR g_E g_nu g_alpha g_theta_ref]. lra.
Qed.
