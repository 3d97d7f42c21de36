(** * The tangents of the elastic materials (C89) *)
From Coq Require Import NArith ZArith Reals List Lia Lra Bool.
From Coquelicot Require Import Coquelicot.
From Verif Require Import Prelude DofCodec Sums Restriction Kernels FunctionalModel Assembly Dual LUDeriv Tensor MatAlg Materials MaterialFacts ShapeAware WeakForm WeakFormFacts WeakFormPhysics WeakFormWork Fit Ode Energy EnergySolid EnergyRun StoredEnergy StoredEnergyUse SymmetricTangent TracedInv.
Import ListNotations.
Local Open Scope R_scope.

(** ** specification: the tangents *)
Definition sym_part (A : mat) : mat := mscal 0.5 (madd A (transpose A)).
(** small strains: lambda tr D tr E + 2 G sym D : sym E *)
Definition tangent_linear {St} (n : nat) (lambda G : R) (_ : St) (_ D E : mat) : R :=
  lambda * (tr n D * tr n E) + 2 * G * inner n n (sym_part D) (sym_part E).
(** St. Venant-Kirchhoff: the stress in the directions of D and E, and the law on the rates of Green's strain *)
Definition tangent_stvk {St} (n : nat) (K G : R) (_ : St) (H D E : mat) : R :=
  inner n n (mmul n D (svk_S n K G H)) E
  + K * (tr n (mmul n (transpose (defgrad H)) D) * tr n (mmul n (transpose (defgrad H)) E))
  + 2 * G * inner n n (dev n (sym_part (mmul n (transpose (defgrad H)) D))) (dev n (sym_part (mmul n (transpose (defgrad H)) E))).
(** Neo-Hookean: G D : E + lambda tr(F^-1 D) tr(F^-1 E) + (G - lambda ln J) tr(F^-1 D F^-1 E) *)
Definition tangent_neo {St} (n : nat) (lambda G : R) (_ : St) (H D E : mat) : R :=
  match invn n (defgrad H) with
  | Some B => G * inner n n D E + lambda * (tr n (mmul n B D) * tr n (mmul n B E))
      + (G - lambda * ln (detn n (defgrad H))) * tr n (mmul n (mmul n B D) (mmul n B E))
  | None => 0 end.

(** ** they are symmetric *)
Lemma linear_symmetric St n lambda G : symmetric_tangent (tangent_linear (St := St) n lambda G).
Proof. intros st H D E. unfold tangent_linear. rewrite (inner_comm n (sym_part D)). ring. Qed.
Lemma inner_stress_swap n S D E : symmetric n S -> inner n n (mmul n D S) E = inner n n (mmul n E S) D.
Proof.
  intros HS. unfold inner, mmul. apply sumn_ext. intros i _.
  rewrite (sumn_ext n _ (fun j => sumn n (fun k => D i k * S k j * E i j))) by (intros; now rewrite sumn_scal_r).
  rewrite sumn_swap. apply sumn_ext. intros k Hk. rewrite <- sumn_scal_r. apply sumn_ext. intros j Hj. assert (Q : S k j = S j k) by (exact (HS j k Hj Hk)). rewrite Q. ring.
Qed.
Lemma stvk_tangent_symmetric St n K G : symmetric_tangent (tangent_stvk (St := St) n K G).
Proof.
  intros st H D E. unfold tangent_stvk. rewrite (inner_stress_swap n _ D E (svk_S_symmetric n K G H)), (inner_comm n (dev n _)). ring.
Qed.
Lemma neo_tangent_symmetric St n lambda G : symmetric_tangent (tangent_neo (St := St) n lambda G).
Proof.
  intros st H D E. unfold tangent_neo. destruct (invn n (defgrad H)) as [B|]; [|reflexivity]. rewrite (inner_comm n D), (tr_mul_comm n (mmul n B D)). ring.
Qed.

(** ** they are the tangents *)
Lemma inner_derive n (P : R -> mat) dP E t0 : mderive n P t0 dP -> is_derive (fun t => inner n n (P t) E) t0 (inner n n dP E).
Proof.
  intros H. unfold inner. refine (d_sumn (fun t i => sumn n (fun j => P t i j * E i j)) n t0 _ _). intros i Hi.
  refine (d_sumn (fun t j => P t i j * E i j) n t0 _ _). intros j Hj. apply d_scal_r. now apply H.
Qed.
Lemma inner_derive_near n (P Q : R -> mat) dQ E t0 : locally t0 (fun t => meq n (Q t) (P t)) -> mderive n Q t0 dQ -> is_derive (fun t => inner n n (P t) E) t0 (inner n n dQ E).
Proof.
  intros L H. refine (is_derive_ext_loc _ _ _ _ _ (inner_derive n Q dQ E t0 H)). apply filter_imp with (2 := L). intros t Et. now apply inner_meq.
Qed.
Lemma spherical_derive n (c : R -> R) d t0 : is_derive c t0 d -> mderive n (fun t => mscal (c t) ident) t0 (mscal d ident).
Proof. intros H i j _ _. unfold mscal. now apply d_scal_r. Qed.
Lemma sym_trace n A : tr n (sym_part A) = tr n A.
Proof. unfold tr. apply sumn_ext. intros i _. unfold sym_part, mscal, madd, transpose. lra. Qed.
Lemma sym_symmetric n A : symmetric n (sym_part A).
Proof. intros i j _ _. unfold transpose, sym_part, mscal, madd, transpose. ring. Qed.

Lemma inner_sym n A E : symmetric n A -> inner n n A (sym_part E) = inner n n A E.
Proof. apply inner_sym_part. Qed.

Theorem linear_tangent St n rho lambda G : dim23 n -> has_tangent n (SMaterial false rho (fun (_ : St) H => Some (iso_stress n lambda G H))) (tangent_linear n lambda G).
Proof.
  intros Dm st H t0 D E P HD L. cbn beta in L. assert (HE := small_strain_derive n H t0 D HD).
  assert (HQ : mderive n (fun t => iso_stress n lambda G (H t)) t0 (madd (mscal (lambda * tr n (sym_part D)) ident) (mscal (2 * G) (sym_part D)))).
  { unfold iso_stress. apply madd_derive; [|apply mscal_derive; exact HE]. apply spherical_derive. apply d_scal. exact (tr_derive n _ t0 _ HE). }
  refine (d_ext _ _ _ _ (inner_derive_near n P _ _ E t0 _ HQ) _).
  - apply filter_imp with (2 := L). intros t (s & Es & EF). injection Es as <-.
    apply (flux_unique n false (iso_stress n lambda G (H t)) (H t) (P t) _ Dm EF).
    assert (HP := small_piola (St := unit) n Dm false rho (fun _ H0 => Some (iso_stress n lambda G H0)) tt (H t) eq_refl ltac:(discriminate)). cbn [is_piola] in HP.
    destruct HP as (s & E0 & HP). injection E0 as <-. exact HP.
  - unfold tangent_linear. rewrite inner_add_l, !inner_scal_l, inner_ident_l, sym_trace. rewrite (inner_sym n (sym_part D) E) by (apply sym_symmetric). ring.
Qed.

Lemma defgrad_flux n H : meq n (fun i j => ident i j + H i j) (defgrad H).
Proof. intros i j _ _. unfold defgrad, madd. ring. Qed.
Lemma finite_flux n s H P Q : dim23 n -> flux n true s H = Some P -> meq n (mmul n Q (transpose (defgrad H))) (mscal (detn n (defgrad H)) s) -> meq n Q P.
Proof.
  intros Dm EF HQ. apply (flux_unique n true s H P Q Dm EF). cbn [andb]. rewrite (detn_ext n _ _ Dm (defgrad_flux n H)). rewrite <- HQ.
  apply mmul_proper; [reflexivity|]. apply transpose_proper. exact (defgrad_flux n H).
Qed.
Theorem stvk_tangent St n rho K G : dim23 n -> has_tangent n (SMaterial true rho (fun (_ : St) H => stvk n K G H)) (tangent_stvk n K G).
Proof.
  intros Dm st H t0 D E P HD L. cbn beta in L. assert (Hn : (0 < n)%nat) by (dims Dm; lia). assert (HE := green_derive n H t0 D HD). fold (sym_part (mmul n (transpose (defgrad (H t0))) D)) in HE.
  set (dE := sym_part (mmul n (transpose (defgrad (H t0))) D)) in *.
  assert (HS : mderive n (fun t => svk_S n K G (H t)) t0 (madd (mscal (K * tr n dE) ident) (mscal (2 * G) (dev n dE)))).
  { unfold svk_S. apply madd_derive; [|apply mscal_derive, dev_derive; exact HE]. apply spherical_derive. apply d_scal. exact (tr_derive n _ t0 _ HE). }
  assert (HQ := mmul_derive n (fun t => defgrad (H t)) (fun t => svk_S n K G (H t)) t0 _ _ (defgrad_derive n H t0 D HD) HS).
  refine (d_ext _ _ _ _ (inner_derive_near n P _ _ E t0 _ HQ) _).
  - apply filter_imp with (2 := L). intros t (s & Es & EF). apply (finite_flux n s (H t) (P t) _ Dm EF).
    unfold stvk, push in Es. destruct (Req_EM_T (detn n (defgrad (H t))) 0) as [|NZ]; [discriminate|]. injection Es as <-.
    intros i j _ _. unfold mscal. field. exact NZ.
  - unfold tangent_stvk. rewrite inner_add_l, inner_mul_l with (S := madd _ _), inner_add_l, !inner_scal_l, inner_ident_l.
    fold dE. rewrite inner_dev_dev by exact Hn. rewrite (inner_sym n (dev n dE)) by (apply dev_symmetric, sym_symmetric).
    unfold dE at 1. rewrite sym_trace. ring.
Qed.

Theorem neo_tangent St n rho lambda G : dim23 n -> has_tangent n (SMaterial true rho (fun (_ : St) H => neo n lambda G H)) (tangent_neo n lambda G).
Proof.
  intros Dm st H t0 D E P HD L. cbn beta in L. destruct (locally_singleton _ _ L) as (s0 & Es0 & _). destruct (neo_some n lambda G _ s0 Dm Es0) as (J0 & _).
  assert (FD := defgrad_derive n H t0 D HD).
  destruct (invn_derivative n (fun t => defgrad (H t)) D t0 Dm FD ltac:(lra)) as (B & LB & DB).
  assert (EB : invn n (defgrad (H t0)) = Some (B t0)) by exact (locally_singleton _ _ LB).
  assert (LD := d_ln_det n H t0 D (B t0) Dm EB HD J0).
  set (c := fun t => lambda * ln (detn n (defgrad (H t))) - G).
  assert (HC : is_derive c t0 (lambda * tr n (mmul n (B t0) D))).
  { unfold c. refine (d_ext _ _ _ _ (d_minus _ _ t0 _ _ (d_scal lambda _ t0 _ LD) (d_const G t0)) _). ring. }
  assert (HQ : mderive n (fun t => madd (mscal G (defgrad (H t))) (fun i j => c t * B t j i)) t0
    (madd (mscal G D) (fun i j => lambda * tr n (mmul n (B t0) D) * B t0 j i + c t0 * inv_grad n (B t0) D j i))).
  { apply madd_derive; [apply mscal_derive; exact FD|]. intros i j Hi Hj. apply (d_mult c (fun t => B t j i)); [exact HC|]. now apply DB. }
  refine (d_ext _ _ _ _ (inner_derive_near n P _ _ E t0 _ HQ) _).
  - assert (LL := filter_and _ _ L LB). apply filter_imp with (2 := LL). clear L LB LL. intros t ((s & Es & EF) & EBt).
    apply (finite_flux n s (H t) (P t) _ Dm EF). destruct (neo_some n lambda G _ s Dm Es) as (J & Hs). destruct (invn_some n _ _ Dm EBt) as (B1 & B2 & NZ).
    assert (BT : meq n (mmul n (transpose (B t)) (transpose (defgrad (H t)))) ident).
    { rewrite <- transpose_mul, B1. apply transpose_ident. }
    change (fun i j => c t * B t j i) with (mscal (c t) (transpose (B t))).
    rewrite mmul_add_l, !mmul_scal_l, BT, Hs, b_alt. intros i j _ _. unfold mscal, madd, msub, c. field. exact NZ.
  - unfold tangent_neo. rewrite EB. rewrite inner_add_l, inner_scal_l.
    assert (Q1 : inner n n (fun i j => lambda * tr n (mmul n (B t0) D) * B t0 j i + c t0 * inv_grad n (B t0) D j i) E =
      lambda * tr n (mmul n (B t0) D) * inner n n (transpose (B t0)) E + c t0 * inner n n (transpose (inv_grad n (B t0) D)) E).
    { rewrite <- !inner_scal_l, <- inner_add_l. reflexivity. }
    rewrite Q1, <- tr_inner, <- tr_inner.
    assert (Q2 : tr n (mmul n (inv_grad n (B t0) D) E) = - tr n (mmul n (mmul n (B t0) D) (mmul n (B t0) E))).
    { assert (IG : meq n (inv_grad n (B t0) D) (mscal (-1) (mmul n (mmul n (B t0) D) (B t0)))).
      { intros i j _ _. unfold inv_grad, mscal, mmul. rewrite (sumn_swap n n). 
        rewrite (sumn_ext n (fun k => sumn n (fun k0 => B t0 i k0 * D k0 k) * B t0 k j) (fun k => sumn n (fun k0 => B t0 i k0 * D k0 k * B t0 k j))) by (intros; now rewrite <- sumn_scal_r). ring. }
      rewrite IG, mmul_scal_l, mmul_assoc. unfold tr. rewrite <- sumn_opp. apply sumn_ext. intros i _. unfold mscal. ring. }
    rewrite Q2. unfold c. ring.
Qed.
