(** * Every implicit step of linear elastodynamics has exactly one answer (C94)
    The equation of a step is the one solved for the acceleration in solid_mechanics.hpp:1172-1186: the residual at the predicted displacement
    u + c0 a and the acceleration a vanishes on the free degrees of freedom.  c0 = 0 is an explicit step. *)
From Coq Require Import NArith ZArith Reals List Lia Lra Bool.
From Verif Require Import Prelude DofCodec Sums Restriction Kernels FunctionalModel Assembly Tensor MatAlg Materials MaterialFacts ShapeAware WeakForm WeakFormFacts WeakFormPhysics WeakFormWork Fit Ode Energy EnergySolid EnergyRun StoredEnergy StoredEnergyUse StiffBody HeatUnique.
Import ListNotations.
Local Open Scope R_scope.

(** ** specification *)
Definition heavy {St} (terms : list (solid_term St)) : Prop := forall on rho sigma, In (SMaterial on rho sigma) terms -> 0 < rho.
Section Spec.
Context {St : Type} (n N : nat) (f : functional St) (m : mem St) (terms : list (solid_term St)) (pos : nat -> nat -> nat -> nat -> vec) (jac : nat -> nat -> nat -> nat -> mat)
  (params : nat -> list R).
(** the motion [v] moves no quadrature point in the material *)
Definition unmoved (v : vec) : Prop := forall k Ig g G r le q on rho sigma,
  nth_error (f_integrals f) k = Some Ig -> nth_error (i_geoms Ig) g = Some G -> nth_error (f_test f (i_type Ig)) g = Some r -> (le < length (gk_elems G))%nat -> (q < gk_nq G)%nat ->
  nth_error terms k = Some (SMaterial on rho sigma) -> forall i, (i < n)%nat -> test_field G r (tab N v) le q i 0%nat = 0.
(** the acceleration [a] at the end of a step from the predicted displacement [u] *)
Definition motion_answer (t c0 : R) (free : nat -> bool) (u g a : vec) : Prop := (forall i, (i < N)%nat -> free i = false -> a i = g i) /\
  exists L, nodal_forces n N f m terms pos jac params t (fun i => u i + c0 * a i) a L /\ forall i, (i < N)%nat -> free i = true -> nth i L 0 = 0.
Definition one_motion (c0 : R) (free : nat -> bool) : Prop := forall t u g, exists a, motion_answer t c0 free u g a /\
  forall a', motion_answer t c0 free u g a' -> forall i, (i < N)%nat -> a' i = a i.
End Spec.

Section Unique.
Context {St : Type} (n N : nat) (f : functional St) (m : mem St) (terms : list (solid_term St)) (pos : nat -> nat -> nat -> nat -> vec) (jac : nat -> nat -> nat -> nat -> mat)
  (params : nat -> list R).
Hypothesis (D : dim23 n) (LE : List.Forall (linear_elastic n) terms) (F : all_fit f) (TS : two_spaces n f) (SE : solid_elements n f terms jac) (SF : stiff n terms) (HV : heavy terms).
Notation K := (stiffness_form n N f m terms jac).
Notation M := (mass_form n N f terms jac).
Let KS : symmetric_form N K := stiffness_symmetric n N f m terms jac LE.
Let MS : symmetric_form N M := mass_symmetric n N f terms jac.

Lemma mass_point k Ig g G r le q v : nth_error (f_integrals f) k = Some Ig -> nth_error (i_geoms Ig) g = Some G -> (le < length (gk_elems G))%nat -> (q < gk_nq G)%nat ->
  let d := match nth_error terms k with Some T => mass_density n T (jac k g le q) (test_field G r (tab N v) le q) (test_field G r (tab N v) le q) | None => 0 end in
  0 <= d * gk_w G q /\ (d * gk_w G q = 0 -> forall on rho sigma, nth_error terms k = Some (SMaterial on rho sigma) -> forall i, (i < n)%nat -> test_field G r (tab N v) le q i 0%nat = 0).
Proof.
  intros E1 E2 Hle Hq. cbv zeta. destruct (nth_error terms k) as [T|] eqn:ET; [|split; [lra|discriminate]]. destruct T as [on rho sigma|b|tr|on p]; cbn [mass_density]; try (split; [lra|discriminate]).
  assert (O := SE k Ig g G le q E1 E2 Hle Hq on rho sigma ET). assert (R := HV on rho sigma (nth_error_In _ _ ET)). set (u := test_field G r (tab N v) le q).
  assert (P : forall i, (i < n)%nat -> 0 <= u i 0%nat * u i 0%nat) by (intros; apply Rle_0_sqr). assert (S0 := sumn_nonneg n _ P).
  match goal with |- 0 <= ?e /\ _ => assert (EE : e = rho * (gk_w G q * detn n (jac k g le q)) * sumn n (fun i => u i 0%nat * u i 0%nat)) by ring end. rewrite EE. clear EE.
  assert (RO : 0 < rho * (gk_w G q * detn n (jac k g le q))) by (now apply Rmult_lt_0_compat). split; [apply Rmult_le_pos; lra|]. intros Z on' rho' sigma' _ i Hi. apply Rmult_integral in Z as [Z|Z]; [lra|].
  assert (Q := sumn_nonneg_zero n _ P Z i Hi). cbv beta in Q. apply Rmult_integral in Q as [Q|Q]; exact Q.
Qed.
(** kinetic energy is never negative and vanishes when no quadrature point moves *)
Theorem mass_definite v : 0 <= M v v /\ (M v v = 0 <-> unmoved n N f terms v).
Proof.
  split; [|split].
  - unfold mass_form. apply over_points_nonneg. intros k Ig g G r le q E1 E2 Hle Hq. exact (proj1 (mass_point k Ig g G r le q v E1 E2 Hle Hq)).
  - intros Z k Ig g G r le q on rho sigma E1 E2 E3 Hle Hq ET. apply (proj2 (mass_point k Ig g G r le q v E1 E2 Hle Hq)) with (on := on) (rho := rho) (sigma := sigma); [|exact ET].
    exact (over_points_terms f _ (fun k Ig g G r le q E1 E2 E3 Hle Hq => proj1 (mass_point k Ig g G r le q v E1 E2 Hle Hq)) Z k Ig g G r le q E1 E2 E3 Hle Hq).
  - intros Z. unfold mass_form. rewrite (over_points_ext f _ (fun _ _ _ _ _ _ _ => 0 * 0 + 0 * 0)).
    + rewrite (over_points_comb f 0 0). ring.
    + intros k Ig g G r le q E1 E2 E3 Hle Hq. destruct (nth_error terms k) as [T|] eqn:ET; [|ring]. destruct T as [on rho sigma|b|tr|on p]; cbn [mass_density]; try ring.
      rewrite (sumn_zero n); [ring|]. intros i Hi.
      rewrite (Z k Ig g G r le q on rho sigma E1 E2 E3 Hle Hq ET i Hi). ring.
Qed.
Lemma motion_entry t x a L i : nodal_forces n N f m terms pos jac params t x a L -> (i < N)%nat -> nth i L 0 = M (unit i) a + K (unit i) x - load_vector n N f terms pos jac t i.
Proof.
  intros (W & RES & wrt & upd & m' & E) Hi. assert (B := solid_balance n N f m terms pos jac params D LE t x a L m' wrt upd W F TS RES E (unit i)).
  assert (U : forall y : vec, dotn N (unit i) y = y i).
  { intros y. unfold dotn, unit. rewrite (sumn_ext N _ (fun j => if Nat.eqb j i then y j else 0)) by (intros j _; destruct (Nat.eqb j i); ring). exact (sumn_delta N i y Hi). }
  rewrite !U in B. lra.
Qed.
Hypothesis (EV : forall t x a, exists L, nodal_forces n N f m terms pos jac params t x a L).
Let SB c0 : symmetric_form N (fun v w => M v w + c0 * K v w).
Proof.
  split.
  - intros x x' y H. now rewrite (form_ext N M MS x x' y H), (form_ext N K KS x x' y H).
  - intros x y z. rewrite (form_add N M MS), (form_add N K KS). ring.
  - intros c x z. rewrite (form_scal N M MS), (form_scal N K KS). ring.
  - intros x y. now rewrite (form_sym N M MS x y), (form_sym N K KS x y).
Qed.
Lemma motion_iff t c0 free u g a : motion_answer n N f m terms pos jac params t c0 free u g a <->
  answer N (fun v w => M v w + c0 * K v w) free (fun i => load_vector n N f terms pos jac t i - K (unit i) u) g a.
Proof.
  split.
  - intros (H & L & HL & Z). split; [exact H|]. intros i Hi Fi. assert (E := motion_entry t _ a L i HL Hi). rewrite (Z i Hi Fi), (form_comb_r N K KS) in E. lra.
  - intros (H & Z). split; [exact H|]. destruct (EV t (fun i => u i + c0 * a i) a) as (L & HL). exists L. split; [exact HL|]. intros i Hi Fi. assert (E := motion_entry t _ a L i HL Hi).
    rewrite (form_comb_r N K KS) in E. specialize (Z i Hi Fi). cbv beta in Z. lra.
Qed.
Lemma one_motion_form c0 free : 0 <= c0 -> (one_motion n N f m terms pos jac params c0 free <->
  forall v, M v v + c0 * K v v = 0 -> (forall i, (i < N)%nat -> free i = false -> v i = 0) -> forall i, (i < N)%nat -> v i = 0).
Proof.
  intros Hc. assert (NN : forall v, 0 <= M v v + c0 * K v v).
  { intros v. assert (A := proj1 (energy_definite n N f m terms jac SE SF v)). assert (B := proj1 (mass_definite v)). assert (0 <= c0 * K v v) by (now apply Rmult_le_pos). lra. }
  split.
  - intros U. destruct (U 0 (fun _ => 0) (fun _ => 0)) as (x & X & UX). apply (one_form N _ (SB c0) NN free (fun i => load_vector n N f terms pos jac 0 i - K (unit i) (fun _ => 0)) (fun _ => 0)).
    exists x. split; [now apply motion_iff|]. intros y Y. apply UX. now apply motion_iff.
  - intros H t u g. destruct (form_one N _ (SB c0) NN free H (fun i => load_vector n N f terms pos jac t i - K (unit i) u) g) as (a & A & U).
    exists a. split; [now apply motion_iff|]. intros a' A'. apply U. now apply motion_iff.
Qed.
(** an implicit step has exactly one answer exactly when no motion leaves strains, quadrature points and supports alone *)
Theorem implicit_step c0 free : 0 < c0 -> (one_motion n N f m terms pos jac params c0 free <->
  forall v, strain_free n N f terms jac v -> unmoved n N f terms v -> (forall i, (i < N)%nat -> free i = false -> v i = 0) -> forall i, (i < N)%nat -> v i = 0).
Proof.
  intros Hc. rewrite one_motion_form by lra. assert (Q : forall v, M v v + c0 * K v v = 0 <-> strain_free n N f terms jac v /\ unmoved n N f terms v).
  { intros v. destruct (energy_definite n N f m terms jac SE SF v) as [P1 P2]. destruct (mass_definite v) as [P3 P4]. rewrite <- P2, <- P4. assert (P5 : 0 <= c0 * K v v) by (apply Rmult_le_pos; lra). split.
    - intros Z. assert (Y : c0 * K v v = 0) by lra. apply Rmult_integral in Y as [Y|Y]; [lra|]. split; [exact Y|lra].
    - intros [-> ->]. ring. }
  split; intros H v.
  - intros A B. apply H. now apply Q.
  - intros Z. apply Q in Z as [A B]. now apply H.
Qed.
(** an explicit step has exactly one answer exactly when no motion leaves quadrature points and supports alone *)
Theorem explicit_step free : one_motion n N f m terms pos jac params 0 free <->
  forall v, unmoved n N f terms v -> (forall i, (i < N)%nat -> free i = false -> v i = 0) -> forall i, (i < N)%nat -> v i = 0.
Proof.
  rewrite one_motion_form by lra. assert (Q : forall v, M v v + 0 * K v v = 0 <-> unmoved n N f terms v) by (intros v; destruct (mass_definite v) as [_ <-]; split; intros; lra).
  split; intros H v Z; apply H; now apply Q.
Qed.
(** a body with the supports of C90 *)
Theorem supported_step c0 free : 0 < c0 -> supported n N f terms jac free -> one_motion n N f m terms pos jac params c0 free.
Proof. intros Hc SU. apply implicit_step; [exact Hc|]. intros v A _. now apply SU. Qed.
End Unique.
