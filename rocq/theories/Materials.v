(** * Elastic material models and stress measures (C22, C41, C42)

    physics/materials/solid_material.hpp, green_saint_venant_thermoelastic.hpp, parameterized_solid_material.hpp and the
    flux of physics/solid_mechanics.hpp:809-853, over the reals.  [H] is the displacement gradient.  A division by
    det F = 0 or the logarithm of a number that is not positive is [None]. *)
From Coq Require Import Reals Lra Lia Bool Setoid Morphisms.
From Coquelicot Require Import Coquelicot.
From Verif Require Import Sums Dual Tensor LU LUDeriv MatAlg.
Local Open Scope R_scope.

(** F = grad_u + I *)
Definition defgrad (H : mat) : mat := madd H ident.
(** std::log1p *)
Definition log1p (x : R) : option R := if Rlt_dec 0 (1 + x) then Some (ln (1 + x)) else None.

(** solid_material.hpp:37-44 LinearIsotropic *)
Definition lame (K G : R) : R := K - 2 / 3 * G.
Definition small_strain (H : mat) : mat := mscal 0.5 (madd (transpose H) H).
Definition iso_stress (n : nat) (lambda G : R) (H : mat) : mat :=
  madd (mscal (lambda * tr n (small_strain H)) ident) (mscal (2 * G) (small_strain H)).
Definition linear_isotropic (n : nat) (K G : R) (H : mat) : mat := iso_stress n (lame K G) G H.

(** solid_material.hpp:54-58, green_saint_venant_thermoelastic.hpp:15-19 greenStrain *)
Definition green_strain (n : nat) (H : mat) : mat :=
  mscal 0.5 (madd (madd H (transpose H)) (mmul n (transpose H) H)).

(** sigma = dot(dot(F, S), transpose(F)) / det(F) *)
Definition push (n : nat) (H S : mat) : option mat :=
  if Req_EM_T (detn n (defgrad H)) 0 then None
  else Some (mscal (/ detn n (defgrad H)) (mmul n (mmul n (defgrad H) S) (transpose (defgrad H)))).

(** solid_material.hpp:60-93 StVenantKirchhoff *)
Definition svk_S (n : nat) (K G : R) (H : mat) : mat :=
  madd (mscal (K * tr n (green_strain n H)) ident) (mscal (2 * G) (dev n (green_strain n H))).
Definition stvk (n : nat) (K G : R) (H : mat) : option mat := push n H (svk_S n K G H).

(** solid_material.hpp:114-125 NeoHookean; [lambda] is K - (2/3) G there and K - (2/dim) G in the parameterized model *)
Definition b_minus_i (n : nat) (H : mat) : mat := madd (madd (mmul n H (transpose H)) (transpose H)) H.
Definition neo (n : nat) (lambda G : R) (H : mat) : option mat :=
  let J1 := detApIm1n n H in
  match log1p J1 with
  | None => None
  | Some l => if Req_EM_T (J1 + 1) 0 then None
              else Some (mscal (/ (J1 + 1)) (madd (mscal (lambda * l) ident) (mscal G (b_minus_i n H))))
  end.
Definition neo_hookean (n : nat) (K G : R) (H : mat) : option mat := neo n (lame K G) G H.

(** parameterized_solid_material.hpp:40-51 and 81-95: the moduli are offset, and lambda divides by the dimension *)
Definition param_linear (n : nat) (K0 G0 dK dG : R) (H : mat) : mat :=
  iso_stress n (K0 + dK - 2 / INR n * (G0 + dG)) (G0 + dG) H.
Definition param_neo (n : nat) (K0 G0 dK dG : R) (H : mat) : option mat :=
  neo n (K0 + dK - 2 / INR n * (G0 + dG)) (G0 + dG) H.

(** green_saint_venant_thermoelastic.hpp:22-82: stress, capacity, heat source, flux and the new strain trace *)
Record gsv := { g_E : R; g_nu : R; g_Cv : R; g_alpha : R; g_theta_ref : R; g_k : R }.
Definition bulk (E nu : R) : R := E / (3 * (1 - 2 * nu)).
Definition shear (E nu : R) : R := 0.5 * E / (1 + nu).
(** the moduli are quotients by 1 + nu and 1 - 2 nu; when one of these is zero the stress is not a finite number *)
Definition finite_moduli (nu : R) : Prop := 1 + nu <> 0 /\ 1 - 2 * nu <> 0.
Definition finite_moduli_dec nu : {finite_moduli nu} + {~ finite_moduli nu}.
Proof. unfold finite_moduli. destruct (Req_EM_T (1 + nu) 0), (Req_EM_T (1 - 2 * nu) 0); (left; tauto) || (right; tauto). Defined.
Definition gsv_S (m : gsv) (H : mat) (theta : R) : mat :=
  madd (mscal (2 * shear (g_E m) (g_nu m)) (dev 3 (green_strain 3 H)))
       (mscal (bulk (g_E m) (g_nu m) * (tr 3 (green_strain 3 H) - 3 * g_alpha m * (theta - g_theta_ref m))) ident).
Record gsv_out := { o_stress : mat; o_capacity : R; o_source : R; o_flux : vec; o_trace : R }.
Definition gsv_response (m : gsv) (old_trace : R) (H : mat) (theta : R) (grad_theta : vec) : option gsv_out :=
  if finite_moduli_dec (g_nu m) then
  match push 3 H (gsv_S m H theta) with
  | None => None
  | Some s => Some {| o_stress := s; o_capacity := g_Cv m;
      o_source := -3 * bulk (g_E m) (g_nu m) * g_alpha m * theta * (tr 3 (green_strain 3 H) - old_trace);
      o_flux := fun i => - g_k m * grad_theta i;
      o_trace := tr 3 (green_strain 3 H) |}
  end
  else None.
(** lines 90-104 calculateFreeEnergy; std::log of a number that is not positive is [None] *)
Definition gsv_energy (m : gsv) (H : mat) (theta : R) : option R :=
  let K := bulk (g_E m) (g_nu m) in let G := shear (g_E m) (g_nu m) in
  let E := green_strain 3 H in
  if finite_moduli_dec (g_nu m) then
  if Rlt_dec 0 (theta / g_theta_ref m) then
    Some (G * squared_norm 3 3 (dev 3 E) + 0.5 * K * tr 3 E * tr 3 E
          + g_Cv m * (theta - g_theta_ref m - theta * ln (theta / g_theta_ref m))
          + -3 * K * g_alpha m * (theta - g_theta_ref m) * tr 3 E)
  else None
  else None.
(** lines 108-204: the same with alpha = alpha0 * scale *)
Definition param_gsv (m : gsv) (scale : R) : gsv :=
  {| g_E := g_E m; g_nu := g_nu m; g_Cv := g_Cv m; g_alpha := g_alpha m * scale; g_theta_ref := g_theta_ref m; g_k := g_k m |}.

(** solid_material.hpp:330-366 *)
Definition kirchhoff_to_piola (n : nat) (tau H : mat) : option mat :=
  match invn n (defgrad H) with None => None | Some B => Some (transpose (mmul n B tau)) end.
Definition cauchy_to_piola (n : nat) (sigma H : mat) : option mat :=
  kirchhoff_to_piola n (mscal (detn n (defgrad H)) sigma) H.
(** solid_mechanics.hpp:841-849: flux of the residual; dx_dX = 0.0 * du_dX + I, plus du_dX with geometric nonlinearity *)
Definition flux (n : nat) (on : bool) (stress H : mat) : option mat :=
  let dx := madd (mscal 0 H) ident in
  let dx := if on then madd dx H else dx in
  match invn n dx with None => None | Some B => Some (mscal (detn n dx) (mmul n stress (transpose B))) end.

(** ** specification: energies, rotations *)
Definition energy_linear (n : nat) (K G : R) (H : mat) : R :=
  lame K G / 2 * (tr n (small_strain H) * tr n (small_strain H)) + G * squared_norm n n (small_strain H).
Definition energy_stvk (n : nat) (K G : R) (H : mat) : R :=
  K / 2 * (tr n (green_strain n H) * tr n (green_strain n H)) + G * squared_norm n n (dev n (green_strain n H)).
Definition energy_neo (n : nat) (lambda G : R) (H : mat) : R :=
  let J := detn n (defgrad H) in
  lambda / 2 * (ln J * ln J) + G / 2 * (squared_norm n n (defgrad H) - INR n) - G * ln J.
Definition rotation (n : nat) (Q : mat) : Prop :=
  meq n (mmul n (transpose Q) Q) ident /\ meq n (mmul n Q (transpose Q)) ident /\ detn n Q = 1.
(** displacement gradient of the body rotated by Q after the deformation *)
Definition rotated (n : nat) (Q H : mat) : mat := msub (mmul n Q (defgrad H)) ident.
Definition symmetric (n : nat) (A : mat) : Prop := meq n (transpose A) A.

(** ** strains *)
Lemma green_alt n H : meq n (green_strain n H)
  (mscal 0.5 (msub (mmul n (transpose (defgrad H)) (defgrad H)) ident)).
Proof.
  unfold green_strain, defgrad. rewrite transpose_add, mmul_add_l, !mmul_add_r.
  rewrite mmul_ident_r, mmul_ident_r, transpose_ident, mmul_ident_l.
  intros i j _ _. unfold mscal, madd, msub. ring.
Qed.
Lemma b_alt n H : meq n (b_minus_i n H) (msub (mmul n (defgrad H) (transpose (defgrad H))) ident).
Proof.
  unfold b_minus_i, defgrad. rewrite transpose_add, mmul_add_l, !mmul_add_r.
  rewrite !transpose_ident, mmul_ident_r, !mmul_ident_l.
  intros i j _ _. unfold madd, msub. ring.
Qed.
Lemma defgrad_rotated n Q H : meq n (defgrad (rotated n Q H)) (mmul n Q (defgrad H)).
Proof. intros i j _ _. unfold defgrad at 1, rotated, madd, msub. ring. Qed.
Lemma green_rotated n Q H : rotation n Q -> meq n (green_strain n (rotated n Q H)) (green_strain n H).
Proof.
  intros [Q1 _]. rewrite !green_alt, defgrad_rotated, transpose_mul.
  rewrite mmul_assoc, <- (mmul_assoc n (transpose Q) Q), Q1, mmul_ident_l. reflexivity.
Qed.
Lemma green_symmetric n H : symmetric n (green_strain n H).
Proof.
  intros i j _ _. unfold transpose, green_strain, mscal, madd, mmul.
  rewrite (sumn_ext n (fun k => transpose H j k * H k i) (fun k => transpose H i k * H k j)).
  - unfold transpose. ring.
  - intros; unfold transpose; ring.
Qed.
Lemma dev_symmetric n A : symmetric n A -> symmetric n (dev n A).
Proof.
  intros S i j Hi Hj. unfold transpose, dev. rewrite (PeanoNat.Nat.eqb_sym j i).
  assert (E : A j i = A i j) by exact (S i j Hi Hj). now rewrite E.
Qed.
Lemma svk_S_symmetric n K G H : symmetric n (svk_S n K G H).
Proof.
  assert (D := dev_symmetric n _ (green_symmetric n H)). unfold symmetric in *. unfold svk_S.
  rewrite transpose_add, !transpose_scal, D, transpose_ident. reflexivity.
Qed.

Lemma push_symmetric n H S s : symmetric n S -> push n H S = Some s -> symmetric n s.
Proof.
  intros HS E. unfold push in E. destruct (Req_EM_T (detn n (defgrad H)) 0); [discriminate|]. injection E as <-.
  unfold symmetric in *. rewrite transpose_scal. f_equiv. rewrite !transpose_mul, HS, transpose_twice. now rewrite mmul_assoc.
Qed.

#[global] Instance push_proper n H : Proper (meq n ==> fun a b => match a, b with Some x, Some y => meq n x y | None, None => True | _, _ => False end) (push n H).
Proof.
  intros S S' E. unfold push. destruct (Req_EM_T (detn n (defgrad H)) 0); [exact I|]. now rewrite E.
Qed.

(** superposed rotation of the pushed-forward stress *)
Lemma push_rotated n Q H S S' s : dim23 n -> rotation n Q -> meq n S' S -> push n H S = Some s ->
  exists s', push n (rotated n Q H) S' = Some s' /\ meq n s' (mmul n (mmul n Q s) (transpose Q)).
Proof.
  intros D [Q1 [Q2 Q3]] ES E. unfold push in *.
  assert (Dt : detn n (defgrad (rotated n Q H)) = detn n (defgrad H)).
  { rewrite (detn_ext n _ _ D (defgrad_rotated n Q H)), detn_mul, Q3 by exact D. ring. }
  rewrite Dt. destruct (Req_EM_T (detn n (defgrad H)) 0); [discriminate|]. injection E as <-.
  eexists. split; [reflexivity|]. rewrite ES, defgrad_rotated, transpose_mul.
  rewrite mmul_scal_r, mmul_scal_l. f_equiv. now rewrite !mmul_assoc.
Qed.

(** Piola stress of a pushed-forward S is F S^T *)
Lemma push_piola n H S s : dim23 n -> push n H S = Some s ->
  exists P, cauchy_to_piola n s H = Some P /\ meq n P (mmul n (defgrad H) (transpose S)).
Proof.
  intros D E. unfold push in E. destruct (Req_EM_T (detn n (defgrad H)) 0) as [|N]; [discriminate|]. injection E as <-.
  unfold cauchy_to_piola, kirchhoff_to_piola. destruct (invn_works n (defgrad H) D N) as [B EB]. rewrite EB.
  destruct (invn_some n _ B D EB) as [_ [B2 _]]. eexists. split; [reflexivity|].
  assert (C : meq n (mscal (detn n (defgrad H)) (mscal (/ detn n (defgrad H)) (mmul n (mmul n (defgrad H) S) (transpose (defgrad H)))))
                    (mmul n (mmul n (defgrad H) S) (transpose (defgrad H)))).
  { intros i j _ _. unfold mscal. field. exact N. }
  rewrite C. rewrite mmul_assoc, <- (mmul_assoc n B), B2, mmul_ident_l, transpose_mul, transpose_twice. reflexivity.
Qed.
