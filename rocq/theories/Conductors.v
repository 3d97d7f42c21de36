(** * Heat conductors (C51): physics/materials/thermal_material.hpp, functional/tensor.hpp *)
From Coq Require Import List Bool Arith Reals Lra Lia.
Import ListNotations.
From Verif Require Import Sums StateMgr FEVector.
Local Open Scope R_scope.

Definition ltb (x y : R) : bool := if Rlt_dec x y then true else false.
Lemma ltb_true x y : ltb x y = true <-> x < y.
Proof. unfold ltb. destruct (Rlt_dec x y); split; auto; discriminate. Qed.
Lemma ltb_false x y : ltb x y = false <-> y <= x.
Proof. unfold ltb. destruct (Rlt_dec x y); split; auto; try discriminate; lra. Qed.
(** thermal_material.hpp:20-66: a conductor answers (volumetric heat capacity, flux) *)
Record isotropic := { i_density : R; i_cp : R; i_kappa : R }.
Definition make_isotropic (d c k : R) : outcome isotropic := if ltb k 0 then Refused else if ltb d 0 then Refused else if ltb c 0 then Refused else Done {| i_density := d; i_cp := c; i_kappa := k |}.
Definition isotropic_response (m : isotropic) (grad : list R) : R * list R := (i_density m * i_cp m, map (fun g => -1 * i_kappa m * g) grad).
(** thermal_material.hpp:69-121: the conductivity is checked at each evaluation *)
Record graded := { g_density : R; g_cp : R; g_kappa : R; g_slope : R }.
Definition make_graded (d c k s : R) : outcome graded := if ltb d 0 then Refused else if ltb c 0 then Refused else Done {| g_density := d; g_cp := c; g_kappa := k; g_slope := s |}.
Definition graded_response (m : graded) (temp : R) (grad : list R) : outcome (R * list R) :=
  let k := g_kappa m + g_slope m * temp in if ltb k 0 then Refused else Done (g_density m * g_cp m, map (fun g => -1 * k * g) grad).
(** tensor.hpp:1432-1442 is_symmetric, tolerance 1e-8 *)
Definition tolerance : R := / 10 ^ 8.
Definition close (x y : R) : bool := negb (ltb tolerance (Rabs (x - y))).
Record mat2 := { a00 : R; a01 : R; a10 : R; a11 : R }.
Record mat3 := { b00 : R; b01 : R; b02 : R; b10 : R; b11 : R; b12 : R; b20 : R; b21 : R; b22 : R }.
Definition det2 (A : mat2) : R := a00 A * a11 A - a01 A * a10 A.
(** tensor.hpp det for 3x3 *)
Definition det3 (A : mat3) : R := b00 A * b11 A * b22 A + b01 A * b12 A * b20 A + b02 A * b10 A * b21 A - b00 A * b12 A * b21 A - b01 A * b10 A * b22 A - b02 A * b11 A * b20 A.
Definition upper_left (A : mat3) : mat2 := {| a00 := b00 A; a01 := b01 A; a10 := b10 A; a11 := b11 A |}.
(** tensor.hpp:1452-1479 is_symmetric_and_positive_definite *)
Definition spd2 (A : mat2) : bool := if negb (close (a01 A) (a10 A)) then false else if ltb (a00 A) 0 then false else if ltb (det2 A) 0 then false else true.
Definition spd3 (A : mat3) : bool :=
  if negb (close (b01 A) (b10 A) && close (b02 A) (b20 A) && close (b12 A) (b21 A)) then false else if ltb (det3 A) 0 then false else if negb (spd2 (upper_left A)) then false else true.
(** thermal_material.hpp:128-175 LinearConductor *)
Record conductor2 := { c2_density : R; c2_cp : R; c2_kappa : mat2 }.
Record conductor3 := { c3_density : R; c3_cp : R; c3_kappa : mat3 }.
Definition make_conductor2 (d c : R) (k : mat2) : outcome conductor2 := if ltb d 0 then Refused else if ltb c 0 then Refused else if negb (spd2 k) then Refused else Done {| c2_density := d; c2_cp := c; c2_kappa := k |}.
Definition make_conductor3 (d c : R) (k : mat3) : outcome conductor3 := if ltb d 0 then Refused else if ltb c 0 then Refused else if negb (spd3 k) then Refused else Done {| c3_density := d; c3_cp := c; c3_kappa := k |}.
Definition response2 (m : conductor2) (x y : R) : R * list R := let k := c2_kappa m in (c2_density m * c2_cp m, [-1 * (a00 k * x + a01 k * y); -1 * (a10 k * x + a11 k * y)]).
Definition response3 (m : conductor3) (x y z : R) : R * list R := let k := c3_kappa m in
  (c3_density m * c3_cp m, [-1 * (b00 k * x + b01 k * y + b02 k * z); -1 * (b10 k * x + b11 k * y + b12 k * z); -1 * (b20 k * x + b21 k * y + b22 k * z)]).

(** ** specification *)
(** heat does not flow up the temperature gradient, and storing heat takes nonnegative energy *)
Definition admissible (r : R * list R) (grad : list R) : Prop := 0 <= fst r /\ dotp (snd r) grad <= 0.
Definition form2 (A : mat2) (x y : R) : R := a00 A * x * x + (a01 A + a10 A) * x * y + a11 A * y * y.
Definition form3 (A : mat3) (x y z : R) : R := b00 A * x * x + b11 A * y * y + b22 A * z * z + (b01 A + b10 A) * x * y + (b02 A + b20 A) * x * z + (b12 A + b21 A) * y * z.
Definition symmetric2 (A : mat2) : Prop := a01 A = a10 A.
Definition symmetric3 (A : mat3) : Prop := b01 A = b10 A /\ b02 A = b20 A /\ b12 A = b21 A.
Definition positive2 (A : mat2) : Prop := symmetric2 A /\ forall x y, x <> 0 \/ y <> 0 -> 0 < form2 A x y.
Definition positive3 (A : mat3) : Prop := symmetric3 A /\ forall x y z, x <> 0 \/ y <> 0 \/ z <> 0 -> 0 < form3 A x y z.

Lemma scaled_flux k grad : 0 <= k -> dotp (map (fun g => -1 * k * g) grad) grad <= 0.
Proof. intros H. induction grad as [|g grad IH]; cbn [map dotp]; [lra|]. pose proof (Rmult_le_pos k (g * g) H (Rle_0_sqr g)). nra. Qed.
Lemma isotropic_admissible d c k m : make_isotropic d c k = Done m -> forall grad, admissible (isotropic_response m grad) grad.
Proof.
  unfold make_isotropic. destruct (ltb k 0) eqn:E1; [discriminate|]. destruct (ltb d 0) eqn:E2; [discriminate|]. destruct (ltb c 0) eqn:E3; [discriminate|]. intros H grad. injection H as <-. apply ltb_false in E1, E2, E3.
  unfold admissible, isotropic_response. cbn [fst snd i_density i_cp i_kappa]. split; [nra|now apply scaled_flux].
Qed.
Lemma isotropic_accepts d c k : (exists m, make_isotropic d c k = Done m) <-> 0 <= d /\ 0 <= c /\ 0 <= k.
Proof.
  unfold make_isotropic. destruct (ltb k 0) eqn:E1; [apply ltb_true in E1; split; [intros [m H]; discriminate|lra]|]. destruct (ltb d 0) eqn:E2; [apply ltb_true in E2; split; [intros [m H]; discriminate|lra]|].
  destruct (ltb c 0) eqn:E3; [apply ltb_true in E3; split; [intros [m H]; discriminate|lra]|]. apply ltb_false in E1, E2, E3. split; eauto.
Qed.
Lemma graded_admissible d c k s m : make_graded d c k s = Done m -> forall temp grad r, graded_response m temp grad = Done r -> admissible r grad.
Proof.
  unfold make_graded. destruct (ltb d 0) eqn:E2; [discriminate|]. destruct (ltb c 0) eqn:E3; [discriminate|]. intros H temp grad r. injection H as <-. apply ltb_false in E2, E3. unfold graded_response. cbn [g_density g_cp g_kappa g_slope].
  destruct (ltb (k + s * temp) 0) eqn:E; [discriminate|]. apply ltb_false in E. intros H. injection H as <-. unfold admissible. cbn [fst snd]. split; [nra|now apply scaled_flux].
Qed.
Lemma close_refl x : close x x = true.
Proof. unfold close. replace (ltb tolerance (Rabs (x - x))) with false; [reflexivity|]. symmetry. apply ltb_false. rewrite Rminus_diag_eq by reflexivity. rewrite Rabs_R0. unfold tolerance. apply Rlt_le, Rinv_0_lt_compat, pow_lt. lra. Qed.
Lemma pos2_minors A : positive2 A -> 0 < a00 A /\ 0 < det2 A.
Proof.
  intros [S2 P]. assert (Ha : 0 < a00 A) by (pose proof (P 1 0 (or_introl R1_neq_R0)) as H; unfold form2 in H; lra). split; [exact Ha|].
  pose proof (P (- a01 A) (a00 A) (or_intror (Rgt_not_eq _ _ Ha))) as H. unfold form2 in H. unfold det2. unfold symmetric2 in S2. rewrite <- S2 in *.
  assert (0 < a00 A * (a00 A * a11 A - a01 A * a01 A)) by lra. apply Rmult_lt_reg_l with (a00 A); [exact Ha|]. lra.
Qed.
Lemma spd2_complete A : positive2 A -> spd2 A = true.
Proof.
  intros P. destruct (pos2_minors A P) as [H1 H2]. destruct P as [S2 _]. unfold spd2. unfold symmetric2 in S2. rewrite <- S2, close_refl. cbn [negb].
  replace (ltb (a00 A) 0) with false by (symmetry; apply ltb_false; lra). replace (ltb (det2 A) 0) with false by (symmetry; apply ltb_false; lra). reflexivity.
Qed.
Lemma pos3_upper A : positive3 A -> positive2 (upper_left A).
Proof. intros [[S1 _] P]. split; [exact S1|]. intros x y H. specialize (P x y 0). unfold form3 in P. unfold form2, upper_left. cbn. assert (x <> 0 \/ y <> 0 \/ 0 <> 0) as N by tauto. specialize (P N). lra. Qed.
Lemma pos3_det A : positive3 A -> 0 < det3 A.
Proof.
  intros P0. destruct (pos2_minors _ (pos3_upper A P0)) as [H1 H2]. destruct P0 as [[S1 [S2 S3]] P]. unfold det2, upper_left in H2. cbn in H1, H2. rewrite <- S1 in H2.
  set (m := b00 A * b11 A - b01 A * b01 A) in *. specialize (P (b01 A * b12 A - b02 A * b11 A) (b01 A * b02 A - b00 A * b12 A) m (or_intror (or_intror (Rgt_not_eq _ _ H2)))).
  unfold form3 in P. unfold det3. rewrite <- S1, <- S2, <- S3 in *. apply Rmult_lt_reg_l with m; [exact H2|]. rewrite Rmult_0_r. eapply Rlt_le_trans; [exact P|]. right. unfold m. ring.
Qed.
Lemma spd3_complete A : positive3 A -> spd3 A = true.
Proof.
  intros P. pose proof (pos3_det A P) as D. pose proof (spd2_complete _ (pos3_upper A P)) as U. destruct P as [[S1 [S2 S3]] _]. unfold spd3. rewrite S1, S2, S3, !close_refl. cbn [andb negb].
  replace (ltb (det3 A) 0) with false by (symmetry; apply ltb_false; lra). now rewrite U.
Qed.
Lemma conductor_accepts d c k2 k3 : 0 <= d -> 0 <= c -> (positive2 k2 -> exists m, make_conductor2 d c k2 = Done m) /\ (positive3 k3 -> exists m, make_conductor3 d c k3 = Done m).
Proof.
  intros Hd Hc. unfold make_conductor2, make_conductor3. replace (ltb d 0) with false by (symmetry; apply ltb_false; lra). replace (ltb c 0) with false by (symmetry; apply ltb_false; lra). split; intros P.
  - rewrite (spd2_complete _ P). cbn. eauto.
  - rewrite (spd3_complete _ P). cbn. eauto.
Qed.
Lemma accepted2 d c k m : make_conductor2 d c k = Done m -> m = {| c2_density := d; c2_cp := c; c2_kappa := k |} /\ 0 <= d /\ 0 <= c /\ 0 <= a00 k /\ 0 <= det2 k.
Proof.
  unfold make_conductor2. destruct (ltb d 0) eqn:E1; [discriminate|]. destruct (ltb c 0) eqn:E2; [discriminate|]. unfold spd2. destruct (close (a01 k) (a10 k)); [|discriminate]. cbn [negb]. destruct (ltb (a00 k) 0) eqn:E3; [discriminate|]. destruct (ltb (det2 k) 0) eqn:E4; [discriminate|].
  cbn [negb]. intros H. injection H as <-. apply ltb_false in E1, E2, E3, E4. auto.
Qed.
Lemma accepted3 d c k m : make_conductor3 d c k = Done m -> m = {| c3_density := d; c3_cp := c; c3_kappa := k |} /\ 0 <= d /\ 0 <= c /\ 0 <= b00 k /\ 0 <= det2 (upper_left k) /\ 0 <= det3 k.
Proof.
  unfold make_conductor3. destruct (ltb d 0) eqn:E1; [discriminate|]. destruct (ltb c 0) eqn:E2; [discriminate|]. unfold spd3. destruct (close (b01 k) (b10 k) && close (b02 k) (b20 k) && close (b12 k) (b21 k)); [|discriminate]. cbn [negb]. destruct (ltb (det3 k) 0) eqn:E5; [discriminate|].
  unfold spd2. destruct (close (a01 (upper_left k)) (a10 (upper_left k))); [|discriminate]. cbn [negb]. destruct (ltb (a00 (upper_left k)) 0) eqn:E3; [discriminate|]. destruct (ltb (det2 (upper_left k)) 0) eqn:E4; [discriminate|].
  cbn [negb]. intros H. injection H as <-. apply ltb_false in E1, E2, E3, E4, E5. auto 8.
Qed.
(** accepted, exactly symmetric and with strictly positive leading minors before the last: heat flows down *)
Lemma conductor2_admissible d c k m : make_conductor2 d c k = Done m -> symmetric2 k -> 0 < a00 k -> forall x y, admissible (response2 m x y) [x; y].
Proof.
  intros H S2 Ha x y. destruct (accepted2 d c k m H) as [-> [Hd [Hc [_ HD]]]]. unfold admissible, response2. cbn [fst snd c2_density c2_cp c2_kappa dotp]. split; [now apply Rmult_le_pos|]. unfold symmetric2 in S2. unfold det2 in HD. rewrite <- S2 in *.
  apply Rmult_le_reg_l with (a00 k); [exact Ha|]. rewrite Rmult_0_r. pose proof (Rle_0_sqr (a00 k * x + a01 k * y)) as Q1. pose proof (Rmult_le_pos _ _ HD (Rle_0_sqr y)) as Q2. unfold Rsqr in *. lra.
Qed.
Lemma conductor3_admissible d c k m : make_conductor3 d c k = Done m -> symmetric3 k -> 0 < b00 k -> 0 < det2 (upper_left k) -> forall x y z, admissible (response3 m x y z) [x; y; z].
Proof.
  intros H [S1 [S2 S3]] Ha Hm x y z. destruct (accepted3 d c k m H) as [-> [Hd [Hc [_ [_ HD]]]]]. unfold admissible, response3. cbn [fst snd c3_density c3_cp c3_kappa dotp]. split; [now apply Rmult_le_pos|].
  unfold det2, upper_left in Hm. cbn in Hm. unfold det3 in HD. rewrite <- S1, <- S2, <- S3 in *. set (mm := b00 k * b11 k - b01 k * b01 k) in *.
  apply Rmult_le_reg_l with (b00 k * mm); [now apply Rmult_lt_0_compat|]. rewrite Rmult_0_r.
  pose proof (Rle_0_sqr (b00 k * x + b01 k * y + b02 k * z)) as Q1. pose proof (Rle_0_sqr (mm * y + (b00 k * b12 k - b01 k * b02 k) * z)) as Q2. pose proof (Rle_0_sqr z) as Q3. unfold Rsqr in *.
  pose proof (Rmult_le_pos _ _ (Rlt_le _ _ Hm) Q1) as T1. assert (T3 : 0 <= b00 k * (b00 k * b11 k * b22 k + b01 k * b12 k * b02 k + b02 k * b01 k * b12 k - b00 k * b12 k * b12 k - b01 k * b01 k * b22 k - b02 k * b11 k * b02 k) * (z * z)). { apply Rmult_le_pos; [apply Rmult_le_pos; [lra|exact HD]|exact Q3]. }
  assert (E : b00 k * mm * (-1 * (b00 k * x + b01 k * y + b02 k * z) * x + (-1 * (b01 k * x + b11 k * y + b12 k * z) * y + (-1 * (b02 k * x + b12 k * y + b22 k * z) * z + 0))) =
    - (mm * ((b00 k * x + b01 k * y + b02 k * z) * (b00 k * x + b01 k * y + b02 k * z))) - (mm * y + (b00 k * b12 k - b01 k * b02 k) * z) * (mm * y + (b00 k * b12 k - b01 k * b02 k) * z)
    - b00 k * (b00 k * b11 k * b22 k + b01 k * b12 k * b02 k + b02 k * b01 k * b12 k - b00 k * b12 k * b12 k - b01 k * b01 k * b22 k - b02 k * b11 k * b02 k) * (z * z)) by (unfold mm; ring).
  rewrite E. lra.
Qed.
(** ** accepted although heat flows up the gradient *)
Definition bad2 : mat2 := {| a00 := 0; a01 := 0; a10 := 0; a11 := -1 |}.
Definition bad3 : mat3 := {| b00 := 0; b01 := 0; b02 := 0; b10 := 0; b11 := 0; b12 := 0; b20 := 0; b21 := 0; b22 := -1 |}.
Lemma bad2_accepted : exists m, make_conductor2 1 1 bad2 = Done m /\ ~ admissible (response2 m 0 1) [0; 1].
Proof.
  unfold make_conductor2, spd2, det2, bad2. cbn [a00 a01 a10 a11]. rewrite close_refl. replace (ltb 1 0) with false by (symmetry; apply ltb_false; lra). replace (ltb 0 0) with false by (symmetry; apply ltb_false; lra). replace (ltb (0 * -1 - 0 * 0) 0) with false by (symmetry; apply ltb_false; lra).
  cbn [negb]. eexists. split; [reflexivity|]. unfold admissible, response2. cbn. lra.
Qed.
Lemma bad3_accepted : exists m, make_conductor3 1 1 bad3 = Done m /\ ~ admissible (response3 m 0 0 1) [0; 0; 1].
Proof.
  unfold make_conductor3, spd3, spd2, det3, det2, bad3, upper_left. cbn [a00 a01 a10 a11 b00 b01 b02 b10 b11 b12 b20 b21 b22]. rewrite close_refl. replace (ltb 1 0) with false by (symmetry; apply ltb_false; lra). replace (ltb 0 0) with false by (symmetry; apply ltb_false; lra).
  match goal with |- context [ltb ?e 0] => replace (ltb e 0) with false by (symmetry; apply ltb_false; lra) end. match goal with |- context [ltb ?e 0] => replace (ltb e 0) with false by (symmetry; apply ltb_false; lra) end.
  cbn [negb andb]. eexists. split; [reflexivity|]. unfold admissible, response3. cbn. lra.
Qed.
Definition good2 : mat2 := {| a00 := 2; a01 := 1; a10 := 1; a11 := 2 |}.
Definition good3 : mat3 := {| b00 := 2; b01 := 1; b02 := 0; b10 := 1; b11 := 2; b12 := 0; b20 := 0; b21 := 0; b22 := 1 |}.
Lemma good_positive : positive2 good2 /\ positive3 good3.
Proof.
  assert (P2 : forall x y, x <> 0 \/ y <> 0 -> 0 < x * x + y * y). { intros x y [H|H]; pose proof (Rle_0_sqr x); pose proof (Rle_0_sqr y); pose proof (Rlt_0_sqr _ H); unfold Rsqr in *; lra. }
  split; (split; [repeat split; reflexivity|]).
  - intros x y H. unfold form2, good2. cbn. pose proof (P2 x y H). pose proof (Rle_0_sqr (x + y)). unfold Rsqr in *. lra.
  - intros x y z H. unfold form3, good3. cbn. pose proof (Rle_0_sqr (x + y)). pose proof (Rle_0_sqr z). pose proof (Rle_0_sqr x). pose proof (Rle_0_sqr y). unfold Rsqr in *. destruct H as [H|[H|H]]; pose proof (Rlt_0_sqr _ H); unfold Rsqr in *; lra.
Qed.
Lemma graded_ex : exists m r, make_graded 1 1 1 0 = Done m /\ graded_response m 5 [1] = Done r.
Proof.
  unfold make_graded. replace (ltb 1 0) with false by (symmetry; apply ltb_false; lra). eexists. eexists. split; [reflexivity|]. unfold graded_response. cbn [g_density g_cp g_kappa g_slope]. replace (ltb (1 + 0 * 5) 0) with false by (symmetry; apply ltb_false; lra). reflexivity.
Qed.
(** Fourier's law: the matrix and the gradient by index *)
Definition entry2 (A : mat2) (i j : nat) : R := match i, j with O, O => a00 A | O, _ => a01 A | _, O => a10 A | _, _ => a11 A end.
Definition entry3 (A : mat3) (i j : nat) : R := match i, j with
  | 0, 0 => b00 A | 0, 1 => b01 A | 0, _ => b02 A | 1, 0 => b10 A | 1, 1 => b11 A | 1, _ => b12 A | _, 0 => b20 A | _, 1 => b21 A | _, _ => b22 A end%nat.
Definition fourier (n : nat) (k : nat -> nat -> R) (grad flux : list R) : Prop := length flux = n /\ forall i, (i < n)%nat -> nth i flux 0 = - sumn n (fun j => k i j * nth j grad 0).
Lemma fourier2 d c k m x y : make_conductor2 d c k = Done m -> fst (response2 m x y) = d * c /\ fourier 2 (entry2 k) [x; y] (snd (response2 m x y)).
Proof.
  unfold make_conductor2. destruct (ltb d 0), (ltb c 0), (negb (spd2 k)); try discriminate. intros E. injection E as <-. split; [reflexivity|]. split; [reflexivity|].
  intros [|[|i]] H; [| |lia]; unfold response2; cbn [snd nth c2_kappa sumn entry2]; ring.
Qed.
Lemma fourier3 d c k m x y z : make_conductor3 d c k = Done m -> fst (response3 m x y z) = d * c /\ fourier 3 (entry3 k) [x; y; z] (snd (response3 m x y z)).
Proof.
  unfold make_conductor3. destruct (ltb d 0), (ltb c 0), (negb (spd3 k)); try discriminate. intros E. injection E as <-. split; [reflexivity|]. split; [reflexivity|].
  intros [|[|[|i]]] H; [| | |lia]; unfold response3; cbn [snd nth c3_kappa sumn entry3]; ring.
Qed.
Lemma scaled_fourier k grad : fourier (length grad) (fun i j => if Nat.eqb i j then k else 0) grad (map (fun g => -1 * k * g) grad).
Proof.
  split; [apply map_length|]. intros i Hi. rewrite (sumn_ext _ _ (fun j => if Nat.eqb j i then k * nth j grad 0 else 0)) by (intros j _; rewrite Nat.eqb_sym; destruct (Nat.eqb j i); ring).
  rewrite sumn_delta by exact Hi. rewrite nth_indep with (d' := -1 * k * 0) by (rewrite map_length; exact Hi). rewrite map_nth. ring.
Qed.
Lemma fourier_isotropic d c k m grad : make_isotropic d c k = Done m -> fst (isotropic_response m grad) = d * c /\ fourier (length grad) (fun i j => if Nat.eqb i j then k else 0) grad (snd (isotropic_response m grad)).
Proof. unfold make_isotropic. destruct (ltb k 0), (ltb d 0), (ltb c 0); try discriminate. intros E. injection E as <-. split; [reflexivity|apply scaled_fourier]. Qed.
Lemma fourier_graded d c k s m temp grad r : make_graded d c k s = Done m -> graded_response m temp grad = Done r -> fst r = d * c /\ fourier (length grad) (fun i j => if Nat.eqb i j then k + s * temp else 0) grad (snd r).
Proof.
  unfold make_graded. destruct (ltb d 0), (ltb c 0); try discriminate. intros E. injection E as <-. unfold graded_response. cbn [g_density g_cp g_kappa g_slope]. destruct (ltb _ 0); [discriminate|]. intros E. injection E as <-.
  split; [reflexivity|apply scaled_fourier].
Qed.
Lemma all_fourier d c :
  (forall k m grad, make_isotropic d c k = Done m -> fst (isotropic_response m grad) = d * c /\ fourier (length grad) (fun i j => if Nat.eqb i j then k else 0) grad (snd (isotropic_response m grad))) /\
  (forall k s m temp grad r, make_graded d c k s = Done m -> graded_response m temp grad = Done r -> fst r = d * c /\ fourier (length grad) (fun i j => if Nat.eqb i j then k + s * temp else 0) grad (snd r)) /\
  (forall k m x y, make_conductor2 d c k = Done m -> fst (response2 m x y) = d * c /\ fourier 2 (entry2 k) [x; y] (snd (response2 m x y))) /\
  (forall k m x y z, make_conductor3 d c k = Done m -> fst (response3 m x y z) = d * c /\ fourier 3 (entry3 k) [x; y; z] (snd (response3 m x y z))).
Proof. split; [|split; [|split]]; intros; [eapply fourier_isotropic|eapply fourier_graded|apply fourier2|apply fourier3]; eassumption. Qed.
(** a conductivity that is not quite symmetric *)
Definition slanted : mat2 := {| a00 := 1; a01 := tolerance; a10 := 0; a11 := 1 |}.
Lemma slanted_accepted : exists m, make_conductor2 1 1 slanted = Done m /\ entry2 slanted 0 1 <> entry2 slanted 1 0.
Proof.
  assert (T : 0 < tolerance) by (unfold tolerance; apply Rinv_0_lt_compat, pow_lt; lra). exists {| c2_density := 1; c2_cp := 1; c2_kappa := slanted |}. split; [|cbn; lra].
  assert (L : ltb 1 0 = false) by (apply ltb_false; lra). unfold make_conductor2. rewrite L. replace (spd2 slanted) with true; [reflexivity|]. symmetry. unfold spd2, close, slanted, det2. cbn [a00 a01 a10 a11].
  rewrite (proj2 (ltb_false tolerance _)) by (rewrite Rminus_0_r, Rabs_pos_eq; lra). cbn [negb]. rewrite L. rewrite (proj2 (ltb_false _ 0)) by lra. reflexivity.
Qed.

(** ** parameterized conductors: parameterized_thermal_material.hpp:21-63 and 83-138; the parameter is added to the conductivity *)
Definition make_param_isotropic (d c k : R) : outcome isotropic := if ltb k 0 then Refused else if ltb d 0 then Refused else if ltb c 0 then Refused else Done {| i_density := d; i_cp := c; i_kappa := k |}.
Definition param_isotropic_response (m : isotropic) (grad : list R) (p : R) : R * list R := (i_density m * i_cp m, map (fun g => -1 * (i_kappa m + p) * g) grad).
Definition make_param_graded (d c k s : R) : outcome graded := if ltb d 0 then Refused else if ltb c 0 then Refused else Done {| g_density := d; g_cp := c; g_kappa := k; g_slope := s |}.
Definition param_graded_response (m : graded) (temp : R) (grad : list R) (p : R) : outcome (R * list R) :=
  let k := g_kappa m + p + g_slope m * temp in if ltb k 0 then Refused else Done (g_density m * g_cp m, map (fun g => -1 * k * g) grad).
Lemma param_isotropic_plain d c k p m m' grad : make_param_isotropic d c k = Done m -> make_isotropic d c (k + p) = Done m' -> param_isotropic_response m grad p = isotropic_response m' grad.
Proof.
  unfold make_param_isotropic, make_isotropic. destruct (ltb k 0), (ltb (k + p) 0), (ltb d 0), (ltb c 0); try discriminate. intros E1 E2. injection E1 as <-. injection E2 as <-. reflexivity.
Qed.
Lemma param_graded_plain d c k s p m m' temp grad : make_param_graded d c k s = Done m -> make_graded d c (k + p) s = Done m' -> param_graded_response m temp grad p = graded_response m' temp grad.
Proof. unfold make_param_graded, make_graded. destruct (ltb d 0), (ltb c 0); try discriminate. intros E1 E2. injection E1 as <-. injection E2 as <-. reflexivity. Qed.
(** offset 0 and parameter -1: no complaint, and heat flows up *)
Lemma param_isotropic_negative : exists m, make_param_isotropic 1 1 0 = Done m /\ make_isotropic 1 1 (0 + -1) = Refused /\ ~ admissible (param_isotropic_response m [1] (-1)) [1].
Proof.
  exists {| i_density := 1; i_cp := 1; i_kappa := 0 |}. unfold make_param_isotropic, make_isotropic. rewrite (proj2 (ltb_false 0 0)), (proj2 (ltb_false 1 0)), (proj2 (ltb_true (0 + -1) 0)) by lra.
  split; [reflexivity|]. split; [reflexivity|]. unfold admissible, param_isotropic_response. cbn. lra.
Qed.
Lemma param_isotropic_case : exists m m', make_param_isotropic 1 1 2 = Done m /\ make_isotropic 1 1 (2 + -1) = Done m'.
Proof. unfold make_param_isotropic, make_isotropic. rewrite (proj2 (ltb_false 2 0)), (proj2 (ltb_false 1 0)), (proj2 (ltb_false (2 + -1) 0)) by lra. eauto. Qed.
