(** * A supported linear elastic body has exactly one equilibrium (C90)
    The nodal forces are those evaluated by the solid module (solid_mechanics.hpp:808-1103, through Functional; WeakForm.v, FunctionalModel.v) at zero
    acceleration.  This file says what a displacement without strain is and which materials resist every strain. *)
From Coq Require Import NArith ZArith Reals List Lia Lra Bool.
From Verif Require Import Prelude DofCodec Sums Restriction Kernels FunctionalModel Assembly Tensor MatAlg Materials MaterialFacts ShapeAware WeakForm WeakFormFacts WeakFormPhysics WeakFormWork Fit Ode Energy EnergySolid EnergyRun StoredEnergy StoredEnergyUse.
Import ListNotations.
Local Open Scope R_scope.

(** ** specification *)
Definition skew (n : nat) (A : mat) : Prop := forall i j, (i < n)%nat -> (j < n)%nat -> A i j + A j i = 0.
(** the material resists strains and nothing else *)
Definition stiff_law {St} (n : nat) (sigma : St -> mat -> option mat) : Prop := forall st A,
  (~ skew n A -> 0 < inner n n (stress_of sigma st A) A) /\ (skew n A -> meq n (stress_of sigma st A) (fun _ _ => 0)).
Definition stiff {St} (n : nat) (terms : list (solid_term St)) : Prop := forall on rho sigma, In (SMaterial on rho sigma) terms -> stiff_law n sigma.
Section Body.
Context {St : Type} (n N : nat) (f : functional St) (m : mem St) (terms : list (solid_term St)) (pos : nat -> nat -> nat -> nat -> vec) (jac : nat -> nat -> nat -> nat -> mat)
  (params : nat -> list R).
(** the elements with material are not inverted or degenerate and the weights are positive *)
Definition solid_elements : Prop := forall k Ig g G le q, nth_error (f_integrals f) k = Some Ig -> nth_error (i_geoms Ig) g = Some G -> (le < length (gk_elems G))%nat -> (q < gk_nq G)%nat ->
  forall on rho sigma, nth_error terms k = Some (SMaterial on rho sigma) -> 0 < gk_w G q * detn n (jac k g le q).
(** the displacement [v] strains the body at no quadrature point *)
Definition strain_free (v : vec) : Prop := forall k Ig g G r le q on rho sigma,
  nth_error (f_integrals f) k = Some Ig -> nth_error (i_geoms Ig) g = Some G -> nth_error (f_test f (i_type Ig)) g = Some r -> (le < length (gk_elems G))%nat -> (q < gk_nq G)%nat ->
  nth_error terms k = Some (SMaterial on rho sigma) -> skew n (grad_at n (jac k g le q) (test_field G r (tab N v) le q)).
(** held at [g] where not free, no net force where free *)
Definition equilibrium (t : R) (free : nat -> bool) (g x : vec) : Prop :=
  (forall i, (i < N)%nat -> free i = false -> x i = g i) /\
  exists L, nodal_forces n N f m terms pos jac params t x rest L /\ forall i, (i < N)%nat -> free i = true -> nth i L 0 = 0.
(** the supports leave no displacement without strain *)
Definition supported (free : nat -> bool) : Prop := forall v, strain_free v -> (forall i, (i < N)%nat -> free i = false -> v i = 0) -> forall i, (i < N)%nat -> v i = 0.
End Body.

(** ** symmetric forms *)
Section Form.
Context (N : nat) (b : vec -> vec -> R) (B : symmetric_form N b).
Definition unit (i : nat) : vec := fun j => if Nat.eqb j i then 1 else 0.
Lemma form_zero z : b (fun _ => 0) z = 0.
Proof. assert (A := form_scal N b B 0 (fun _ => 0) z). rewrite (form_ext N b B (fun i => 0 * 0) (fun _ => 0)) in A by (intros; ring). lra. Qed.
Lemma form_expand x z : b x z = sumn N (fun i => x i * b (unit i) z).
Proof.
  assert (P : forall M, (M <= N)%nat -> b (fun i => if (i <? M)%nat then x i else 0) z = sumn M (fun i => x i * b (unit i) z)).
  { induction M as [|M IH]; intros HM; cbn [sumn].
    - transitivity (b (fun _ => 0) z); [|apply form_zero]. apply (form_ext N b B). reflexivity.
    - rewrite <- IH by lia. rewrite <- (form_scal N b B (x M) (unit M) z), <- (form_add N b B). apply (form_ext N b B). intros i _. unfold unit.
      destruct (Nat.eqb_spec i M) as [->|NE]; [|destruct (Nat.ltb_spec i (S M)), (Nat.ltb_spec i M); try lia; ring].
      rewrite (proj2 (Nat.ltb_lt M (S M))) by lia. rewrite Nat.ltb_irrefl. ring. }
  rewrite <- (P N) by lia. apply (form_ext N b B). intros i Hi. now rewrite (proj2 (Nat.ltb_lt i N) Hi).
Qed.
Lemma form_comb c x y z : b (fun i => x i + c * y i) z = b x z + c * b y z.
Proof. now rewrite (form_add N b B x (fun i => c * y i)), (form_scal N b B). Qed.
Lemma form_comb_r c x y z : b z (fun i => x i + c * y i) = b z x + c * b z y.
Proof. rewrite !(form_sym N b B z). apply form_comb. Qed.
(** definite on the vectors that vanish at the held places: every right hand side has a solution *)
Lemma form_solvable (free : nat -> bool) : (forall v, (forall i, (i < N)%nat -> free i = false -> v i = 0) -> (exists i, (i < N)%nat /\ v i <> 0) -> 0 < b v v) ->
  forall l : vec, exists x, (forall i, (i < N)%nat -> free i = false -> x i = 0) /\ forall i, (i < N)%nat -> free i = true -> b (unit i) x = l i.
Proof.
  intros PD. assert (P : forall M, (M <= N)%nat -> forall l : vec, exists x, (forall i, (i < N)%nat -> free i = false \/ (M <= i)%nat -> x i = 0) /\ forall i, (i < M)%nat -> free i = true -> b (unit i) x = l i).
  { induction M as [|M IH]; intros HM l; [exists (fun _ => 0); split; [intros; reflexivity|intros; lia]|].
    destruct (IH ltac:(lia) l) as (x & X1 & X2). destruct (free M) eqn:FM.
    2:{ exists x. split; [intros i Hi H; apply X1; [exact Hi|]; destruct H as [H|H]; [now left|right; lia]|]. intros i Hi Fi. apply X2; [|exact Fi]. destruct (Nat.eq_dec i M) as [->|]; [congruence|lia]. }
    destruct (IH ltac:(lia) (fun i => b (unit i) (unit M))) as (z & Z1 & Z2).
    set (d := fun i => unit M i + (-1) * z i).
    assert (D0 : forall i, (i < N)%nat -> free i = false \/ (S M <= i)%nat -> d i = 0).
    { intros i Hi H. unfold d. rewrite (Z1 i Hi) by (destruct H; [now left|right; lia]). unfold unit. destruct (Nat.eqb_spec i M) as [->|]; [|ring]. destruct H; [congruence|lia]. }
    assert (DM : d M = 1) by (unfold d, unit; rewrite Nat.eqb_refl, Z1 by lia; ring).
    assert (DE : forall i, (i < M)%nat -> free i = true -> b (unit i) d = 0).
    { intros i Hi Fi. unfold d. rewrite form_comb_r, Z2 by assumption. ring. }
    assert (ZD : b z d = 0).
    { rewrite form_expand. apply sumn_zero. intros i Hi. destruct (free i) eqn:Fi; [|rewrite Z1 by auto; ring]. destruct (lt_dec i M); [rewrite DE by assumption; ring|rewrite (Z1 i Hi) by (right; lia); ring]. }
    assert (DD : b d d = b (unit M) d).
    { unfold d at 1. rewrite form_comb, ZD. ring. }
    assert (POS : 0 < b (unit M) d).
    { rewrite <- DD. apply PD; [intros i Hi Fi; apply D0; auto|]. exists M. split; [lia|]. rewrite DM. lra. }
    exists (fun i => x i + (l M - b (unit M) x) / b (unit M) d * d i). split.
    - intros i Hi H. rewrite D0 by assumption. rewrite X1; [ring|exact Hi|]. destruct H; [now left|right; lia].
    - intros i Hi Fi. rewrite form_comb_r. destruct (Nat.eq_dec i M) as [->|]; [field; lra|]. rewrite (DE i ltac:(lia) Fi), (X2 i ltac:(lia) Fi). ring. }
  intros l. destruct (P N ltac:(lia) l) as (x & X1 & X2). exists x. split; [intros; apply X1; auto|exact X2].
Qed.
End Form.

(** ** bodies *)
Lemma over_points_terms {St} (f : functional St) h : (forall k Ig g G r le q, nth_error (f_integrals f) k = Some Ig -> nth_error (i_geoms Ig) g = Some G -> nth_error (f_test f (i_type Ig)) g = Some r ->
    (le < length (gk_elems G))%nat -> (q < gk_nq G)%nat -> 0 <= h k Ig g G r le q * gk_w G q) -> over_points f h = 0 ->
  forall k Ig g G r le q, nth_error (f_integrals f) k = Some Ig -> nth_error (i_geoms Ig) g = Some G -> nth_error (f_test f (i_type Ig)) g = Some r ->
    (le < length (gk_elems G))%nat -> (q < gk_nq G)%nat -> h k Ig g G r le q * gk_w G q = 0.
Proof.
  intros P Z k Ig g G r le q E1 E2 E3 Hle Hq. unfold over_points in Z.
  assert (Hk : (k < length (f_integrals f))%nat) by (apply nth_error_Some; congruence). assert (Hg : (g < length (i_geoms Ig))%nat) by (apply nth_error_Some; congruence).
  assert (A1 : forall k0, (k0 < length (f_integrals f))%nat -> 0 <= match nth_error (f_integrals f) k0 with None => 0 | Some Ig =>
    sumn (length (i_geoms Ig)) (fun g => match nth_error (i_geoms Ig) g, nth_error (f_test f (i_type Ig)) g with
      | Some G, Some r => sumn (length (gk_elems G)) (fun le => sumn (gk_nq G) (fun q => h k0 Ig g G r le q * gk_w G q)) | _, _ => 0 end) end).
  { intros k0 _. destruct (nth_error (f_integrals f) k0) as [Ig0|] eqn:F1; [|lra]. apply sumn_nonneg. intros g0 _. destruct (nth_error (i_geoms Ig0) g0) as [G0|] eqn:F2; [|lra].
    destruct (nth_error (f_test f (i_type Ig0)) g0) as [r0|] eqn:F3; [|lra]. apply sumn_nonneg. intros. apply sumn_nonneg. intros. now apply P. }
  assert (Z2 := sumn_nonneg_zero _ _ A1 Z k Hk). cbv beta in Z2. rewrite E1 in Z2.
  refine (sumn_nonneg_zero _ (fun q => h k Ig g G r le q * gk_w G q) (fun q Hq => P k Ig g G r le q E1 E2 E3 Hle Hq) _ q Hq).
  refine (sumn_nonneg_zero _ (fun le => sumn (gk_nq G) (fun q => h k Ig g G r le q * gk_w G q)) (fun le Hle => sumn_nonneg _ _ (fun q Hq => P k Ig g G r le q E1 E2 E3 Hle Hq)) _ le Hle).
  refine (eq_trans _ (sumn_nonneg_zero _ _ _ Z2 g Hg)); [cbv beta; now rewrite E2, E3|].
  intros g0 _. destruct (nth_error (i_geoms Ig) g0) as [G0|] eqn:F2; [|lra].
  destruct (nth_error (f_test f (i_type Ig)) g0) as [r0|] eqn:F3; [|lra]. apply sumn_nonneg. intros. apply sumn_nonneg. intros. now apply P.
Qed.
Lemma skew_dec n A : skew n A \/ ~ skew n A.
Proof.
  unfold skew. assert (H : forall p, (forall i j, (i < p)%nat -> (j < n)%nat -> A i j + A j i = 0) \/ ~ (forall i j, (i < p)%nat -> (j < n)%nat -> A i j + A j i = 0)).
  { induction p as [|p [IH|IH]]; [left; intros; lia| |right; intros H; apply IH; intros; apply H; lia].
    assert (Q : forall r, (forall j, (j < r)%nat -> A p j + A j p = 0) \/ ~ (forall j, (j < r)%nat -> A p j + A j p = 0)).
    { induction r as [|r [IHr|IHr]]; [left; intros; lia| |right; intros H; apply IHr; intros; apply H; lia].
      destruct (Req_EM_T (A p r + A r p) 0) as [E|E]; [left|right; intros H; apply E, H; lia]. intros j Hj. destruct (Nat.eq_dec j r) as [->|]; [exact E|apply IHr; lia]. }
    destruct (Q n) as [E|E]; [left|right; intros H; apply E; intros; apply H; lia]. intros i j Hi Hj. destruct (Nat.eq_dec i p) as [->|]; [now apply E|apply IH; lia]. }
  apply H.
Qed.

Section Unique.
Context {St : Type} (n N : nat) (f : functional St) (m : mem St) (terms : list (solid_term St)) (pos : nat -> nat -> nat -> nat -> vec) (jac : nat -> nat -> nat -> nat -> mat)
  (params : nat -> list R).
Hypothesis (D : dim23 n) (LE : List.Forall (linear_elastic n) terms) (F : all_fit f) (TS : two_spaces n f) (SE : solid_elements n f terms jac) (SF : stiff n terms)
  (EV : forall t x, exists L, nodal_forces n N f m terms pos jac params t x rest L).
Notation K := (stiffness_form n N f m terms jac).

Lemma inner_zero_l A B : meq n A (fun _ _ => 0) -> inner n n A B = 0.
Proof. intros H. unfold inner. apply sumn_zero. intros i Hi. apply sumn_zero. intros j Hj. rewrite H by assumption. ring. Qed.
Lemma density_nonneg k Ig g G r le q v : nth_error (f_integrals f) k = Some Ig -> nth_error (i_geoms Ig) g = Some G -> (le < length (gk_elems G))%nat -> (q < gk_nq G)%nat ->
  0 <= match nth_error terms k with Some T => stiffness_density n T (m_q m k g le q) (jac k g le q) (test_field G r (tab N v) le q) (test_field G r (tab N v) le q) | None => 0 end * gk_w G q.
Proof.
  intros E1 E2 Hle Hq. destruct (nth_error terms k) as [T|] eqn:ET; [|lra]. destruct T as [on rho sigma|b|tr|on p]; cbn [stiffness_density]; try lra.
  assert (O := SE k Ig g G le q E1 E2 Hle Hq on rho sigma ET). destruct (SF on rho sigma (nth_error_In _ _ ET) (m_q m k g le q) (grad_at n (jac k g le q) (test_field G r (tab N v) le q))) as [P1 P2].
  destruct (skew_dec n (grad_at n (jac k g le q) (test_field G r (tab N v) le q))) as [S|S].
  - rewrite (inner_zero_l _ _ (P2 S)). lra.
  - specialize (P1 S). set (e := inner n n _ _) in *. replace (e * detn n (jac k g le q) * gk_w G q) with (e * (gk_w G q * detn n (jac k g le q))) by ring. apply Rmult_le_pos; lra.
Qed.
(** no energy without strain *)
Theorem energy_definite v : 0 <= K v v /\ (K v v = 0 <-> strain_free n N f terms jac v).
Proof.
  split; [|split].
  - unfold stiffness_form. apply over_points_nonneg. intros k Ig g G r le q E1 E2 Hle Hq. now apply (density_nonneg k Ig).
  - intros Z k Ig g G r le q on rho sigma E1 E2 E3 Hle Hq ET.
    assert (Q := over_points_terms f _ (fun k Ig g G r le q E1 E2 E3 Hle Hq => density_nonneg k Ig g G r le q v E1 E2 Hle Hq) Z k Ig g G r le q E1 E2 E3 Hle Hq). cbv beta in Q. rewrite ET in Q. cbn [stiffness_density] in Q.
    assert (O := SE k Ig g G le q E1 E2 Hle Hq on rho sigma ET). destruct (SF on rho sigma (nth_error_In _ _ ET) (m_q m k g le q) (grad_at n (jac k g le q) (test_field G r (tab N v) le q))) as [P1 _].
    destruct (skew_dec n (grad_at n (jac k g le q) (test_field G r (tab N v) le q))) as [S|S]; [exact S|exfalso]. specialize (P1 S). set (e := inner n n _ _) in *.
    assert (0 < e * (gk_w G q * detn n (jac k g le q))) by (now apply Rmult_lt_0_compat). lra.
  - intros Z. unfold stiffness_form. rewrite (over_points_ext f _ (fun _ _ _ _ _ _ _ => 0 * 0 + 0 * 0)).
    + rewrite (over_points_comb f 0 0). ring.
    + intros k Ig g G r le q E1 E2 E3 Hle Hq. destruct (nth_error terms k) as [T|] eqn:ET; [|ring]. destruct T as [on rho sigma|b|tr|on p]; cbn [stiffness_density]; try ring.
      rewrite inner_zero_l; [ring|]. apply (SF on rho sigma (nth_error_In _ _ ET)). exact (Z k Ig g G r le q on rho sigma E1 E2 E3 Hle Hq ET).
Qed.
Lemma strain_free_no_force v z : strain_free n N f terms jac v -> K v z = 0.
Proof.
  intros Z. unfold stiffness_form. rewrite (over_points_ext f _ (fun _ _ _ _ _ _ _ => 0 * 0 + 0 * 0)).
  - rewrite (over_points_comb f 0 0). ring.
  - intros k Ig g G r le q E1 E2 E3 Hle Hq. destruct (nth_error terms k) as [T|] eqn:ET; [|ring]. destruct T as [on rho sigma|b|tr|on p]; cbn [stiffness_density]; try ring.
    rewrite inner_zero_l; [ring|]. apply (SF on rho sigma (nth_error_In _ _ ET)). exact (Z k Ig g G r le q on rho sigma E1 E2 E3 Hle Hq ET).
Qed.
Let KS : symmetric_form N K := stiffness_symmetric n N f m terms jac LE.
Lemma force_entry t x L i : nodal_forces n N f m terms pos jac params t x rest L -> (i < N)%nat -> nth i L 0 = K (unit i) x - load_vector n N f terms pos jac t i.
Proof.
  intros (W & RES & wrt & upd & m' & E) Hi. assert (B := solid_balance n N f m terms pos jac params D LE t x rest L m' wrt upd W F TS RES E (unit i)).
  rewrite mass_rest in B. assert (U : forall y : vec, dotn N (unit i) y = y i).
  { intros y. unfold dotn, unit. rewrite (sumn_ext N _ (fun j => if Nat.eqb j i then y j else 0)) by (intros j _; destruct (Nat.eqb j i); ring). exact (sumn_delta N i y Hi). }
  rewrite !U in B. lra.
Qed.
Theorem balance_iff t free g x : equilibrium n N f m terms pos jac params t free g x <->
  (forall i, (i < N)%nat -> free i = false -> x i = g i) /\ (forall i, (i < N)%nat -> free i = true -> K (unit i) x = load_vector n N f terms pos jac t i).
Proof.
  split.
  - intros (H & L & HL & Z). split; [exact H|]. intros i Hi Fi. assert (E := force_entry t x L i HL Hi). rewrite (Z i Hi Fi) in E. lra.
  - intros (H & Z). split; [exact H|]. destruct (EV t x) as (L & HL). exists L. split; [exact HL|]. intros i Hi Fi. rewrite (force_entry t x L i HL Hi), (Z i Hi Fi). ring.
Qed.
(** two equilibria under the same loads and supports differ by a displacement without strain *)
Theorem equilibria_differ t free g x y : equilibrium n N f m terms pos jac params t free g x -> equilibrium n N f m terms pos jac params t free g y ->
  strain_free n N f terms jac (fun i => x i + (-1) * y i).
Proof.
  intros Hx Hy. apply balance_iff in Hx as [X1 X2]. apply balance_iff in Hy as [Y1 Y2]. apply energy_definite.
  rewrite (form_expand N K KS). apply sumn_zero. intros i Hi. destruct (free i) eqn:Fi.
  - rewrite (form_comb_r N K KS), X2, Y2 by assumption. ring.
  - rewrite X1, Y1 by assumption. ring.
Qed.
(** exactly one equilibrium for all loads and all held values, exactly when the supports leave no displacement without strain *)
Theorem one_equilibrium free : supported n N f terms jac free <->
  forall t g, exists x, equilibrium n N f m terms pos jac params t free g x /\ forall y, equilibrium n N f m terms pos jac params t free g y -> forall i, (i < N)%nat -> y i = x i.
Proof.
  split.
  - intros SU t g. set (h := fun i => if free i then 0 else g i).
    destruct (form_solvable N K KS free) with (l := fun i => load_vector n N f terms pos jac t i - K (unit i) h) as (x & X1 & X2).
    { intros v V0 (i & Hi & NZ). destruct (energy_definite v) as (P & Q). destruct (Rle_lt_or_eq_dec _ _ P) as [L|E]; [exact L|exfalso]. apply NZ. apply SU; auto. now apply Q. }
    assert (EQ : equilibrium n N f m terms pos jac params t free g (fun i => h i + 1 * x i)).
    { apply balance_iff. split; intros i Hi Fi.
      - rewrite X1 by assumption. unfold h. rewrite Fi. ring.
      - rewrite (form_comb_r N K KS), X2 by assumption. ring. }
    exists (fun i => h i + 1 * x i). split; [exact EQ|]. intros y HY i Hi.
    assert (S := equilibria_differ t free g _ _ HY EQ). assert (Z := SU _ S). cbv beta in Z.
    assert (Z' := Z ltac:(intros j Hj Fj; destruct HY as [H1 _]; destruct EQ as [H2 _]; cbv beta in H2; rewrite H1, H2 by assumption; ring) i Hi). lra.
  - intros U v S V0 i Hi. destruct (U 0 (fun _ => 0)) as (x & EX & UX). apply balance_iff in EX as EX'. destruct EX' as [X1 X2].
    assert (EY : equilibrium n N f m terms pos jac params 0 free (fun _ => 0) (fun i => x i + 1 * v i)).
    { apply balance_iff. split; intros j Hj Fj; [rewrite X1, V0 by assumption; ring|]. rewrite (form_comb_r N K KS), X2 by assumption.
      rewrite (form_sym N K KS (unit j) v), (strain_free_no_force v (unit j) S). ring. }
    assert (Q := UX _ EY i Hi). cbv beta in Q. lra.
Qed.
End Unique.

(** ** the linear isotropic law resists every strain when both moduli are positive *)
Lemma trace_bound n (E : mat) : dim23 n -> tr n E * tr n E <= 3 * inner n n E E.
Proof.
  intros D. unfold tr, inner. destruct D as [-> | ->]; cbn [sumn]; assert (forall i j, 0 <= E i j * E i j) as Q by (intros; apply Rle_0_sqr).
  - assert (Q1 := Rle_0_sqr (E 0%nat 0%nat - E 1%nat 1%nat)). unfold Rsqr in *. assert (O1 := Q 0%nat 0%nat). assert (O2 := Q 1%nat 1%nat). assert (O3 := Q 0%nat 1%nat). assert (O4 := Q 1%nat 0%nat). lra.
  - assert (Q1 := Rle_0_sqr (E 0%nat 0%nat - E 1%nat 1%nat)). assert (Q2 := Rle_0_sqr (E 0%nat 0%nat - E 2%nat 2%nat)). assert (Q3 := Rle_0_sqr (E 1%nat 1%nat - E 2%nat 2%nat)). unfold Rsqr in *.
    assert (O1 := Q 0%nat 1%nat). assert (O2 := Q 0%nat 2%nat). assert (O3 := Q 1%nat 0%nat). assert (O4 := Q 1%nat 2%nat). assert (O5 := Q 2%nat 0%nat). assert (O6 := Q 2%nat 1%nat). lra.
Qed.
Theorem isotropic_stiff St n K G : dim23 n -> 0 < K -> 0 < G -> stiff_law n (fun (_ : St) H => Some (linear_isotropic n K G H)).
Proof.
  intros D HK HG st A. unfold stress_of. split.
  - intros NS. assert (P := isotropic_positive n K G A D ltac:(lra) ltac:(lra)). destruct (Rle_lt_or_eq_dec _ _ P) as [L|Z]; [exact L|exfalso]. apply NS.
    unfold linear_isotropic in Z. rewrite iso_inner in Z. set (E := small_strain A) in *. assert (S := trace_bound n E D).
    unfold lame in Z. replace ((K - 2 / 3 * G) * tr n E * tr n E + 2 * G * inner n n E E) with (K * (tr n E * tr n E) + 2 / 3 * (G * (3 * inner n n E E - tr n E * tr n E))) in Z by field.
    assert (T0 : 0 <= tr n E * tr n E) by apply Rle_0_sqr. assert (0 <= K * (tr n E * tr n E)) by (apply Rmult_le_pos; lra).
    assert (0 <= G * (3 * inner n n E E - tr n E * tr n E)) by (apply Rmult_le_pos; lra).
    assert (Z1 : K * (tr n E * tr n E) = 0) by lra. assert (Z2 : G * (3 * inner n n E E - tr n E * tr n E) = 0) by lra.
    apply Rmult_integral in Z1. apply Rmult_integral in Z2. assert (Z3 : inner n n E E = 0) by lra. unfold inner in Z3.
    intros i j Hi Hj. assert (Q := sumn_nonneg_zero _ _ (fun i _ => sumn_nonneg n (fun j => E i j * E i j) (fun j _ => Rle_0_sqr (E i j))) Z3 i Hi). cbv beta in Q.
    assert (Q2 := sumn_nonneg_zero _ _ (fun j _ => Rle_0_sqr (E i j)) Q j Hj). cbv beta in Q2. apply Rmult_integral in Q2. unfold E, small_strain, mscal, madd, transpose in Q2. lra.
  - intros SK. assert (Z : meq n (small_strain A) (fun _ _ => 0)).
    { intros i j Hi Hj. assert (Q := SK i j Hi Hj). unfold small_strain, mscal, madd, transpose. lra. }
    intros i j Hi Hj. unfold linear_isotropic. rewrite iso_entry, (tr_ext n _ _ Z), Z by assumption. unfold tr. rewrite sumn_zero by reflexivity. ring.
Qed.
