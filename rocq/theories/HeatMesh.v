(** * Which meshes hold a temperature (C91): linear triangles and tetrahedra *)
From Coq Require Import NArith ZArith Reals List Lia Lra Bool.
From Verif Require Import Prelude DofCodec Sums Restriction Kernels FunctionalModel Assembly Tensor MatAlg Materials MaterialFacts ShapeAware ShapeDefs WeakForm WeakFormFacts WeakFormPhysics WeakFormWork Fit Ode Energy EnergySolid EnergyRun EnergyHeat PatchTest PatchMesh StiffBody StiffMesh HeatUnique.
Import ListNotations.
Local Open Scope R_scope.

(** ** specification *)
Section Mesh.
Context {St : Type} (n nn : nat) (o : ordering) (f : functional St) (m : mem St) (terms : list heat_term) (pos : nat -> nat -> nat -> nat -> vec) (jac : nat -> nat -> nat -> nat -> mat).
(** node [a] is a corner of an element filled with material *)
Definition material_corner (k g le a : nat) : Prop := exists Ig G r mm l,
  nth_error (f_integrals f) k = Some Ig /\ nth_error (i_geoms Ig) g = Some G /\ nth_error (f_test f (i_type Ig)) g = Some r /\ nth_error terms k = Some (HMaterial mm) /\ (le < length (gk_elems G))%nat /\
  (l < es_n (gk_test G))%nat /\ a = node_of r (nth le (gk_elems G) 0%nat) l.
(** nodes reached from [a0] through elements filled with material *)
Inductive reached (a0 : nat) : nat -> Prop :=
| reached_start : reached a0 a0
| reached_next k g le a b : reached a0 a -> material_corner k g le a -> material_corner k g le b -> reached a0 b.
(** linear triangles or tetrahedra with at least one quadrature point *)
Definition conducting_simplices : Prop := forall k Ig g G mm, nth_error (f_integrals f) k = Some Ig -> nth_error (i_geoms Ig) g = Some G -> nth_error terms k = Some (HMaterial mm) ->
  es_n (gk_test G) = S n /\ (0 < gk_nq G)%nat /\
  exists s pt, forall l q k0, (l < S n)%nat -> (q < gk_nq G)%nat -> (k0 < n)%nat -> es_B (gk_test G) l q (S k0) = nth k0 (nth l (linear_gradients n s (S n) (pt q)) []) 0.

Hypothesis (D : dim23 n) (F : all_fit f) (LY : layout f o nn 1) (SX : conducting_simplices) (SE : sound_elements n f terms jac).
Notation at_node v := (fun a i => v (dof_number o nn 1 a i)).

Lemma cell_field (v : vec) Ig g G r le q b : In Ig (f_integrals f) -> nth_error (i_geoms Ig) g = Some G -> nth_error (f_test f (i_type Ig)) g = Some r -> (le < length (gk_elems G))%nat ->
  test_field G r (tab (nn * 1) v) le q 0%nat b = sumn (es_n (gk_test G)) (fun l => v (dof_number o nn 1 (node_of r (nth le (gk_elems G) 0%nat) l) 0) * es_B (gk_test G) l q b).
Proof.
  intros HI E2 E3 Hle. rewrite (dofs_nodal 1 nn o v). rewrite (test_field_nodal f o nn 1 (i_type Ig) G r (at_node v) le q 0 b LY (nth_error_In _ _ E3) (F Ig g G r HI E2 E3) Hle) by lia. reflexivity.
Qed.
(** a level temperature is the same at all corners of an element *)
Lemma cell_level v k g le a b : level n (nn * 1) f terms pos jac v -> material_corner k g le a -> material_corner k g le b -> v (dof_number o nn 1 a 0) = v (dof_number o nn 1 b 0).
Proof.
  intros LV (Ig & G & r & mm & la & E1 & E2 & E3 & ET & Hle & Hla & ->) (Ig' & G' & r' & mm' & lb & E1' & E2' & E3' & _ & _ & Hlb & ->).
  rewrite E1 in E1'. injection E1' as <-. rewrite E2 in E2'. injection E2' as <-. rewrite E3 in E3'. injection E3' as <-.
  destruct (SX k Ig g G mm E1 E2 ET) as (En & Hq & s & pt & HB). assert (LQ := LV k Ig g G r le 0%nat E1 E2 E3 Hle Hq). rewrite ET in LQ.
  destruct (SE k Ig g G le 0%nat E1 E2 Hle Hq) as [_ PJ]. rewrite ET in PJ. destruct (invn_works n (jac k g le 0%nat) D) as (K & EK); [lra|]. destruct (invn_some n _ K D EK) as (_ & KJ & _).
  set (nd := node_of r (nth le (gk_elems G) 0%nat)). set (u := test_field G r (tab (nn * 1) v) le 0%nat) in *.
  assert (U : forall k0, (k0 < n)%nat -> u 0%nat (S k0) = v (dof_number o nn 1 (nd (S k0)) 0) - v (dof_number o nn 1 (nd 0%nat) 0)).
  { intros k0 Hk. unfold u. rewrite (cell_field v Ig g G r le 0%nat (S k0) (nth_error_In _ _ E1) E2 E3 Hle). fold nd. rewrite En.
    rewrite (sumn_ext (S n) _ (fun l => v (dof_number o nn 1 (nd l) 0) * nth k0 (nth l (linear_gradients n s (S n) (pt 0%nat)) []) 0)) by (intros l Hl; now rewrite HB).
    destruct D as [-> | ->]; unfold linear_gradients, tri_grad, tet_grad.
    - destruct k0 as [|[|k0]]; [| |lia]; cbn [sumn nth]; ring.
    - destruct k0 as [|[|[|k0]]]; [| | |lia]; cbn [sumn nth]; ring. }
  assert (Z : forall k0, (k0 < n)%nat -> u 0%nat (S k0) = 0).
  { intros k0 Hk. transitivity (sumn n (fun j => grad_at n (jac k g le 0%nat) u 0%nat j * jac k g le 0%nat j k0)).
    - unfold grad_at. rewrite EK. rewrite (sumn_ext n _ (fun j => sumn n (fun l => u 0%nat (S l) * (K l j * jac k g le 0%nat j k0)))) by (intros j Hj; rewrite <- sumn_scal_r; apply sumn_ext; intros; ring).
      rewrite sumn_swap. rewrite (sumn_ext n _ (fun l => if Nat.eqb l k0 then u 0%nat (S l) else 0)); [now rewrite (sumn_delta n k0 (fun l => u 0%nat (S l)))|].
      intros l Hl. rewrite sumn_scal_l. assert (Q := KJ l k0 Hl Hk). unfold mmul, ident in Q. rewrite Q. destruct (Nat.eqb l k0); ring.
    - apply sumn_zero. intros j Hj. rewrite (LQ j Hj). ring. }
  assert (A : forall l, (l < S n)%nat -> v (dof_number o nn 1 (nd l) 0) = v (dof_number o nn 1 (nd 0%nat) 0)).
  { intros [|l] Hl; [reflexivity|]. assert (Q1 := U l ltac:(lia)). assert (Q2 := Z l ltac:(lia)). lra. }
  rewrite En in Hla, Hlb. now rewrite (A la Hla), (A lb Hlb).
Qed.
Lemma nodes_zero (v : vec) : (forall a, (a < nn)%nat -> v (dof_number o nn 1 a 0) = 0) -> forall i, (i < nn * 1)%nat -> v i = 0.
Proof. intros H i Hi. assert (E := H i ltac:(lia)). replace (dof_number o nn 1 i 0) with i in E by (unfold dof_number; destruct o; lia). exact E. Qed.
(** every node is reached from a node whose temperature is held *)
Theorem simplices_anchored free : (forall a, (a < nn)%nat -> exists a0, (a0 < nn)%nat /\ free (dof_number o nn 1 a0 0) = false /\ reached a0 a) -> anchored n (nn * 1) f terms pos jac free.
Proof.
  intros HR v LV V0. apply nodes_zero. intros a Ha. destruct (HR a Ha) as (a0 & Ha0 & F0 & R).
  assert (Z0 : v (dof_number o nn 1 a0 0) = 0) by (apply V0; [unfold dof_number; destruct o; lia|exact F0]).
  clear Ha HR. induction R as [|k g le a b R IH Ca Cb]; [exact Z0|]. now rewrite <- (cell_level v k g le a b LV Ca Cb).
Qed.
(** nothing need be held for a time step: every node is a corner of an element *)
Theorem simplices_cold v : unity f -> (forall a, (a < nn)%nat -> exists k g le, material_corner k g le a) -> level n (nn * 1) f terms pos jac v -> cold (nn * 1) f terms v ->
  forall i, (i < nn * 1)%nat -> v i = 0.
Proof.
  intros UN HC LV CV. apply nodes_zero. intros a Ha. destruct (HC a Ha) as (k & g & le & MC). assert (MC' := MC). destruct MC' as (Ig & G & r & mm & la & E1 & E2 & E3 & ET & Hle & Hla & Ea).
  destruct (SX k Ig g G mm E1 E2 ET) as (En & Hq & _). assert (Z := CV k Ig g G r le 0%nat mm E1 E2 E3 Hle Hq ET).
  rewrite (cell_field v Ig g G r le 0%nat 0%nat (nth_error_In _ _ E1) E2 E3 Hle) in Z.
  rewrite (sumn_ext _ _ (fun l => v (dof_number o nn 1 a 0) * es_B (gk_test G) l 0 0)) in Z.
  - rewrite sumn_scal_l in Z. destruct (UN Ig G 0%nat (nth_error_In _ _ E1) (nth_error_In _ _ E2) Hq) as [U0 U1]. rewrite (U1 0%nat U0) in Z. cbn [Nat.eqb] in Z. lra.
  - intros l Hl. rewrite (cell_level v k g le a (node_of r (nth le (gk_elems G) 0%nat) l) LV MC); [reflexivity|]. exists Ig, G, r, mm, l. repeat split; assumption.
Qed.
End Mesh.

(** ** such a body has exactly one steady temperature, and every implicit step exactly one answer *)
Theorem mesh_steady {St} n nn o (f : functional St) m terms pos jac params : dim23 n -> List.Forall (linear_heat n) terms -> all_fit f -> two_spaces 1 f -> layout f o nn 1 ->
  conducting_simplices n f terms -> sound_elements n f terms jac -> conductive n terms -> (forall t x a, exists L, heat_flows n (nn * 1) f m terms pos jac params t x a L) ->
  forall free, (forall a, (a < nn)%nat -> exists a0, (a0 < nn)%nat /\ free (dof_number o nn 1 a0 0) = false /\ reached f terms a0 a) ->
  forall t g, exists x, steady n (nn * 1) f m terms pos jac params t free g x /\ forall y, steady n (nn * 1) f m terms pos jac params t free g y -> forall i, (i < nn * 1)%nat -> y i = x i.
Proof.
  intros D LH F TS LY SX SE CV EV free HR. apply (one_steady n (nn * 1) f m terms pos jac params D LH F TS SE CV EV free). exact (simplices_anchored n nn o f terms pos jac D F LY SX SE free HR).
Qed.
Theorem mesh_step {St} n nn o (f : functional St) m terms pos jac params : dim23 n -> List.Forall (linear_heat n) terms -> all_fit f -> two_spaces 1 f -> layout f o nn 1 -> unity f ->
  conducting_simplices n f terms -> sound_elements n f terms jac -> conductive n terms -> capacious terms -> (forall t x a, exists L, heat_flows n (nn * 1) f m terms pos jac params t x a L) ->
  (forall a, (a < nn)%nat -> exists k g le, material_corner f terms k g le a) ->
  forall dt free, 0 < dt -> forall t u g, exists a, step_answer n (nn * 1) f m terms pos jac params t dt free u g a /\
    forall a', step_answer n (nn * 1) f m terms pos jac params t dt free u g a' -> forall i, (i < nn * 1)%nat -> a' i = a i.
Proof.
  intros D LH F TS LY UN SX SE CV CP EV HC dt free Hd. apply (one_step n (nn * 1) f m terms pos jac params D LH F TS SE CV EV dt free CP Hd).
  intros v LV CD _. exact (simplices_cold n nn o f terms pos jac D F LY SX SE v UN HC LV CD).
Qed.
(** Fourier's law with a positive definite conductivity *)
Theorem fourier_conducting n c kappa : (forall h : vec, (exists i, (i < n)%nat /\ h i <> 0) -> 0 < sumn n (fun i => h i * sumn n (fun j => kappa i j * h j))) -> conducting n (fourier_law n c kappa).
Proof.
  intros P X h NZ. unfold dotn. rewrite (sumn_ext n _ (fun i => h i * sumn n (fun j => kappa i j * h j))) by (intros i Hi; rewrite fourier_conducted; ring). now apply P.
Qed.
