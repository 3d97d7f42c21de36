(** * Meshes of triangles and tetrahedra: which supports hold a body (C90) *)
From Coq Require Import NArith ZArith Reals List Lia Lra Bool.
From Verif Require Import Prelude DofCodec Sums Restriction Kernels FunctionalModel Assembly Tensor MatAlg Materials MaterialFacts ShapeAware ShapeDefs WeakForm WeakFormFacts WeakFormPhysics WeakFormWork Fit Ode Energy EnergySolid EnergyRun StoredEnergy StoredEnergyUse PatchTest PatchMesh StiffBody.
Import ListNotations.
Local Open Scope R_scope.

(** ** specification *)
(** the nodes [P] contain two different points in the plane, three points not on a line in space *)
Definition pins (n : nat) (x : nat -> vec) (P : nat -> Prop) : Prop :=
  match n with
  | 2%nat => exists p q, P p /\ P q /\ exists i, (i < 2)%nat /\ x p i <> x q i
  | 3%nat => exists p q r, P p /\ P q /\ P r /\ exists j, (j < 3)%nat /\ cross3 (vsub (x q) (x p)) (vsub (x r) (x p)) j <> 0
  | _ => False end.
(** cells reached from [c0] by crossing common edges, in space common faces *)
Inductive linked {C} (n : nat) (x : nat -> vec) (cells : C -> Prop) (nodes : C -> nat -> Prop) (c0 : C) : C -> Prop :=
| linked_start : cells c0 -> linked n x cells nodes c0 c0
| linked_next c d : linked n x cells nodes c0 c -> cells d -> pins n x (fun a => nodes c a /\ nodes d a) -> linked n x cells nodes c0 d.

(** ** rigid motions *)
Definition rigidly (n : nat) (x h : nat -> vec) (P : nat -> Prop) (W : mat) (b : vec) : Prop :=
  skew n W /\ forall a i, P a -> (i < n)%nat -> h a i = sumn n (fun j => W i j * x a j) + b i.
Lemma parallel (w d e : nat -> R) : (forall i j, (i < 3)%nat -> (j < 3)%nat -> w i * d j = w j * d i) -> (forall i j, (i < 3)%nat -> (j < 3)%nat -> w i * e j = w j * e i) ->
  forall i j k, (i < 3)%nat -> (j < 3)%nat -> (k < 3)%nat -> w k * (d i * e j - d j * e i) = 0.
Proof.
  intros H1 H2 i j k Hi Hj Hk. assert (A := H1 k i Hk Hi). assert (B := H2 i j Hi Hj). assert (C := H1 j k Hj Hk).
  replace (w k * (d i * e j - d j * e i)) with ((w k * d i - w i * d k) * e j + d k * (w i * e j - w j * e i) + (w j * d k - w k * d j) * e i) by ring. rewrite A, B, C. ring.
Qed.
Lemma pinned_zero n x (P : nat -> Prop) W b : dim23 n -> skew n W -> (forall a i, P a -> (i < n)%nat -> sumn n (fun j => W i j * x a j) + b i = 0) -> pins n x P ->
  (forall i j, (i < n)%nat -> (j < n)%nat -> W i j = 0) /\ forall i, (i < n)%nat -> b i = 0.
Proof.
  intros D SK H PN. assert (Z : forall i j, (i < n)%nat -> (j < n)%nat -> W i j = 0).
  { destruct D as [-> | ->]; cbn [pins] in PN.
    - destruct PN as (p & q & Pp & Pq & i0 & Hi0 & NE).
      assert (A0 := H p 0%nat Pp ltac:(lia)). assert (A1 := H p 1%nat Pp ltac:(lia)). assert (B0 := H q 0%nat Pq ltac:(lia)). assert (B1 := H q 1%nat Pq ltac:(lia)). cbn [sumn] in *.
      assert (S0 := SK 0%nat 0%nat ltac:(lia) ltac:(lia)). assert (S1 := SK 1%nat 1%nat ltac:(lia) ltac:(lia)). assert (S2 := SK 0%nat 1%nat ltac:(lia) ltac:(lia)).
      assert (W0 : W 0%nat 0%nat = 0) by lra. assert (W1 : W 1%nat 1%nat = 0) by lra. assert (W2 : W 1%nat 0%nat = - W 0%nat 1%nat) by lra. rewrite W0, W1, W2 in *.
      assert (Q0 : W 0%nat 1%nat * (x p 1%nat - x q 1%nat) = 0) by lra. assert (Q1 : W 0%nat 1%nat * (x p 0%nat - x q 0%nat) = 0) by lra.
      assert (W3 : W 0%nat 1%nat = 0). { apply Rmult_integral in Q0. apply Rmult_integral in Q1. destruct Q0 as [|Q0]; [assumption|]. destruct Q1 as [|Q1]; [assumption|]. exfalso. apply NE. destruct i0 as [|[|i0]]; [lra|lra|lia]. }
      intros i j Hi Hj. destruct i as [|[|i]]; [| |lia]; (destruct j as [|[|j]]; [| |lia]); lra.
    - destruct PN as (p & q & r & Pp & Pq & Pr & j0 & Hj0 & NE).
      assert (S0 := SK 0%nat 0%nat ltac:(lia) ltac:(lia)). assert (S1 := SK 1%nat 1%nat ltac:(lia) ltac:(lia)). assert (S2 := SK 2%nat 2%nat ltac:(lia) ltac:(lia)).
      assert (S3 := SK 0%nat 1%nat ltac:(lia) ltac:(lia)). assert (S4 := SK 0%nat 2%nat ltac:(lia) ltac:(lia)). assert (S5 := SK 1%nat 2%nat ltac:(lia) ltac:(lia)).
      set (w := fun i : nat => match i with O => W 1%nat 2%nat | S O => - W 0%nat 2%nat | _ => W 0%nat 1%nat end).
      assert (V : forall s, P s -> forall i j, (i < 3)%nat -> (j < 3)%nat -> w i * vsub (x s) (x p) j = w j * vsub (x s) (x p) i).
      { intros s Ps. assert (A0 := H p 0%nat Pp ltac:(lia)). assert (A1 := H p 1%nat Pp ltac:(lia)). assert (A2 := H p 2%nat Pp ltac:(lia)).
        assert (B0 := H s 0%nat Ps ltac:(lia)). assert (B1 := H s 1%nat Ps ltac:(lia)). assert (B2 := H s 2%nat Ps ltac:(lia)). cbn [sumn] in *.
        assert (W0 : W 0%nat 0%nat = 0) by lra. assert (W1 : W 1%nat 1%nat = 0) by lra. assert (W2 : W 2%nat 2%nat = 0) by lra.
        assert (W3 : W 1%nat 0%nat = - W 0%nat 1%nat) by lra. assert (W4 : W 2%nat 0%nat = - W 0%nat 2%nat) by lra. assert (W5 : W 2%nat 1%nat = - W 1%nat 2%nat) by lra.
        rewrite W0, W1, W2, W3, W4, W5 in *. intros i j Hi Hj. unfold w, vsub. destruct i as [|[|[|i]]]; [| | |lia]; (destruct j as [|[|[|j]]]; [| | |lia]); lra. }
      assert (Q := parallel w _ _ (V q Pq) (V r Pr)).
      assert (WZ : forall k, (k < 3)%nat -> w k = 0).
      { intros k Hk. destruct (Req_dec (w k) 0) as [|NZ]; [assumption|exfalso]. apply NE. unfold cross3.
        assert (C : forall i j, (i < 3)%nat -> (j < 3)%nat -> vsub (x q) (x p) i * vsub (x r) (x p) j - vsub (x q) (x p) j * vsub (x r) (x p) i = 0).
        { intros i j Hi Hj. assert (E := Q i j k Hi Hj Hk). apply Rmult_integral in E as [E|E]; [contradiction|exact E]. }
        destruct j0 as [|[|j0]]; apply C; lia. }
      assert (E0 := WZ 0%nat ltac:(lia)). assert (E1 := WZ 1%nat ltac:(lia)). assert (E2 := WZ 2%nat ltac:(lia)). unfold w in E0, E1, E2.
      intros i j Hi Hj. destruct i as [|[|[|i]]]; [| | |lia]; (destruct j as [|[|[|j]]]; [| | |lia]); lra. }
  split; [exact Z|]. intros i Hi. assert (E : exists a, P a). { destruct D as [-> | ->]; cbn [pins] in PN; [destruct PN as (p & q & Pp & _)|destruct PN as (p & q & r & Pp & _)]; now exists p. }
  destruct E as (a & Pa). assert (Q := H a i Pa Hi). rewrite sumn_zero in Q by (intros j Hj; rewrite Z by assumption; ring). lra.
Qed.
Lemma one_motion {C} n x h (cells : C -> Prop) (nodes : C -> nat -> Prop) c0 W b : dim23 n -> (forall c, cells c -> exists W b, rigidly n x h (nodes c) W b) -> rigidly n x h (nodes c0) W b ->
  forall c, linked n x cells nodes c0 c -> rigidly n x h (nodes c) W b.
Proof.
  intros D HC H0 c L. induction L as [|c d L IH Hd PN]; [exact H0|]. specialize (IH). destruct (HC d Hd) as (W1 & b1 & S1 & H1). destruct IH as (S & H).
  destruct (pinned_zero n x (fun a => nodes c a /\ nodes d a) (fun i j => W i j - W1 i j) (fun i => b i - b1 i) D) as (Z1 & Z2).
  - intros i j Hi Hj. assert (A := S i j Hi Hj). assert (B := S1 i j Hi Hj). lra.
  - intros a i [Pc Pd] Hi. assert (A := H a i Pc Hi). assert (B := H1 a i Pd Hi).
    rewrite (sumn_ext n _ (fun j => W i j * x a j + (-1) * (W1 i j * x a j))) by (intros; ring). rewrite sumn_plus, sumn_scal_l. lra.
  - exact PN.
  - split; [exact S|]. intros a i Pa Hi. rewrite (H1 a i Pa Hi). assert (Q := Z2 i Hi). cbv beta in Q.
    rewrite (sumn_ext n (fun j => W1 i j * x a j) (fun j => W i j * x a j)) by (intros j Hj; assert (E := Z1 i j Hi Hj); cbv beta in E; replace (W1 i j) with (W i j) by lra; reflexivity). lra.
Qed.
Theorem held_still {C} n x h (cells : C -> Prop) (nodes : C -> nat -> Prop) (held : nat -> Prop) c0 : dim23 n -> (forall c, cells c -> exists W b, rigidly n x h (nodes c) W b) ->
  cells c0 -> (forall c, cells c -> linked n x cells nodes c0 c) -> pins n x (fun a => held a /\ exists c, cells c /\ nodes c a) -> (forall a i, held a -> (i < n)%nat -> h a i = 0) ->
  forall c a i, cells c -> nodes c a -> (i < n)%nat -> h a i = 0.
Proof.
  intros D HC H0 HL PN HH c a i Hc Ha Hi. destruct (HC c0 H0) as (W & b & R0). assert (M := one_motion n x h cells nodes c0 W b D HC R0).
  destruct (pinned_zero n x (fun a => held a /\ exists c, cells c /\ nodes c a) W b D (proj1 R0)) as (Z1 & Z2); [|exact PN|].
  - intros a' i' (Ka & c' & Hc' & Na) Hi'. rewrite <- (proj2 (M c' (HL c' Hc')) a' i' Na Hi'). now apply HH.
  - rewrite (proj2 (M c (HL c Hc)) a i Ha Hi), (Z2 i Hi), sumn_zero; [ring|]. intros j Hj. rewrite Z1 by assumption. ring.
Qed.

(** ** the meshes of the model *)
Section Mesh.
Context {St : Type} (n nn : nat) (o : ordering) (f : functional St) (terms : list (solid_term St)) (pos : nat -> nat -> nat -> nat -> vec) (jac : nat -> nat -> nat -> nat -> mat)
  (xref : nat -> nat -> R).
Definition cell_id : Type := nat * nat * nat.
(** element [le] of geometry [g] of integral [k] is filled with material *)
Definition filled (c : cell_id) : Prop := let '(k, g, le) := c in
  exists Ig G r on rho sigma, nth_error (f_integrals f) k = Some Ig /\ nth_error (i_geoms Ig) g = Some G /\ nth_error (f_test f (i_type Ig)) g = Some r /\ (le < length (gk_elems G))%nat /\
    nth_error terms k = Some (SMaterial on rho sigma).
Definition corner (c : cell_id) (a : nat) : Prop := let '(k, g, le) := c in
  exists Ig G r l, nth_error (f_integrals f) k = Some Ig /\ nth_error (i_geoms Ig) g = Some G /\ nth_error (f_test f (i_type Ig)) g = Some r /\ (l < es_n (gk_test G))%nat /\ a = node_of r (nth le (gk_elems G) 0%nat) l.
(** linear triangles or tetrahedra with at least one quadrature point *)
Definition simplices : Prop := forall k Ig g G on rho sigma, nth_error (f_integrals f) k = Some Ig -> nth_error (i_geoms Ig) g = Some G -> nth_error terms k = Some (SMaterial on rho sigma) ->
  es_n (gk_test G) = S n /\ gk_dim1 G = S n /\ (0 < gk_nq G)%nat /\
  exists s pt, forall l q k0, (l < S n)%nat -> (q < gk_nq G)%nat -> (k0 < n)%nat -> es_B (gk_test G) l q (S k0) = nth k0 (nth l (linear_gradients n s (S n) (pt q)) []) 0.
(** all components of the displacement of node [a] are held *)
Definition clamped (free : nat -> bool) (a : nat) : Prop := forall i, (i < n)%nat -> free (dof_number o nn n a i) = false.

Hypothesis (D : dim23 n) (F : all_fit f) (LY : layout f o nn n) (SX : simplices) (IP : isoparametric n f pos jac xref) (SE : solid_elements n f terms jac).

Lemma dofs_nodal (v : vec) : tab (nn * n) v = nodal o nn n (fun a i => v (dof_number o nn n a i)).
Proof using n nn o.
  clear D F LY SX IP SE. unfold nodal. apply tab_ext. intros l Hl. assert (nn <> 0 /\ n <> 0)%nat as [H1 H2] by (split; intros ->; rewrite ?Nat.mul_0_r in Hl; cbn in Hl; lia). unfold dof_number. destruct o; f_equal.
  - rewrite (Nat.div_mod l nn H1) at 1. lia.
  - rewrite (Nat.div_mod l n H2) at 1. lia.
Qed.
Lemma simplex_slope k Ig g G r on rho sigma h le q i k0 : nth_error (f_integrals f) k = Some Ig -> nth_error (i_geoms Ig) g = Some G -> nth_error terms k = Some (SMaterial on rho sigma) ->
  (q < gk_nq G)%nat -> (k0 < n)%nat -> field_at G r h le q i (S k0) = h (node_of r (nth le (gk_elems G) 0%nat) (S k0)) i - h (node_of r (nth le (gk_elems G) 0%nat) 0%nat) i.
Proof.
  intros E1 E2 ET Hq Hk. destruct (SX k Ig g G on rho sigma E1 E2 ET) as (En & _ & _ & s & pt & HB). unfold field_at, interpolate. rewrite En.
  rewrite (sumn_ext (S n) _ (fun l => h (node_of r (nth le (gk_elems G) 0%nat) l) i * nth k0 (nth l (linear_gradients n s (S n) (pt q)) []) 0)) by (intros l Hl; now rewrite HB).
  destruct D as [-> | ->]; unfold linear_gradients, tri_grad, tet_grad.
  - destruct k0 as [|[|k0]]; [| |lia]; cbn [sumn nth]; ring.
  - destruct k0 as [|[|[|k0]]]; [| | |lia]; cbn [sumn nth]; ring.
Qed.
Lemma cell_rigid v : strain_free n (nn * n) f terms jac v -> forall c, filled c -> exists W b, rigidly n xref (fun a i => v (dof_number o nn n a i)) (corner c) W b.
Proof.
  intros SF [[k g] le] (Ig & G & r & on & rho & sigma & E1 & E2 & E3 & Hle & ET). set (h := fun a i => v (dof_number o nn n a i)).
  destruct (SX k Ig g G on rho sigma E1 E2 ET) as (En & Ed & Hq & _). assert (SK := SF k Ig g G r le 0%nat on rho sigma E1 E2 E3 Hle Hq ET).
  rewrite dofs_nodal in SK. fold h in SK. set (W := grad_at n (jac k g le 0%nat) (test_field G r (nodal o nn n h) le 0%nat)) in *.
  set (nd := node_of r (nth le (gk_elems G) 0%nat)). exists W, (fun i => h (nd 0%nat) i - sumn n (fun j => W i j * xref (nd 0%nat) j)). split; [exact SK|].
  assert (DET := SE k Ig g G le 0%nat E1 E2 Hle Hq on rho sigma ET). destruct (invn_works n (jac k g le 0%nat) D) as (K & EK); [intros Z; rewrite Z in DET; lra|].
  destruct (invn_some n _ K D EK) as (JK & KJ & _).
  assert (ST : forall i k0, (i < n)%nat -> (k0 < n)%nat -> h (nd (S k0)) i - h (nd 0%nat) i = sumn n (fun j => W i j * (xref (nd (S k0)) j - xref (nd 0%nat) j))).
  { intros i k0 Hi Hk. assert (FT := F Ig g G r (nth_error_In _ _ E1) E2 E3).
    assert (TF : forall b, test_field G r (nodal o nn n h) le 0%nat i b = field_at G r h le 0%nat i b) by (intros b; apply (test_field_nodal f o nn n (i_type Ig)); [exact LY|exact (nth_error_In _ _ E3)|exact FT|exact Hle|exact Hi]).
    assert (U := simplex_slope k Ig g G r on rho sigma h le 0%nat i k0 E1 E2 ET Hq Hk). fold nd in U. rewrite <- U.
    assert (JJ : forall j, (j < n)%nat -> xref (nd (S k0)) j - xref (nd 0%nat) j = jac k g le 0%nat j k0).
    { intros j Hj. assert (V := simplex_slope k Ig g G r on rho sigma xref le 0%nat j k0 E1 E2 ET Hq Hk). fold nd in V. rewrite <- V. apply (proj2 (IP k Ig g G r le 0%nat E1 E2 E3 Hle Hq)); [exact Hj|lia]. }
    rewrite (sumn_ext n _ (fun j => sumn n (fun l => field_at G r h le 0%nat i (S l) * (K l j * jac k g le 0%nat j k0)))).
    2:{ intros j Hj. rewrite JJ by exact Hj. unfold W, grad_at. rewrite EK, <- sumn_scal_r. apply sumn_ext. intros l Hl. rewrite TF. ring. }
    rewrite sumn_swap. rewrite (sumn_ext n _ (fun l => if Nat.eqb l k0 then field_at G r h le 0%nat i (S l) else 0)); [now rewrite (sumn_delta n k0 (fun l => field_at G r h le 0%nat i (S l)))|].
    intros l Hl. rewrite sumn_scal_l. assert (Q := KJ l k0 Hl Hk). unfold mmul, ident in Q. rewrite Q. destruct (Nat.eqb l k0); ring. }
  intros a i (Ig' & G' & r' & l & F1 & F2 & F3 & Hl & ->) Hi. rewrite E1 in F1. injection F1 as <-. rewrite E2 in F2. injection F2 as <-. rewrite E3 in F3. injection F3 as <-. fold nd. cbv beta.
  rewrite En in Hl. destruct l as [|l]; [ring|]. assert (Q := ST i l Hi ltac:(lia)).
  rewrite (sumn_ext n _ (fun j => W i j * xref (nd (S l)) j + (-1) * (W i j * xref (nd 0%nat) j))) in Q by (intros; ring). rewrite sumn_plus, sumn_scal_l in Q.
  change (h (nd (S l)) i = sumn n (fun j => W i j * xref (nd (S l)) j) + (h (nd 0%nat) i - sumn n (fun j => W i j * xref (nd 0%nat) j))). lra.
Qed.
(** elements linked across edges or faces which reach every node, clamped at two nodes in the plane or three in space *)
Theorem simplices_supported free c0 : filled c0 -> (forall c, filled c -> linked n xref filled corner c0 c) -> (forall a, (a < nn)%nat -> exists c, filled c /\ corner c a) ->
  pins n xref (fun a => (a < nn)%nat /\ clamped free a) -> supported n (nn * n) f terms jac free.
Proof.
  intros H0 HL HC PN v SF V0. set (h := fun a i => v (dof_number o nn n a i)).
  assert (Z : forall a i, (a < nn)%nat -> (i < n)%nat -> h a i = 0).
  { intros a i Ha Hi. destruct (HC a Ha) as (c & Hc & Na).
    refine (held_still n xref h filled corner (fun a => (a < nn)%nat /\ clamped free a) c0 D (cell_rigid v SF) H0 HL _ _ c a i Hc Na Hi).
    - unfold pins in *. destruct n as [|[|[|[|n']]]]; try contradiction.
      + destruct PN as (p & q & P1 & P2 & R). exists p, q. split; [split; [exact P1|apply HC, P1]|]. split; [split; [exact P2|apply HC, P2]|exact R].
      + destruct PN as (p & q & r & P1 & P2 & P3 & R). exists p, q, r. split; [split; [exact P1|apply HC, P1]|]. split; [split; [exact P2|apply HC, P2]|]. split; [split; [exact P3|apply HC, P3]|exact R].
    - intros b j (Hb & Kb) Hj. unfold h. apply V0; [|now apply Kb]. unfold dof_number. destruct o; nia. }
  intros l Hl. assert (E := f_equal (fun t => nth l t 0) (dofs_nodal v)). cbv beta in E. rewrite nth_tab in E by exact Hl. rewrite E.
  unfold nodal. rewrite nth_tab by exact Hl. assert (nn <> 0 /\ n <> 0)%nat as [H1 H2] by (split; intros ->; rewrite ?Nat.mul_0_r in Hl; cbn in Hl; lia).
  destruct o; apply Z.
  - now apply Nat.mod_upper_bound.
  - apply Nat.div_lt_upper_bound; [exact H1|lia].
  - apply Nat.div_lt_upper_bound; [exact H2|lia].
  - now apply Nat.mod_upper_bound.
Qed.
End Mesh.

(** ** such a body has exactly one equilibrium under any load and any prescribed displacements *)
Theorem mesh_equilibrium {St} n nn o (f : functional St) m terms pos jac xref params : dim23 n -> List.Forall (linear_elastic n) terms -> all_fit f -> two_spaces n f -> layout f o nn n ->
  simplices n f terms -> isoparametric n f pos jac xref -> solid_elements n f terms jac -> stiff n terms -> (forall t x, exists L, nodal_forces n (nn * n) f m terms pos jac params t x rest L) ->
  forall free c0, filled f terms c0 -> (forall c, filled f terms c -> linked n xref (filled f terms) (corner f) c0 c) -> (forall a, (a < nn)%nat -> exists c, filled f terms c /\ corner f c a) ->
  pins n xref (fun a => (a < nn)%nat /\ clamped n nn o free a) ->
  forall t g, exists x, equilibrium n (nn * n) f m terms pos jac params t free g x /\ forall y, equilibrium n (nn * n) f m terms pos jac params t free g y -> forall i, (i < nn * n)%nat -> y i = x i.
Proof.
  intros D LE F TS LY SX IP SE SF EV free c0 H0 HL HC PN. apply (one_equilibrium n (nn * n) f m terms pos jac params D LE F TS SE SF EV free).
  exact (simplices_supported n nn o f terms pos jac xref D F LY SX IP SE free c0 H0 HL HC PN).
Qed.
