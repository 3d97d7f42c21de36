(** * The square of four triangles in motion: non-vacuity witness for C94 *)
From Coq Require Import NArith ZArith Reals List Lia Lra Bool.
From Verif Require Import Prelude DofCodec Sums Restriction Kernels FunctionalModel Assembly Tensor MatAlg Materials MaterialFacts ShapeAware ShapeDefs WeakForm WeakFormFacts WeakFormPhysics WeakFormWork WeakFormEx Fit Ode Energy EnergySolid EnergyRun EnergyEx StoredEnergy StoredEnergyUse PatchTest PatchMesh PatchGeom PatchEx StiffBody StiffMesh StiffEx MotionUnique.
Import ListNotations.
Local Open Scope R_scope.

Lemma k_heavy : heavy kterms.
Proof. intros on rho sigma [E|[E|[]]]; [|discriminate]. injection E as <- <- <-. lra. Qed.
Lemma k_moving t x a : exists L, nodal_forces 2 (5 * 2) kf ex_mem kterms ppos pjac kparams t x a L.
Proof.
  destruct (evaluate_spec kf t None false (arguments (5 * 2) kparams x a) (5 * 2) ex_mem (k_wf x a)) as (L & E & _). exists L. split; [apply k_wf|]. split; [apply k_residual|]. exists None, false, ex_mem. exact E.
Qed.
Lemma k_value v le q i b : (le < 4)%nat -> (i < 2)%nat -> test_field (pG 0 kM) pr (tab (5 * 2) v) le q i b = sumn 3 (fun l => v (2 * pn le l + i)%nat * tri_B l q b).
Proof.
  intros Hle Hi. rewrite (dofs_nodal 2 5 byVDIM v). rewrite (test_field_nodal kf byVDIM 5 2 Elements (pG 0 kM) pr _ le q i b k_layout (or_introl eq_refl) (k_fit _ 0%nat _ _ (or_introl eq_refl) eq_refl eq_refl) Hle Hi).
  unfold field_at, interpolate. cbn [pG is_volume gk_test gk_elems es_n es_B tri_space kM]. apply sumn_ext. intros l Hl. rewrite p_node by lia. unfold dof_number. f_equal. f_equal. lia.
Qed.
(** nothing is held: the square flies freely *)
Definition flying (_ : nat) : bool := true.
Lemma k_flight v : strain_free 2 (5 * 2) kf kterms pjac v -> unmoved 2 (5 * 2) kf kterms v -> forall i, (i < 5 * 2)%nat -> v i = 0.
Proof.
  intros SF UM.
  assert (Z : forall le, (le < 4)%nat -> exists w b0 b1, (forall l, (l < 3)%nat -> v (2 * pn le l)%nat = w * px (pn le l) 1%nat + b0 /\ v (2 * pn le l + 1)%nat = - w * px (pn le l) 0%nat + b1) /\
    v (2 * pn le 0)%nat + v (2 * pn le 1)%nat + v (2 * pn le 2)%nat = 0 /\ v (2 * pn le 0 + 1)%nat + v (2 * pn le 1 + 1)%nat + v (2 * pn le 2 + 1)%nat = 0).
  { intros le Hle. destruct (cell_rigid 2 5 byVDIM kf kterms ppos pjac px (or_introl eq_refl) k_fit k_layout k_simplices k_iso k_solid v SF (0, 0, le)%nat (k_filled le Hle)) as (W & b & SK & HW).
    exists (W 0%nat 1%nat), (b 0%nat), (b 1%nat). assert (S0 := SK 0%nat 0%nat ltac:(lia) ltac:(lia)). assert (S1 := SK 1%nat 1%nat ltac:(lia) ltac:(lia)). assert (S2 := SK 0%nat 1%nat ltac:(lia) ltac:(lia)).
    assert (W0 : W 0%nat 0%nat = 0) by lra. assert (W1 : W 1%nat 1%nat = 0) by lra. assert (W2 : W 1%nat 0%nat = - W 0%nat 1%nat) by lra.
    split.
    - intros l Hl. assert (A := HW (pn le l) 0%nat (k_corner le l Hle Hl) ltac:(lia)). assert (B := HW (pn le l) 1%nat (k_corner le l Hle Hl) ltac:(lia)). cbv beta in A, B. unfold dof_number in A, B. cbn [sumn] in A, B. rewrite W0 in A. rewrite W1, W2 in B.
      replace (0 + pn le l * 2)%nat with (2 * pn le l)%nat in A by lia. replace (pn le l * 2 + 0)%nat with (2 * pn le l)%nat in A by lia.
      replace (1 + pn le l * 2)%nat with (2 * pn le l + 1)%nat in B by lia. replace (pn le l * 2 + 1)%nat with (2 * pn le l + 1)%nat in B by lia. split; lra.
    - assert (A : forall i, (i < 2)%nat -> v (2 * pn le 0 + i)%nat + v (2 * pn le 1 + i)%nat + v (2 * pn le 2 + i)%nat = 0).
      { intros i Hi. assert (U := UM 0%nat (pI 0 kM) 0%nat (pG 0 kM) pr le 0%nat false 3 (fun _ H => Some (linear_isotropic 2 2 1 H)) eq_refl eq_refl eq_refl Hle ltac:(cbn; lia) eq_refl i Hi).
        rewrite k_value in U by assumption. cbn [sumn tri_B] in U. lra. }
      assert (A0 := A 0%nat ltac:(lia)). rewrite !Nat.add_0_r in A0. split; [exact A0|apply A; lia]. }
  destruct (Z 0%nat ltac:(lia)) as (w0 & p0 & q0 & H0 & C0 & D0). destruct (Z 1%nat ltac:(lia)) as (w1 & p1 & q1 & H1 & C1 & D1). destruct (Z 2%nat ltac:(lia)) as (w2 & p2 & q2 & H2 & C2 & D2).
  destruct (H0 0%nat ltac:(lia)) as [A0 B0]. destruct (H0 1%nat ltac:(lia)) as [A1 B1]. destruct (H0 2%nat ltac:(lia)) as [A2 B2].
  destruct (H1 0%nat ltac:(lia)) as [A3 B3]. destruct (H1 1%nat ltac:(lia)) as [A4 B4]. destruct (H1 2%nat ltac:(lia)) as [A5 B5].
  destruct (H2 0%nat ltac:(lia)) as [A6 B6]. destruct (H2 1%nat ltac:(lia)) as [A7 B7]. destruct (H2 2%nat ltac:(lia)) as [A8 B8].
  unfold pn in *. cbn [nth px Nat.mul Nat.add] in *. clear Z H0 H1 H2 SF UM.
  intros i Hi. destruct i as [|[|[|[|[|[|[|[|[|[|i]]]]]]]]]]; [| | | | | | | | | |lia]; lra.
Qed.
(** neighbouring corners move against each other: with one quadrature point in each triangle the mass matrix does not see it *)
Definition hourglass : vec := fun d => nth d [1; 0; -1; 0; 1; 0; -1; 0; 0; 0] 0.
Lemma k_hourglass : unmoved 2 (5 * 2) kf kterms hourglass.
Proof.
  intros k Ig g G r le q on rho sigma E1 E2 E3 Hle Hq ET i Hi. destruct k as [|[|k]]; [|discriminate|destruct k; discriminate]. injection E1 as <-. destruct g as [|g]; [|destruct g; discriminate]. injection E2 as <-. injection E3 as <-.
  cbn [pG is_volume gk_elems length gk_nq kM] in Hle, Hq. rewrite k_value by assumption. unfold hourglass.
  destruct le as [|[|[|[|le]]]]; [| | | |lia]; unfold pn; (destruct i as [|[|i]]; [| |lia]); cbn [sumn nth Nat.mul Nat.add tri_B]; lra.
Qed.
