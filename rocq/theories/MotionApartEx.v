(** * The square of four triangles with one free degree of freedom: non-vacuity witness for C96 *)
From Coq Require Import NArith ZArith Reals List Lia Lra Bool.
From Verif Require Import Prelude DofCodec Sums Restriction Kernels FunctionalModel Assembly Tensor MatAlg Materials MaterialFacts ShapeAware ShapeDefs WeakForm WeakFormFacts WeakFormPhysics WeakFormWork WeakFormEx Fit Ode Energy EnergySolid EnergyRun EnergyEx StoredEnergy StoredEnergyUse PatchTest PatchMesh PatchGeom PatchEx StiffBody StiffMesh StiffEx HeatUnique MotionUnique MotionUniqueEx MotionApart.
Import ListNotations.
Local Open Scope R_scope.

(** all but the horizontal displacement of the node in the middle is prescribed *)
Definition kess (i : nat) : bool := negb (Nat.eqb i 8).
Lemma k_held : supported 2 (5 * 2) kf kterms pjac (fun i => negb (kess i)).
Proof.
  assert (S0 : supported 2 (5 * 2) kf kterms pjac kfree).
  { refine (simplices_supported 2 5 byVDIM kf kterms ppos pjac px (or_introl eq_refl) k_fit k_layout k_simplices k_iso k_solid kfree (0, 0, 0)%nat (k_filled 0 ltac:(lia)) _ k_nodes k_pinned).
    intros c H. destruct (k_cells c H) as (le & Hl & ->). now apply k_linked. }
  intros v SV H. apply S0; [exact SV|]. intros i Hi E. apply H; [exact Hi|]. unfold kfree in E. unfold kess. destruct (Nat.eqb_spec i 8) as [->|]; [discriminate|reflexivity].
Qed.
Lemma k_solver g : exists solver, solves (elastic_problem (5 * 2) kf ex_mem kparams kess g) solver.
Proof.
  destruct (elastic_case Datatypes.unit 2 (5 * 2) kf ex_mem kterms ppos pjac kparams kess g (or_introl eq_refl) k_linear k_wf k_fit k_spaces k_residual) as [_ LM].
  eexists. apply (one_free_solves (elastic_problem (5 * 2) kf ex_mem kparams kess g) _ _ _ 8 (mass_symmetric 2 (5 * 2) kf kterms pjac) (stiffness_symmetric 2 (5 * 2) kf ex_mem kterms pjac k_linear) LM).
  - cbn. lia.
  - reflexivity.
  - destruct (mass_definite 2 (5 * 2) kf kterms pjac k_solid k_heavy (unit_at 8)) as [P Z]. destruct (Rle_lt_or_eq_dec _ _ P) as [Q|Q]; [exact Q|]. exfalso. symmetry in Q. apply Z in Q.
    assert (U := Q 0%nat (pI 0 kM) 0%nat (pG 0 kM) pr 0%nat 0%nat false 3 (fun _ H => Some (linear_isotropic 2 2 1 H)) eq_refl eq_refl eq_refl ltac:(cbn; lia) ltac:(cbn; lia) eq_refl 0%nat ltac:(lia)).
    rewrite k_value in U by lia. unfold pn, unit_at in U. cbn [sumn nth Nat.mul Nat.add Nat.eqb tri_B] in U. lra.
  - apply (energy_definite 2 (5 * 2) kf ex_mem kterms pjac k_solid k_stiff).
Qed.
