(** * A bar on two processes: what C79 asks of a divided mesh *)
From Coq Require Import NArith ZArith Reals List Lia Lra Bool Permutation.
From Verif Require Import Prelude DofCodec Sums Restriction Csr Kernels FunctionalModel FunctionalGrad FunctionalTotal Assembly FunctionalEx Tensor BoundaryElim
  ParallelModel ParallelFacts ParallelSum ParallelMatrix ParallelEx QuasiStatic Programs ProgramRuns ProgramSizes.
Import ListNotations.
Local Open Scope R_scope.

Definition both (w : nat) : list (list entry) := [keys first; keys second].
Lemma bar_shared : exists c, shared (fun _ => True) whole (local_functional whole) 3 (fun _ => 3%nat) two both (fun _ => c).
Proof.
  destruct (table_there whole 0 (keys whole) (whole_tabulated 0)) as (c & E & _). exists c. constructor.
  - repeat split.
  - exact two_divide.
  - intros w _. split; [reflexivity|]. intros k o [H|[H|[]]]; inversion H; subst; [apply first_tabulated|apply second_tabulated].
  - exists (fun _ => [keys whole]). intros w _. exists (keys whole). split; [reflexivity|]. split; [apply whole_tabulated|exact E].
Qed.

(** one damped step of Newton's method, from 1, 2, 4 towards a solution held at node 0 *)
Definition at_rest : state (St := R) :=
  {| s_u := [1; 2; 4]; s_t := 0; s_cycle := 0; s_mem := before_whole; s_prev := fun _ => [0; 0; 0]; s_react := [0; 0; 0]; s_saved := []; s_files := [] |}.
Definition pull : load :=
  {| l_dt := 1; l_others := fun _ => [0; 0; 0]; l_warm := true; l_lin := fun A b i => b i;
     l_solver := fun x0 => AskResidual x0 (fun r => AskJacobian x0 (fun J => Give (fun i => x0 i - r i * J i i) true)) |}.
Lemma bar_case : exists c l ms, shared (fun _ => True) whole (local_functional whole) 3 (fun _ => 3%nat) two both (fun _ => c) /\
  remember whole two before_whole [fresh 0; before_second] /\
  run_steps (local_functional whole) 3 c (Nat.eqb 0) (fun _ _ => 1) [pull; pull] at_rest = Ok l /\ length l = 2%nat /\
  together (map fst two) 3 (fun _ => 3%nat) both (p_run 3 (Nat.eqb 0) (fun _ _ => 1) [pull; pull] (bare at_rest)) [fresh 0; before_second] = Ok (map bare l, ms).
Proof.
  destruct bar_shared as (c & Sh). assert (Fo : List.Forall (fun ld => fitting (fun _ => 3%nat) (l_others ld)) [pull; pull]) by (repeat constructor).
  destruct (divided_quasi_static whole (local_functional whole) 3 (fun _ => 3%nat) two both (fun _ => c) (fun _ => True) Sh eq_refl Logic.I (Nat.eqb 0) (fun _ _ => 1) [pull; pull] at_rest
    [fresh 0; before_second]) as (l & ms & A & B & _); [split; [reflexivity|intros H w; reflexivity]|exact Fo|exact two_remember|].
  exists c, l, ms. repeat (split; [assumption|]). split; [exact two_remember|]. split; [exact A|]. split; [|exact B].
  assert (C := run_chain _ 3 c (Nat.eqb 0) (fun _ _ => 1) (fun _ => 3%nat) (shared_ready whole (local_functional whole) 3 (fun _ => 3%nat) two both (fun _ => c) (fun _ => True) Sh eq_refl Logic.I)
    [pull; pull] at_rest l (conj eq_refl (fun _ _ => eq_refl)) Fo A).
  destruct l as [|s1 [|s2 [|s3 l]]]; cbn in C; tauto.
Qed.
