(** * Families of runs which depend continuously on the parameter (C74, C77, C78): those of QuasiAdjointEx.v, HeatBackEx.v and MotionBackEx.v *)
From Coq Require Import NArith ZArith Reals List Lia Lra Bool.
From Coquelicot Require Import Coquelicot.
From Verif Require Import Prelude DofCodec Sums Restriction Csr Kernels FunctionalModel FunctionalGrad FunctionalTotal Assembly FunctionalEx Tensor MatAlg BoundaryElim Adjoint AdjointDeriv Ode
  QuasiStatic QuasiAdjoint QuasiGradient QuasiAdjointEx Transient TransientFacts JointRate HeatBack HeatGradient HeatBackEx MotionBack MotionGradient MotionBackEx Implicit ImplicitRuns.
Import ListNotations.
Local Open Scope R_scope.

Lemma near_of n (g h : R -> list R) : (forall eps, g eps = h eps) -> (forall i eps, (i < n)%nat -> ex_derive (fun s => nth i (h s) 0) eps) -> continuous_near n (fun eps => entries (g eps)).
Proof.
  intros E D i Hi. exists (mkposreal 1 Rlt_0_1). intros eps _. apply (continuous_ext (fun s => nth i (h s) 0)); [intros s; unfold entries; now rewrite E|].
  apply (ex_derive_continuous (V := R_NormedModule)). now apply D.
Qed.
Theorem elastic_near : exists c cw runs, ready (node elastic) 2 c two /\ ready_for (node elastic) 2 two 0 2 cw /\
  (forall eps, run_steps (node elastic) 2 c (any [held]) moved (elastic_loads eps) at_rest = Ok (runs eps)) /\
  (forall k, (k < 2)%nat -> continuous_near 2 (fun eps => entries (s_u (at_step at_rest (runs eps) k)))) /\
  (forall k, (k < 2)%nat -> s_u (at_step at_rest (runs 0) k) <> s_u (at_step at_rest (runs 1) k)).
Proof.
  destruct (node_ready elastic) as (c & Rc). destruct (node_ready_for elastic) as (cw & Rw).
  exists c, cw, (fun eps => of_run (run_steps (node elastic) 2 c held moved (elastic_loads eps) at_rest)). split; [exact Rc|]. split; [exact Rw|].
  split; [intros eps; rewrite any_is_held; destruct (elastic_runs c Rc eps) as (x1 & x2 & -> & Q & _); exact Q|]. split.
  - intros k Hk. apply (near_of 2 _ (fun eps => [match k with O => 2 | _ => 3 end + eps; match k with O => 1 | _ => 2 end])); [intros eps; now apply elastic_u|].
    intros [|[|i]] eps Hi; [| |lia]; cbn [nth]; auto_derive; auto.
  - intros k Hk E. rewrite !(elastic_u c Rc) in E by exact Hk. injection E. destruct k; lra.
Qed.
Theorem wall_near : exists c cm cw runs, ready (node3 wall) 2 c two /\ ready_for (node3 wall) 2 two 0 2 cm /\ ready_for (node3 wall) 2 two 1 2 cw /\
  (forall eps, heat_run (Transient.heat_step (node3 wall) 2 c cm (any [held]) moved DirectControl) (wall_pushes eps) (warm_start (2 * eps)) = Ok (runs eps)) /\
  (forall k, (k < 2)%nat -> continuous_near 2 (fun eps => entries (w_u (hot (warm_start (2 * eps)) (runs eps) k)))) /\
  (forall k, (k < 2)%nat -> w_u (hot (warm_start (2 * 0)) (runs 0) k) <> w_u (hot (warm_start (2 * 1)) (runs 1) k)).
Proof.
  destruct (node3_ready wall) as (c & Rc). destruct (node3_ready_for wall 0 ltac:(lia)) as (cm & Rm). destruct (node3_ready_for wall 1 ltac:(lia)) as (cw & Rw).
  exists c, cm, cw, (fun eps => of_heat (heat_run (Transient.heat_step (node3 wall) 2 c cm (any [held]) moved DirectControl) (wall_pushes eps) (warm_start (2 * eps)))).
  repeat (split; [assumption|]). split; [intros eps; destruct (wall_runs c cm Rc Rm eps) as (s1 & s2 & _ & E1 & _); now rewrite E1|]. split.
  - intros k Hk. apply (near_of 2 _ (fun eps => wall_u eps k)); [intros eps; now apply wall_hot_u|].
    intros [|[|i]] eps Hi; [| |lia]; destruct k as [|k]; cbn [wall_u nth]; auto_derive; auto.
  - intros k Hk E. rewrite !(wall_hot_u c cm Rc Rm) in E by exact Hk. destruct k as [|k]; cbn [wall_u] in E; injection E; lra.
Qed.
Theorem spring_near : exists c cm cw runs, ready (node3 wall) 2 c two /\ ready_for (node3 wall) 2 two 0 2 cm /\ ready_for (node3 wall) 2 two 1 2 cw /\
  (forall eps, dynamic_run (node3 wall) 2 c cm (any [held]) moved mean_newmark DirectControl (spring_pushes eps) (spring_start (2 * eps) (3 * eps)) = Ok (runs eps)) /\
  let x := fun eps k => walked (spring_start (2 * eps) (3 * eps)) (runs eps) k in
  (forall k, (k < 2)%nat -> continuous_near 2 (fun eps => entries (d_a (x eps k)))) /\ (forall k, (k < 2)%nat -> d_a (x 0 k) <> d_a (x 1 k)).
Proof.
  destruct (node3_ready wall) as (c & Rc). destruct (node3_ready_for wall 0 ltac:(lia)) as (cm & Rm). destruct (node3_ready_for wall 1 ltac:(lia)) as (cw & Rw).
  exists c, cm, cw, (fun eps => of_motions (dynamic_run (node3 wall) 2 c cm (any [held]) moved mean_newmark DirectControl (spring_pushes eps) (spring_start (2 * eps) (3 * eps)))).
  repeat (split; [assumption|]). split; [intros eps; destruct (spring_runs c cm Rc Rm eps) as (s1 & s2 & _ & E1 & _); now rewrite E1|]. split.
  - intros k Hk. apply (near_of 2 _ (fun eps => spring_a eps k)); [intros eps; exact (proj1 (proj2 (proj2 (spring_at c cm Rc Rm eps k Hk))))|].
    intros [|[|i]] eps Hi; [| |lia]; destruct k as [|k]; cbn [spring_a nth]; auto_derive; auto.
  - intros k Hk E. rewrite (proj1 (proj2 (proj2 (spring_at c cm Rc Rm 0 k Hk)))), (proj1 (proj2 (proj2 (spring_at c cm Rc Rm 1 k Hk)))) in E. destruct k as [|k]; cbn [spring_a] in E; injection E; lra.
Qed.
