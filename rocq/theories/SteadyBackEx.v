(** * A reverse pass through two steps of steady heat conduction (C77): the wall of HeatBackEx.v *)
From Coq Require Import NArith ZArith Reals List Lia Lra Bool Permutation FunctionalExtensionality.
From Coquelicot Require Import Coquelicot.
From Verif Require Import Prelude DofCodec Sums Restriction Csr Kernels FunctionalModel FunctionalGrad FunctionalTotal Assembly FunctionalEx Tensor MatAlg BoundaryElim Adjoint AdjointDeriv Ode
  QuasiStatic QuasiNewton QuasiAdjoint QuasiGradient QuasiAdjointEx Transient TransientFacts JointRate HeatBack HeatGradient HeatBackEx Implicit ImplicitRuns ImplicitEx SteadyBack.
Import ListNotations.
Local Open Scope R_scope.

(** source [p], and the temperatures which balance it when the held dof is at [t] *)
Definition settle (p t : R) : push := {| k_dt := 1; k_params := given p; k_solver := fun _ => Give (fun i => if Nat.eqb i 0 then p + t else t) true |}.
Definition settle_pushes (eps : R) : list push := [settle (1 + eps) 1; settle (1 + eps) 2].
Definition settle_u (eps : R) (k : nat) : list R := match k with O => [1 + eps + 1; 1] | _ => [1 + eps + 2; 2] end.

Section Wall.
Variable c cm cw : csr.
Hypothesis Rc : ready (node3 wall) 2 c two.
Hypothesis Rm : ready_for (node3 wall) 2 two 0 2 cm.
Hypothesis Rw : ready_for (node3 wall) 2 two 1 2 cw.
Notation stepw := (steady_step (node3 wall) 2 c (any [held]) moved).
Let runs (eps : R) := of_heat (heat_run stepw (settle_pushes eps) (warm_start (2 * eps))).
Lemma settle_step p t s : w_rate s = [0; 0] -> exists s', stepw (settle p t) s = Ok (s', true) /\ w_u s' = [p + t; t] /\ w_rate s' = [0; 0] /\ w_t s' = w_t s + 1.
Proof.
  intros Er. assert (Lr : length (w_rate s) = 2%nat) by (rewrite Er; reflexivity).
  destruct (steady_step_ok (node3 wall) 2 c cm (any [held]) moved two Rc Rm (settle p t) s (given_fits p) Lr) as (s' & ok & E & T & _ & _ & _ & Sr & x & H & Hu).
  destruct (material_exists (node3 wall) 2 c (any [held]) two Rc (w_t s') (inputs (k_params (settle p t)) (w_rate s)) (w_mem s)) as (F & J & M).
  { rewrite Er. apply given_rate. }
  specialize (H F J M). cbn [settle k_solver pure] in H. injection H as <- <-. exists s'. split; [exact E|]. split; [rewrite Hu; reflexivity|]. split; [congruence|exact T].
Qed.
Lemma settle_runs eps : exists s1 s2, runs eps = [(s1, true); (s2, true)] /\ heat_run stepw (settle_pushes eps) (warm_start (2 * eps)) = Ok [(s1, true); (s2, true)] /\
  w_u s1 = settle_u eps 0 /\ w_u s2 = settle_u eps 1 /\ w_t s1 = 1 /\ w_t s2 = 2.
Proof.
  destruct (settle_step (1 + eps) 1 (warm_start (2 * eps)) eq_refl) as (s1 & E1 & U1 & V1 & T1). destruct (settle_step (1 + eps) 2 s1 V1) as (s2 & E2 & U2 & V2 & T2).
  assert (E : heat_run stepw (settle_pushes eps) (warm_start (2 * eps)) = Ok [(s1, true); (s2, true)]).
  { unfold settle_pushes. cbn [heat_run]. rewrite E1. cbn [bindO fst]. rewrite E2. reflexivity. }
  exists s1, s2. unfold runs. rewrite E. split; [reflexivity|]. split; [reflexivity|]. rewrite U1, U2, T2, T1. cbn [settle_u warm_start w_t]. repeat split; ring.
Qed.
Lemma settle_hot eps k : (k < 2)%nat -> w_u (hot (warm_start (2 * eps)) (runs eps) k) = settle_u eps k /\ w_t (hot (warm_start (2 * eps)) (runs eps) k) = match k with O => 1 | _ => 2 end.
Proof. intros H. destruct (settle_runs eps) as (s1 & s2 & -> & _ & A & B & C & D). destruct k as [|[|k]]; [| |lia]; split; assumption. Qed.
(** the square of the temperature at the free dof, summed over the steps *)
Lemma settle_gradient : exists total b,
  steady_pass (node3 wall) 2 c [held] 0 cw solve_free [1; 1] (w_saved (hot_end (warm_start (2 * 0)) (runs 0))) (given (1 + 0))
    (fun k i => if Nat.eqb i 0 then 2 * nth 0 (settle_u 0 k) 0 else 0) (fun k => None) 2 (heat_turn (hot_end (warm_start (2 * 0)) (runs 0))) = Ok (total, b) /\
  is_derive (fun eps => sumn 2 (fun k => nth 0 (w_u (hot (warm_start (2 * eps)) (runs eps) k)) 0 * nth 0 (w_u (hot (warm_start (2 * eps)) (runs eps) k)) 0)) 0 (total 0%nat) /\ total 0%nat = 10.
Proof.
  destruct (steady_run_gradient (node3 wall) 2 c cm [held] moved two Rc Rm 0 2 cw Rw solve_free none [1; 1] (fun eps => [1 + eps; 0]) first [0; 0]
    (fun eps => warm_start (2 * eps)) settle_pushes runs (fun _ u _ => u 0%nat * u 0%nat)
    (fun k i => if Nat.eqb i 0 then 2 * nth 0 (settle_u 0 k) 0 else 0) (fun k => None) (fun _ _ => 0)) as (total & b & E & _ & D).
  - intros v. reflexivity.
  - reflexivity.
  - intros eps. repeat split; reflexivity.
  - reflexivity.
  - exact elastic_p.
  - intros eps. split; [reflexivity|]. repeat constructor.
  - intros eps. destruct (settle_runs eps) as (s1 & s2 & -> & E & _). exact E.
  - intros k Hk. cbn [length] in Hk. left. apply (near_of 2 _ (fun eps => settle_u eps k)); [intros eps; now apply settle_hot|].
    intros [|[|i]] eps Hi; [| |lia]; destruct k as [|k]; cbn [settle_u nth]; auto_derive; auto.
  - intros k i Hk Hi Bi. cbn [length] in Hk. rewrite any_held in Bi. exists (mkposreal 1 Rlt_0_1). intros eps _. destruct i as [|[|i]]; [|discriminate|lia].
    rewrite (proj1 (settle_hot eps k Hk)).
    destruct (force_exists (node3 wall) 2 c two Rc (w_t (hot (warm_start (2 * 0)) (runs 0) k)) (inputs (given (1 + eps)) [0; 0]) (settle_u eps k) (w_mem (hot_end (warm_start (2 * 0)) (runs 0)))) as (L & A & _).
    + apply given_rate.
    + destruct k as [|k]; reflexivity.
    + exists L. split; [exact A|]. destruct k as [|[|k]]; [| |lia]; cbn [settle_u] in A; apply (node3_force wall c Rc wall_fo_local) in A; subst L; cbn; field.
  - intros k i Hk Hi Bi. cbn [length] in Hk. rewrite any_held in Bi. exists (mkposreal 1 Rlt_0_1). intros eps _. destruct i as [|[|i]]; [discriminate| |lia].
    rewrite (proj1 (settle_hot eps k Hk)), (proj2 (settle_hot 0 k Hk)). destruct k as [|[|k]]; [| |lia]; reflexivity.
  - intros k Hk. apply node3_joint, wall_right.
  - intros k A Hk TA. cbn [length] in Hk. rewrite (proj1 (settle_hot 0 k Hk)) in TA. apply free_ok.
    assert (EA : A 0%nat 0%nat = 1).
    { destruct k as [|[|k]]; [| |lia]; cbn [settle_u] in TA; now rewrite (node3_tangent wall c Rc wall_df_local _ _ _ _ _ _ _ _ TA 0%nat 0%nat ltac:(lia) ltac:(lia)). }
    rewrite EA. lra.
  - intros k Hk cu du cv dv cp dp Cu _ _ Su _ _. cbn [length] in Hk. specialize (Cu 0%nat ltac:(lia)). specialize (Su 0%nat ltac:(lia)).
    cbv beta in Cu. unfold entries in Su. rewrite (proj1 (settle_hot 0 k Hk)) in Su.
    assert (M := is_derive_mult (fun e : R => cu e 0%nat) (fun e : R => cu e 0%nat) 0 (du 0%nat) (du 0%nat) Cu Cu Rmult_comm). cbv beta in M. rewrite Su in M.
    match goal with |- is_derive _ _ ?r => match type of M with is_derive _ _ ?l => replace r with l; [exact M|] end end. unfold plus, mult, vdot, vz. rewrite !sum2. cbn [Nat.eqb]. cbn. ring.
  - exists total, b. split; [exact E|].
    assert (V : vdot 2 (fun i => total i + sumn (length [1; 1]) (fun _ => 0)) first = total 0%nat) by (unfold vdot; rewrite !sum2; cbn; ring).
    rewrite V in D. split; [exact D|]. rewrite <- (is_derive_unique _ _ _ D). cbn [length].
    rewrite (Derive_ext _ (fun eps => (1 + eps + 1) * (1 + eps + 1) + (1 + eps + 2) * (1 + eps + 2))).
    + apply is_derive_unique. auto_derive; [auto|ring].
    + intros eps. rewrite sum2. unfold entries. rewrite (proj1 (settle_hot eps 0%nat ltac:(lia))), (proj1 (settle_hot eps 1%nat ltac:(lia))). reflexivity.
Qed.
End Wall.
Theorem settle_case : exists c cm cw runs total b, ready (node3 wall) 2 c two /\ ready_for (node3 wall) 2 two 0 2 cm /\ ready_for (node3 wall) 2 two 1 2 cw /\
  (forall eps, heat_run (steady_step (node3 wall) 2 c (any [held]) moved) (settle_pushes eps) (warm_start (2 * eps)) = Ok (runs eps)) /\
  steady_pass (node3 wall) 2 c [held] 0 cw solve_free [1; 1] (w_saved (hot_end (warm_start (2 * 0)) (runs 0))) (given (1 + 0))
    (fun k i => if Nat.eqb i 0 then 2 * nth 0 (settle_u 0 k) 0 else 0) (fun k => None) 2 (heat_turn (hot_end (warm_start (2 * 0)) (runs 0))) = Ok (total, b) /\
  is_derive (fun eps => sumn 2 (fun k => nth 0 (w_u (hot (warm_start (2 * eps)) (runs eps) k)) 0 * nth 0 (w_u (hot (warm_start (2 * eps)) (runs eps) k)) 0)) 0 (total 0%nat) /\ total 0%nat = 10.
Proof.
  destruct (node3_ready wall) as (c & Rc). destruct (node3_ready_for wall 0 ltac:(lia)) as (cm & Rm). destruct (node3_ready_for wall 1 ltac:(lia)) as (cw & Rw).
  destruct (settle_gradient c cm cw Rc Rm Rw) as (total & b & E & D & V).
  exists c, cm, cw, (fun eps => of_heat (heat_run (steady_step (node3 wall) 2 c (any [held]) moved) (settle_pushes eps) (warm_start (2 * eps)))), total, b.
  repeat (split; [assumption|]). split; [|auto]. intros eps. destruct (settle_runs c cm Rc Rm eps) as (s1 & s2 & _ & E1 & _). now rewrite E1.
Qed.
