(** * Time integration: concrete systems, enforcement and memory (C24, C48, C05) *)
From Coq Require Import Reals Lra Lia Bool List FunctionalExtensionality.
From Verif Require Import Sums Tensor Ode.
Import ListNotations.
Local Open Scope R_scope.

(** difference quotients of prescribed motions are exact for quadratic motion *)
Lemma rate_quadratic p eps t i a b c : eps <> 0 -> p_ess p i = true -> (forall s, p_g p s i = a + b * s + c * (s * s)) ->
  rate p eps t i = b + 2 * c * t /\ second p eps t i = 2 * c.
Proof.
  intros N E G. unfold rate, second, U. rewrite E, !G. split; field; exact N.
Qed.

(** two unit masses joined by a unit spring; mass 1 is driven with unit velocity *)
Definition pair : problem := {| p_n := 2; p_ess := fun i => Nat.eqb i 1; p_g := fun t _ => t;
  p_res := fun _ u a i => match i with O => a 0%nat + u 0%nat - u 1%nat | _ => a 1%nat + u 1%nat - u 0%nat end |}.
Definition pair_solver (t c0 : R) (u guess : vec) : vec := fun i =>
  match i with O => (u 1%nat + c0 * guess 1%nat - u 0%nat) / (1 + c0) | _ => guess i end.
Lemma pair_solves : solves pair pair_solver.
Proof.
  intros t c0 u guess P. split.
  - intros i Hi He. cbn [p_ess pair] in He. apply PeanoNat.Nat.eqb_eq in He. subst i. reflexivity.
  - intros i Hi He. cbn [p_ess pair p_n] in *. destruct i as [|[|i]]; [|discriminate|lia].
    cbn [p_res pair]. unfold vadd, pair_solver. field. lra.
Qed.
Lemma pair_extensional : extensional pair.
Proof.
  intros t u u' a a' i Hu Ha Hi. cbn [p_n pair] in *. cbn [p_res pair].
  assert (Hu0 := Hu 0%nat ltac:(lia)). assert (Hu1 := Hu 1%nat ltac:(lia)). assert (Ha0 := Ha 0%nat ltac:(lia)). assert (Ha1 := Ha 1%nat ltac:(lia)).
  destruct i as [|i]; rewrite ?Hu0, ?Hu1, ?Ha0, ?Ha1; reflexivity.
Qed.

Definition v2 (a b : R) : vec := fun i => match i with O => a | S O => b | _ => 0 end.
Lemma is_zero_ne x : x <> 0 -> is_zero x = false.
Proof. intros H. unfold is_zero. destruct (Req_EM_T x 0); [contradiction|reflexivity]. Qed.

(** FullControl overwrites entry 0, which is free, and leaves entry 1, which is constrained *)
Theorem full_control_wrong : exists x v a0 x' v' a',
  newmark_step pair pair_solver (1 / 4) (1 / 2) FullControl (Some a0) 0 0 1 x v = Some (x', v', a') /\
  p_ess pair 0 = false /\ p_res pair 1 x' a' 0%nat <> 0 /\ x' 0%nat = 0.
Proof.
  exists (v2 2 0), (v2 0 1), (v2 0 0).
  unfold newmark_step, newmark, solve2, setup2. rewrite (is_zero_ne (1 / 4 * 1 * 1)) by lra. rewrite (is_zero_ne (1 / 2 * 1)) by lra.
  cbn [negb orb andb]. cbv zeta. cbn [patch su sguess]. eexists. eexists. eexists. split; [reflexivity|]. split; [reflexivity|].
  cbn [length ess_dofs filter seq p_n p_ess pair Nat.eqb Nat.ltb Nat.leb p_res].
  split; [|unfold U; reflexivity].
  unfold pair_solver, merge, vadd, U, rate, U, eps2, v2. cbn [p_ess p_g pair Nat.eqb]. lra.
Qed.

(** with no velocity drift the same method is right: first dof driven *)
Definition pair0 : problem := {| p_n := 2; p_ess := fun i => Nat.eqb i 0; p_g := fun t _ => t;
  p_res := fun _ u a i => match i with O => a 0%nat + u 0%nat - u 1%nat | _ => a 1%nat + u 1%nat - u 0%nat end |}.
Lemma pair0_first i : (i < p_n pair0)%nat -> (p_ess pair0 i = true <-> (i < length (ess_dofs pair0))%nat).
Proof.
  intros Hi. cbn [p_n pair0] in Hi. cbn [length ess_dofs filter seq p_n p_ess pair0 Nat.eqb].
  destruct i as [|[|i]]; cbn [Nat.eqb]; split; intros; try lia; try congruence; try discriminate.
Qed.

(** central differences (beta = 0) with DirectControl divide by zero on essential dofs *)
Theorem central_difference_direct : forall mem told t dt x v, dt <> 0 ->
  newmark_step pair pair_solver 0 (1 / 2) DirectControl mem told t dt x v = None.
Proof.
  intros mem told t dt x v N. unfold newmark_step.
  destruct (newmark_unfold pair pair_solver pair_solves pair_extensional 0 (1 / 2) DirectControl mem told t dt x v) as [a0 [_ ->]].
  unfold solve2, setup2. replace (0 * dt * dt) with 0 by ring. rewrite is_zero_0.
  rewrite (is_zero_ne (1 / 2 * dt)) by lra. reflexivity.
Qed.

(** the default (RateControl) keeps the rate, so a wrong start stays wrong: the prescribed position is not restored *)
Theorem rate_control_drifts : exists x v a0 x' v' a',
  newmark_step pair pair_solver (1 / 4) (1 / 2) RateControl (Some a0) 0 0 1 x v = Some (x', v', a') /\
  p_ess pair 1 = true /\ x' 1%nat <> p_g pair 1 1%nat.
Proof.
  exists (v2 0 3), (v2 0 1), (v2 0 0).
  unfold newmark_step, newmark, solve2, setup2. rewrite (is_zero_ne (1 / 4 * 1 * 1)) by lra. rewrite (is_zero_ne (1 / 2 * 1)) by lra.
  cbn [negb orb andb]. cbn [patch su sguess]. eexists. eexists. eexists. split; [reflexivity|]. split; [reflexivity|].
  unfold pair_solver, merge, vadd, U, rate, U, eps2, v2. cbn [p_ess p_g pair Nat.eqb]. lra.
Qed.

(** ** memory of the integrator across resetStates (C05): one unit mass on a unit spring *)
Definition spring : problem := {| p_n := 1; p_ess := fun _ => false; p_g := fun _ _ => 0; p_res := fun _ u a i => a i + u i |}.
Definition spring_solver (t c0 : R) (u guess : vec) : vec := fun i => - u i / (1 + c0).
Lemma spring_solves : solves spring spring_solver.
Proof.
  intros t c0 u guess P. split; [discriminate|]. intros i _ _. cbn [p_res spring]. unfold vadd, spring_solver. field. lra.
Qed.
Lemma spring_extensional : extensional spring.
Proof. intros t u u' a a' i Hu Ha Hi. cbn [p_res spring]. now rewrite Hu, Ha. Qed.

(** first run from rest at 1: one step.  resetStates zeroes the fields but keeps the integrator object; the second run, from the
    same initial displacement and velocity, continues with the acceleration of the first. *)
Definition second_run (x v : vec) : option (vec * vec * vec) :=
  match newmark_step spring spring_solver (1 / 4) (1 / 2) RateControl None 0 0 1 x v with
  | Some (_, _, a) => newmark_step spring spring_solver (1 / 4) (1 / 2) RateControl (Some a) 1 0 1 x v
  | None => None
  end.
Lemma spring_step mem told t x v a0 : start_acceleration spring spring_solver mem told x v a0 RateControl ->
  exists x' v' a', newmark_step spring spring_solver (1 / 4) (1 / 2) RateControl mem told t 1 x v = Some (x', v', a') /\
    a' 0%nat = - (x 0%nat + v 0%nat + a0 0%nat / 4) * (4 / 5) /\
    x' 0%nat = x 0%nat + v 0%nat + (a0 0%nat + a' 0%nat) / 4.
Proof.
  intros Sa. unfold newmark_step, newmark. destruct mem as [a|]; cbn [start_acceleration] in Sa; [subst a0|rewrite Sa];
    unfold solve2 at 1, setup2; rewrite (is_zero_ne (1 / 4 * 1 * 1)), (is_zero_ne (1 / 2 * 1)) by lra; cbn [negb orb andb patch];
    (eexists; eexists; eexists; split; [reflexivity|]); cbn [su]; unfold vadd, spring_solver, merge; cbn [p_ess spring]; lra.
Qed.
Theorem reset_keeps_memory : exists x v x1 v1 a1 x2 v2 a2,
  newmark_step spring spring_solver (1 / 4) (1 / 2) RateControl None 0 0 1 x v = Some (x1, v1, a1) /\
  second_run x v = Some (x2, v2, a2) /\ x1 0%nat <> x2 0%nat.
Proof.
  set (x := fun _ : nat => 1). set (v := fun _ : nat => 0). exists x, v.
  destruct (explicit_solve spring spring_solver spring_solves spring_extensional RateControl 0 x v) as [a0 [E0 [M0 _]]].
  assert (A0 : a0 0%nat = -1).
  { assert (X := M0 0%nat ltac:(cbn; lia) eq_refl). cbn [p_res spring] in X. unfold merge, x in X. cbn [p_ess spring] in X. lra. }
  destruct (spring_step None 0 0 x v a0 E0) as [x1 [v1 [a1 [E1 [A1 X1]]]]].
  destruct (spring_step (Some a1) 1 0 x v a1 eq_refl) as [x2 [v2 [a2 [E2 [A2 X2]]]]].
  exists x1, v1, a1, x2, v2, a2. split; [exact E1|]. split; [unfold second_run; rewrite E1; exact E2|].
  rewrite A0 in *. unfold x, v in *. lra.
Qed.

(** ** first order: FullControl keeps only the rate *)
Definition drift : problem := {| p_n := 1; p_ess := fun _ => true; p_g := fun t _ => t * t; p_res := fun _ _ _ _ => 0 |}.
Theorem full_control_first_order : forall solver, solves drift solver ->
  fst (backward_euler1 drift solver FullControl 0 1 (fun _ => 0)) 0%nat <> p_g drift (0 + 1) 0%nat.
Proof.
  intros solver Sol. unfold backward_euler1, setup1. rewrite (is_zero_ne 1) by lra. cbn [negb fst].
  match goal with |- context [solver ?t ?c ?u ?g] => destruct (Sol t c u g ltac:(lra)) as [Se _] end.
  unfold vadd. rewrite (Se 0%nat) by (cbn; lia || reflexivity). unfold merge, rate, U, eps1. cbn [p_ess p_g drift]. lra.
Qed.
Lemma drift_solves : solves drift (fun _ _ _ g => g).
Proof. intros t c0 u g _. split; [reflexivity|discriminate]. Qed.
