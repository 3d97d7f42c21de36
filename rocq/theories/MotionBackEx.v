(** * A reverse pass through two steps of a dynamic run (C78)

    One node with two dofs, of which the second is held at the displacement [t]; displacement, acceleration and a parameter field with two
    entries.  Mass 1 and a spring to the held dof ([wall] of HeatBackEx.v, its rates read as accelerations); the parameter is a force. *)
From Coq Require Import NArith ZArith Reals List Lia Lra Bool Permutation FunctionalExtensionality.
From Coquelicot Require Import Coquelicot.
From Verif Require Import Prelude DofCodec Sums Restriction Csr Kernels FunctionalModel FunctionalGrad FunctionalTotal Assembly FunctionalEx Tensor MatAlg BoundaryElim Adjoint AdjointDeriv Ode
  QuasiStatic QuasiAdjoint QuasiGradient QuasiAdjointEx Transient TransientFacts JointRate HeatBack HeatGradient HeatBackEx MotionBack MotionGradient.
Import ListNotations.
Local Open Scope R_scope.

(** a step with a solver which finds the acceleration [a] at the free dof at once *)
Definition thrust (p dt a : R) : push := {| k_dt := dt; k_params := given p; k_solver := fun _ => Give (fun i => if Nat.eqb i 0 then a else 0) true |}.
Definition spring_start (u v : R) : motion (St := R) :=
  {| d_u := [u; 0]; d_v := [v; 1]; d_a := [0; 0]; d_old := None; d_told := 0; d_t := 0; d_cycle := 0; d_mem := fresh 0; d_react := [0; 0]; d_saved := [([u; 0], [v; 1], [0; 0])] |}.
(** force 1 + eps, initial displacement 2 eps and velocity 3 eps *)
Definition spring_pushes (eps : R) : list push := [thrust (1 + eps) 0 (1 - eps); thrust (1 + eps) 1 (7 / 5 - 3 * eps)].
Definition spring_u (eps : R) (k : nat) : list R := match k with O => [2 * eps; 0] | _ => [3 / 5 + 4 * eps; 1] end.
Definition spring_v (eps : R) (k : nat) : list R := match k with O => [3 * eps; 1] | _ => [6 / 5 + eps; 1] end.
Definition spring_a (eps : R) (k : nat) : list R := match k with O => [1 - eps; 0] | _ => [7 / 5 - 3 * eps; 0] end.
(** displacement times acceleration at the free dof *)
Definition work : nat -> vec -> vec -> vec -> vec -> R := fun _ u _ a _ => u 0%nat * a 0%nat.
Definition of_motions (o : outcome (list (motion (St := R)))) : list motion := match o with Ok l => l | _ => [] end.
Lemma wall_memoryless : memoryless (node3 wall).
Proof. intros Ig G e q t v st st' [<-|[]] [<-|[]]. reflexivity. Qed.

Section Spring.
Variable c cm cw : csr.
Hypothesis Rc : ready (node3 wall) 2 c two.
Hypothesis Rm : ready_for (node3 wall) 2 two 0 2 cm.
Hypothesis Rw : ready_for (node3 wall) 2 two 1 2 cw.
Notation stepd := (dynamic_step (node3 wall) 2 c cm (any [held]) moved mean_newmark DirectControl).
Notation rund := (dynamic_run (node3 wall) 2 c cm (any [held]) moved mean_newmark DirectControl).
Let s0 (eps : R) := spring_start (2 * eps) (3 * eps).
Let runs (eps : R) := of_motions (rund (spring_pushes eps) (s0 eps)).
Lemma thrust_found en t c0 c1 u v p dt a m x ok : rate_found (node3 wall) 2 c cm (any [held]) moved en t c0 c1 u v (given p) (k_solver (thrust p dt a)) m x ok ->
  x = (fun i => if Nat.eqb i 0 then a else 0) /\ ok = true.
Proof.
  intros (st & _ & H). destruct (motion_exists (node3 wall) 2 c cm (any [held]) two Rc Rm t (given p) c0 (su st) m (given_fits p)) as (F & J & M).
  specialize (H F J M). cbn [thrust k_solver pure] in H. injection H as <- <-. auto.
Qed.
Lemma spring_step p dt a (s : motion (St := R)) u0 u1 v0 v1 a0 a1 : d_u s = [u0; u1] -> d_v s = [v0; v1] -> (forall x, d_old s = Some x -> x 0%nat = a0 /\ x 1%nat = a1) -> (d_old s = None -> dt = 0) ->
  exists s', stepd (thrust p dt a) s = Ok (s', true) /\
    d_u s' = [u0 + dt * v0 + dt * dt / 4 * (a0 + a); u1 + dt * v1 + dt * dt / 4 * a1] /\ d_v s' = [v0 + dt / 2 * (a0 + a); v1 + dt / 2 * a1] /\ d_a s' = [a; 0] /\
    d_t s' = d_t s + dt /\ d_old s' = Some (fun i => if Nat.eqb i 0 then a else 0) /\
    force (node3 wall) 2 (d_t s') (inputs (given p) (d_a s')) (d_mem s) (d_u s') (d_react s').
Proof.
  intros Eu Ev Ho Hn. destruct (dynamic_step_ok (node3 wall) 2 c cm (any [held]) moved two Rc Rm mean_newmark DirectControl (thrust p dt a) s (given_fits p) (mean_defined _ _)) as (s' & ok & E & Mv).
  destruct (mv_goes _ _ _ _ _ _ _ _ _ _ _ _ Mv) as (x & v & a' & G & Ux & Uv & Ua & Uo). destruct G as (b0 & ok0 & ok1 & F0 & Eo & G & Ep).
  cbn [thrust k_dt k_params] in F0, G, Ep. apply thrust_found in G as [G1 G2]. subst a' ok1.
  assert (H0 : ok0 = true /\ dt * b0 0%nat = dt * a0 /\ dt * b0 1%nat = dt * a1).
  { unfold first_acceleration in F0. destruct (d_old s) as [y|] eqn:Ey.
    - destruct F0 as [-> ->]. destruct (Ho y eq_refl) as [-> ->]. auto.
    - apply thrust_found in F0 as [_ ->]. rewrite (Hn eq_refl), !Rmult_0_l. auto. }
  destruct H0 as (-> & B0 & B1). subst ok. cbn [patch] in Ep. injection Ep as -> ->. exists s'. split; [exact E|].
  assert (T := mv_time _ _ _ _ _ _ _ _ _ _ _ _ Mv). assert (Fr := mv_react _ _ _ _ _ _ _ _ _ _ _ _ Mv). cbn [thrust k_dt k_params] in T, Fr.
  split; [|split; [|split; [rewrite Ua; reflexivity|split; [exact T|split; [exact Uo|exact Fr]]]]].
  - rewrite Ux. unfold tab. cbn [seq map]. unfold vadd, entries. rewrite Eu, Ev. cbn [nth Nat.eqb].
    replace ((0.5 - 1 / 4) * dt * dt * b0 0%nat) with ((0.5 - 1 / 4) * dt * (dt * b0 0%nat)) by ring. replace ((0.5 - 1 / 4) * dt * dt * b0 1%nat) with ((0.5 - 1 / 4) * dt * (dt * b0 1%nat)) by ring.
    rewrite B0, B1. f_equal; [lra|f_equal; lra].
  - rewrite Uv. unfold tab. cbn [seq map]. unfold vadd, entries. rewrite Ev. cbn [nth Nat.eqb].
    replace ((1 - 1 / 2) * dt * b0 0%nat) with ((1 - 1 / 2) * (dt * b0 0%nat)) by ring. replace ((1 - 1 / 2) * dt * b0 1%nat) with ((1 - 1 / 2) * (dt * b0 1%nat)) by ring.
    rewrite B0, B1. f_equal; [lra|f_equal; lra].
Qed.
Lemma spring_runs eps : exists s1 s2, runs eps = [s1; s2] /\ rund (spring_pushes eps) (s0 eps) = Ok [s1; s2] /\
  (d_u s1 = spring_u eps 0 /\ d_v s1 = spring_v eps 0 /\ d_a s1 = spring_a eps 0 /\ d_t s1 = 0 /\ nth 0 (d_react s1) 0 = 0) /\
  (d_u s2 = spring_u eps 1 /\ d_v s2 = spring_v eps 1 /\ d_a s2 = spring_a eps 1 /\ d_t s2 = 1 /\ nth 0 (d_react s2) 0 = 0).
Proof.
  destruct (spring_step (1 + eps) 0 (1 - eps) (s0 eps) (2 * eps) 0 (3 * eps) 1 0 0 eq_refl eq_refl) as (s1 & E1 & U1 & V1 & A1 & T1 & O1 & F1); [discriminate|reflexivity|].
  destruct (spring_step (1 + eps) 1 (7 / 5 - 3 * eps) s1 _ _ _ _ (1 - eps) 0 U1 V1) as (s2 & E2 & U2 & V2 & A2 & T2 & O2 & F2);
    [intros x Hx; rewrite O1 in Hx; injection Hx as <-; auto|rewrite O1; discriminate|].
  assert (E : rund (spring_pushes eps) (s0 eps) = Ok [s1; s2]).
  { unfold spring_pushes. cbn [dynamic_run]. rewrite E1. cbn [bindO fst]. rewrite E2. reflexivity. }
  exists s1, s2. unfold runs. rewrite E. split; [reflexivity|]. split; [reflexivity|].
  assert (U1' : d_u s1 = spring_u eps 0) by (rewrite U1; cbn [spring_u]; f_equal; [field|f_equal; field]).
  assert (V1' : d_v s1 = spring_v eps 0) by (rewrite V1; cbn [spring_v]; f_equal; [field|f_equal; field]).
  assert (U2' : d_u s2 = spring_u eps 1) by (rewrite U2; cbn [spring_u]; f_equal; [field|f_equal; field]).
  assert (V2' : d_v s2 = spring_v eps 1) by (rewrite V2; cbn [spring_v]; f_equal; [field|f_equal; field]).
  rewrite A1, U1' in F1. rewrite A2, U2' in F2. apply (node3_force wall c Rc wall_fo_local) in F1. apply (node3_force wall c Rc wall_fo_local) in F2.
  split; (split; [assumption|split; [assumption|split; [assumption|split]]]).
  - rewrite T1. cbn. ring.
  - rewrite F1. cbn. ring.
  - rewrite T2, T1. cbn. ring.
  - rewrite F2. cbn. field.
Qed.
Lemma spring_at eps k : (k < 2)%nat -> let x := walked (s0 eps) (runs eps) k in
  d_u x = spring_u eps k /\ d_v x = spring_v eps k /\ d_a x = spring_a eps k /\ d_t x = match k with O => 0 | _ => 1 end /\ nth 0 (d_react x) 0 = 0.
Proof. intros H. destruct (spring_runs eps) as (s1 & s2 & -> & _ & A & B). destruct k as [|[|k]]; [exact A|exact B|lia]. Qed.
Lemma curve_of (g : R -> list R) (h : R -> list R) d : (forall eps, g eps = h eps) -> curve 2 (fun eps => entries (h eps)) d -> curve 2 (fun eps => entries (g eps)) d.
Proof. intros E C i Hi. apply (is_derive_ext (fun eps : R => entries (h eps) i)); [intros eps; now rewrite E|exact (C i Hi)]. Qed.

Lemma spring_gradient : exists total b,
  motion_pass (node3 wall) 2 c cm [held] 0 cw solve_free [0; 1] (d_saved (walked_end (s0 0) (runs 0))) (given (1 + 0))
    (fun k i => if Nat.eqb i 0 then nth 0 (spring_a 0 k) 0 else 0) (fun _ => None) (fun k => Some (fun i => if Nat.eqb i 0 then nth 0 (spring_u 0 k) 0 else 0)) 2
    (motion_turn (walked_end (s0 0) (runs 0))) = Ok (total, b) /\
  is_derive (fun eps => sumn 2 (fun k => nth 0 (d_u (walked (s0 eps) (runs eps) k)) 0 * nth 0 (d_a (walked (s0 eps) (runs eps) k)) 0)) 0
    (2 * z_U b 0%nat + 3 * z_V b 0%nat + total 0%nat) /\ 2 * z_U b 0%nat + 3 * z_V b 0%nat + total 0%nat = 29 / 5.
Proof.
  destruct (motion_run_gradient (node3 wall) 2 c cm [held] moved two Rc Rm 0 2 cw Rw DirectControl ltac:(discriminate) none solve_free [0; 1] [1] (fun eps => [1 + eps; 0]) first
    s0 (fun i => if Nat.eqb i 0 then 2 else 0) (fun i => if Nat.eqb i 0 then 3 else 0) spring_pushes runs work
    (fun k i => if Nat.eqb i 0 then nth 0 (spring_a 0 k) 0 else 0) (fun k => Some (fun i => if Nat.eqb i 0 then nth 0 (spring_u 0 k) 0 else 0)) (fun _ _ => 0)
    (fun k i => if Nat.eqb i 0 then match k with O => 2 | _ => 4 end else 0) (fun k i => if Nat.eqb i 0 then match k with O => 3 | _ => 1 end else 0)
    (fun k i => if Nat.eqb i 0 then match k with O => -1 | _ => -3 end else 0)) as (total & b & E & D).
  - intros v. reflexivity.
  - exact wall_memoryless.
  - intros eps. repeat split; reflexivity.
  - apply two_entries; [auto_derive; [auto|ring]|apply dconst].
  - apply two_entries; [auto_derive; [auto|ring]|apply dconst].
  - intros i Hi Bi. rewrite any_held in Bi. destruct i; [discriminate|]. split; reflexivity.
  - reflexivity.
  - exact elastic_p.
  - reflexivity.
  - intros eps. split; [reflexivity|]. repeat constructor.
  - intros eps. destruct (spring_runs eps) as (s1 & s2 & -> & E & _). exact E.
  - intros k Hk. cbn [length] in Hk. split; [|split].
    + apply (curve_of _ (fun eps => spring_u eps k)); [intros eps; exact (proj1 (spring_at eps k Hk))|].
      intros i Hi. unfold entries. destruct k as [|[|k]]; [| |lia]; (destruct i as [|[|i]]; [| |lia]); cbn [spring_u nth Nat.eqb]; auto_derive; auto; field.
    + apply (curve_of _ (fun eps => spring_v eps k)); [intros eps; exact (proj1 (proj2 (spring_at eps k Hk)))|].
      intros i Hi. unfold entries. destruct k as [|[|k]]; [| |lia]; (destruct i as [|[|i]]; [| |lia]); cbn [spring_v nth Nat.eqb]; auto_derive; auto; field.
    + apply (curve_of _ (fun eps => spring_a eps k)); [intros eps; exact (proj1 (proj2 (proj2 (spring_at eps k Hk))))|].
      intros i Hi. unfold entries. destruct k as [|[|k]]; [| |lia]; (destruct i as [|[|i]]; [| |lia]); cbn [spring_a nth Nat.eqb]; auto_derive; auto; field.
  - intros k i Hk Hi Bi. cbn [length] in Hk. rewrite any_held in Bi. exists (mkposreal 1 Rlt_0_1). intros eps _. destruct i as [|[|i]]; [|discriminate|lia].
    exact (proj2 (proj2 (proj2 (proj2 (spring_at eps k Hk))))).
  - intros k dt i Hd Hi Bi. assert (Hk : (k < 2)%nat) by (change 2%nat with (length [0; 1]); apply nth_error_Some; congruence).
    rewrite any_held in Bi. exists (mkposreal 1 Rlt_0_1). intros eps _. destruct i as [|[|i]]; [discriminate| |lia].
    destruct (spring_at eps k Hk) as (A & B & C & _). destruct (spring_at 0 k Hk) as (_ & _ & _ & T & _). rewrite A, B, C, T.
    destruct k as [|[|k]]; [| |lia]; cbn in Hd; injection Hd as <-.
    + split; [|intros N; now destruct N]. intros _. cbn [spring_a nth]. unfold curvature, moved, eps2. cbn [Nat.eqb]. field.
    + split; [intros N; lra|]. intros _. cbn [obeys spring_u nth]. unfold moved. reflexivity.
  - intros k Hk. apply node3_joint, wall_right.
  - intros k dt K M Hd TK TM. assert (Hk : (k < 2)%nat) by (change 2%nat with (length [0; 1]); apply nth_error_Some; congruence).
    destruct (spring_at 0 k Hk) as (A & B & C & _). rewrite A, C in TK, TM.
    assert (EK : K 0%nat 0%nat = 1).
    { destruct k as [|[|k]]; [| |lia]; cbn [spring_u spring_a] in TK; now rewrite (node3_tangent wall c Rc wall_df_local _ _ _ _ _ _ _ _ TK 0%nat 0%nat ltac:(lia) ltac:(lia)). }
    assert (EM : M 0%nat 0%nat = 1).
    { destruct k as [|[|k]]; [| |lia]; cbn [spring_u spring_a] in TM; now rewrite (node3_derivative wall c Rc wall_df_local 0 cm _ _ _ _ _ _ _ _ (le_S _ _ (le_n 1)) Rm TM 0%nat 0%nat ltac:(lia) ltac:(lia)). }
    apply free_ok. rewrite EK, EM. destruct k as [|[|k]]; [| |lia]; cbn in Hd; injection Hd as <-; lra.
  - intros k Hk cu du cv dv ca da cp dp Cu _ Ca _ Su _ Sa _. cbn [length] in Hk. specialize (Cu 0%nat ltac:(lia)). specialize (Su 0%nat ltac:(lia)). specialize (Ca 0%nat ltac:(lia)). specialize (Sa 0%nat ltac:(lia)).
    destruct (spring_at 0 k Hk) as (A & B & C & _). cbv beta in Cu, Ca. unfold entries in Su, Sa. rewrite A in Su. rewrite C in Sa.
    unfold work. assert (M := is_derive_mult (fun e : R => cu e 0%nat) (fun e : R => ca e 0%nat) 0 (du 0%nat) (da 0%nat) Cu Ca Rmult_comm). cbv beta in M. rewrite Su, Sa in M.
    match goal with |- is_derive _ _ ?r => match type of M with is_derive _ _ ?l => replace r with l; [exact M|] end end. unfold plus, mult, vdot. rewrite !sum2. cbn [rate_part Nat.eqb]. unfold vz. cbn. ring.
  - left. intros k _. discriminate.
  - exists total, b. split; [exact E|].
    assert (V : vdot 2 (z_U b) (fun i => if Nat.eqb i 0 then 2 else 0) + vdot 2 (z_V b) (fun i => if Nat.eqb i 0 then 3 else 0) + vdot 2 (fun i => total i + sumn (length [0; 1]) (fun _ => 0)) first =
      2 * z_U b 0%nat + 3 * z_V b 0%nat + total 0%nat) by (unfold vdot; rewrite !sum2; cbn; ring).
    rewrite V in D. split; [exact D|]. rewrite <- (is_derive_unique _ _ _ D). cbn [length].
    rewrite (Derive_ext _ (fun eps => 2 * eps * (1 - eps) + (3 / 5 + 4 * eps) * (7 / 5 - 3 * eps))).
    + apply is_derive_unique. auto_derive; [auto|field].
    + intros eps. rewrite sum2. unfold work, entries. destruct (spring_at eps 0 ltac:(lia)) as (-> & _ & -> & _). destruct (spring_at eps 1 ltac:(lia)) as (-> & _ & -> & _). reflexivity.
Qed.
End Spring.
Theorem spring_case : exists c cm cw runs total b, ready (node3 wall) 2 c two /\ ready_for (node3 wall) 2 two 0 2 cm /\ ready_for (node3 wall) 2 two 1 2 cw /\
  (forall eps, dynamic_run (node3 wall) 2 c cm (any [held]) moved mean_newmark DirectControl (spring_pushes eps) (spring_start (2 * eps) (3 * eps)) = Ok (runs eps)) /\
  let x := fun eps k => walked (spring_start (2 * eps) (3 * eps)) (runs eps) k in let z := walked_end (spring_start (2 * 0) (3 * 0)) (runs 0) in
  motion_pass (node3 wall) 2 c cm [held] 0 cw solve_free [0; 1] (d_saved z) (given (1 + 0))
    (fun k i => if Nat.eqb i 0 then nth 0 (spring_a 0 k) 0 else 0) (fun _ => None) (fun k => Some (fun i => if Nat.eqb i 0 then nth 0 (spring_u 0 k) 0 else 0)) 2
    (motion_turn z) = Ok (total, b) /\
  is_derive (fun eps => sumn 2 (fun k => nth 0 (d_u (x eps k)) 0 * nth 0 (d_a (x eps k)) 0)) 0
    (2 * z_U b 0%nat + 3 * z_V b 0%nat + total 0%nat) /\ 2 * z_U b 0%nat + 3 * z_V b 0%nat + total 0%nat = 29 / 5.
Proof.
  destruct (node3_ready wall) as (c & Rc). destruct (node3_ready_for wall 0 ltac:(lia)) as (cm & Rm). destruct (node3_ready_for wall 1 ltac:(lia)) as (cw & Rw).
  destruct (spring_gradient c cm cw Rc Rm Rw) as (total & b & E & D & V).
  exists c, cm, cw, (fun eps => of_motions (dynamic_run (node3 wall) 2 c cm (any [held]) moved mean_newmark DirectControl (spring_pushes eps) (spring_start (2 * eps) (3 * eps)))), total, b.
  repeat (split; [assumption|]). split; [|auto]. intros eps. destruct (spring_runs c cm Rc Rm eps) as (s1 & s2 & _ & E1 & _). now rewrite E1.
Qed.
