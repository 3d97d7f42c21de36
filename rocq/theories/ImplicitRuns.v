(** * Runs which depend continuously on a parameter depend differentiably on it (C74, C77, C78) *)
From Coq Require Import NArith ZArith Reals List Lia Lra Bool FunctionalExtensionality.
From Coquelicot Require Import Coquelicot.
From Verif Require Import Prelude DofCodec Sums Restriction Csr Kernels FunctionalModel FunctionalGrad FunctionalTotal Assembly Tensor MatAlg BoundaryElim Adjoint AdjointDeriv Ode
  QuasiStatic QuasiAdjoint QuasiGradient Transient TransientFacts JointRate HeatBack HeatGradient MotionBack MotionGradient Implicit.
Import ListNotations.
Local Open Scope R_scope.

(** [x] is continuous at every value of the parameter near zero *)
Definition continuous_near (n : nat) (x : R -> vec) : Prop := forall i, (i < n)%nat -> locally 0 (fun eps => continuous (fun s => x s i) eps).

Lemma build (P : nat -> vec -> Prop) : forall N, (forall k, (k < N)%nat -> exists d, P k d) -> exists d : nat -> vec, forall k, (k < N)%nat -> P k (d k).
Proof.
  induction N as [|N IH]; intros H; [exists (fun _ => vz); intros; lia|]. destruct IH as [d Hd]; [intros; apply H; lia|]. destruct (H N ltac:(lia)) as [e He].
  exists (fun k => if Nat.eqb k N then e else d k). intros k Hk. destruct (Nat.eqb_spec k N) as [-> | Ne]; [exact He|apply Hd; lia].
Qed.
Lemma curve_const n (x : vec) : curve n (fun _ => x) vz.
Proof. intros i _. apply (is_derive_const (x i) 0). Qed.
Lemma derive_held (h : R -> R) : locally 0 (fun s => h s = h 0) -> is_derive h 0 0.
Proof. intros H. apply (is_derive_ext_loc (fun _ => h 0)); [|apply (is_derive_const (h 0) 0)]. revert H. apply filter_imp. intros; symmetry; assumption. Qed.
Lemma derive_same (f g : R -> R) (l : R) : (forall s, f s = g s) -> is_derive f 0 l -> is_derive g 0 l.
Proof. intros H. now apply is_derive_ext. Qed.
Lemma lin2 (f g : R -> R) (c1 c2 a b : R) : is_derive f 0 a -> is_derive g 0 b -> is_derive (fun s => c1 * f s + c2 * g s) 0 (c1 * a + c2 * b).
Proof. intros A B. apply (is_derive_plus (fun s => c1 * f s) (fun s => c2 * g s) 0 (c1 * a) (c2 * b)); [apply (is_derive_scal f 0 c1 a A)|apply (is_derive_scal g 0 c2 b B)]. Qed.

(** ** single steps *)
Section Steps.
Variable n np : nat.
Variable bcs : list dofset.
Variable lin : mat -> vec -> vec.
Variable F : vec -> vec -> vec -> vec.
Hypothesis Ext : forall u u' v v' p i, (forall j, (j < n)%nat -> u j = u' j) -> (forall j, (j < n)%nat -> v j = v' j) -> F u v p i = F u' v' p i.
Variable p : R -> vec.
Variable dp : vec.
Hypothesis Cp : curve np p dp.

Lemma static_step_smooth (u : R -> vec) J M P : jacobian3 n np F (u 0) vz (p 0) J M P -> lin_ok n bcs lin J -> continuous_near n u ->
  (forall i, (i < n)%nat -> any bcs i = false -> locally 0 (fun s => F (u s) vz (p s) i = 0)) ->
  (forall i, (i < n)%nat -> any bcs i = true -> locally 0 (fun s => u s i = u 0 i)) -> exists du, curve n u du.
Proof.
  intros Jac L Near Eq Held. apply (solution_moves n np bcs lin F p (fun _ => vz) (fun _ => vz) u u (fun _ => vz) dp vz vz 1 0 J M P J vz); auto using curve_const.
  - intros s j Hj. unfold vz. ring.
  - intros s j Hj. unfold vz. ring.
  - intros; ring.
  - intros i Hi Bi. apply derive_held, Held; assumption.
Qed.
Lemma heat_step_smooth (direct : bool) dt (u0 u r : R -> vec) du0 K M P : dt <> 0 -> curve n u0 du0 -> (forall s i, (i < n)%nat -> u s i = u0 s i + dt * r s i) ->
  jacobian3 n np F (u 0) (r 0) (p 0) K M P -> lin_ok n bcs lin (fun i j => M i j + dt * K i j) -> continuous_near n u ->
  (forall i, (i < n)%nat -> any bcs i = false -> locally 0 (fun s => F (u s) (r s) (p s) i = 0)) ->
  (forall i, (i < n)%nat -> any bcs i = true -> locally 0 (fun s => if direct then u s i = u 0 i else r s i = r 0 i)) -> exists du dr, curve n u du /\ curve n r dr.
Proof.
  intros Nd C0 Kin Jac L Near Eq Held.
  assert (Hr : forall s i, (i < n)%nat -> r s i = / dt * u s i + - / dt * u0 s i) by (intros s i Hi; rewrite (Kin s i Hi); field; exact Nd).
  destruct (solution_moves n np bcs lin F p (fun _ => vz) (fun s i => - / dt * u0 s i + 0 * u0 s i) (fun s i => / dt * u s i) u r dp vz (fun i => - / dt * du0 i + 0 * du0 i) dt 1 K M P (fun i j => M i j + dt * K i j)
    (fun i => if direct then 0 else / dt * (du0 i + dt * 0))) as [dy Cy]; auto using curve_const.
  - intros i Hi. apply lin2; now apply C0.
  - intros s j Hj. unfold vz. field. exact Nd.
  - intros s j Hj. rewrite (Hr s j Hj). ring.
  - intros; ring.
  - intros i Hi. generalize (Near i Hi). apply filter_imp. intros e He. apply (continuous_mult (fun _ => / dt) (fun s => u s i)); [apply continuous_const|exact He].
  - intros i Hi Bi. destruct direct.
    + replace 0 with (/ dt * 0) at 2 by ring. apply (is_derive_scal (fun s => u s i) 0 (/ dt) 0). apply derive_held, (Held i Hi Bi).
    + apply (is_derive_scal (fun s => u s i) 0 (/ dt) (du0 i + dt * 0)). apply (derive_same (fun s => u0 s i + dt * r s i)); [intros s; symmetry; now apply Kin|].
      apply curve_scal_plus; [now apply C0|]. apply derive_held, (Held i Hi Bi).
  - assert (Cu : curve n u (fun i => dt * dy i)).
    { intros i Hi. apply (derive_same (fun s => dt * (/ dt * u s i))); [intros s; field; exact Nd|]. apply (is_derive_scal (fun s => / dt * u s i) 0 dt (dy i)). now apply Cy. }
    exists (fun i => dt * dy i), (fun i => / dt * (dt * dy i) + - / dt * du0 i). split; [exact Cu|].
    intros i Hi. apply (derive_same (fun s => / dt * u s i + - / dt * u0 s i)); [intros s; symmetry; now apply Hr|]. apply lin2; [now apply Cu|now apply C0].
Qed.
(** for the mean acceleration method; a step of length zero only finds the acceleration *)
Lemma motion_step_smooth (direct : bool) dt (u0 v0 a0 u v a : R -> vec) du0 dv0 da0 K M P : curve n u0 du0 -> curve n v0 dv0 -> curve n a0 da0 ->
  (forall s i, (i < n)%nat -> u s i = u0 s i + dt * v0 s i + dt * dt * ((1 / 4) * a0 s i + (1 / 4) * a s i) /\ v s i = v0 s i + dt * ((1 / 2) * a0 s i + (1 / 2) * a s i)) ->
  jacobian3 n np F (u 0) (a 0) (p 0) K M P -> lin_ok n bcs lin (fun i j => M i j + 1 / 4 * dt * dt * K i j) -> continuous_near n a ->
  (forall i, (i < n)%nat -> any bcs i = false -> locally 0 (fun s => F (u s) (a s) (p s) i = 0)) ->
  (forall i, (i < n)%nat -> any bcs i = true -> locally 0 (fun s => if Req_EM_T dt 0 then a s i = a 0 i else if direct then u s i = u 0 i else v s i = v 0 i)) ->
  exists du dv da, curve n u du /\ curve n v dv /\ curve n a da.
Proof.
  intros Cu0 Cv0 Ca0 Kin Jac L Near Eq Held.
  set (base := fun s i => u0 s i + dt * (v0 s i + (dt * (1 / 4)) * a0 s i)). set (dbase := fun i => du0 i + dt * (dv0 i + (dt * (1 / 4)) * da0 i)).
  assert (Cb : curve n base dbase) by (intros i Hi; apply curve_scal_plus; [now apply Cu0|]; apply curve_scal_plus; [now apply Cv0|now apply Ca0]).
  set (vbase := fun s i => v0 s i + (dt * (1 / 2)) * a0 s i). set (dvbase := fun i => dv0 i + (dt * (1 / 2)) * da0 i).
  assert (Cvb : curve n vbase dvbase) by (intros i Hi; apply curve_scal_plus; [now apply Cv0|now apply Ca0]).
  assert (Hu : forall s i, (i < n)%nat -> u s i = base s i + (1 / 4 * dt * dt) * a s i) by (intros s i Hi; rewrite (proj1 (Kin s i Hi)); unfold base; ring).
  assert (Hv : forall s i, (i < n)%nat -> v s i = vbase s i + (1 / 2 * dt) * a s i) by (intros s i Hi; rewrite (proj2 (Kin s i Hi)); unfold vbase; ring).
  destruct (solution_moves n np bcs lin F p base (fun _ => vz) a u a dp dbase vz (1 / 4 * dt * dt) 1 K M P (fun i j => M i j + 1 / 4 * dt * dt * K i j)
    (fun i => if Req_EM_T dt 0 then 0 else if direct then / (1 / 4 * dt * dt) * 0 + - / (1 / 4 * dt * dt) * dbase i else / (1 / 2 * dt) * 0 + - / (1 / 2 * dt) * dvbase i)) as [da Ca]; auto using curve_const.
  - intros s j Hj. unfold vz. ring.
  - intros; ring.
  - intros i Hi Bi. specialize (Held i Hi Bi). destruct (Req_EM_T dt 0) as [Z|Nz]; [now apply derive_held|]. destruct direct.
    + apply (derive_same (fun s => / (1 / 4 * dt * dt) * u s i + - / (1 / 4 * dt * dt) * base s i)); [intros s; rewrite (Hu s i Hi); field; exact Nz|].
      apply lin2; [now apply derive_held|now apply Cb].
    + apply (derive_same (fun s => / (1 / 2 * dt) * v s i + - / (1 / 2 * dt) * vbase s i)); [intros s; rewrite (Hv s i Hi); field; exact Nz|].
      apply lin2; [now apply derive_held|now apply Cvb].
  - exists (fun i => dbase i + (1 / 4 * dt * dt) * da i), (fun i => dvbase i + (1 / 2 * dt) * da i), da. split; [|split; [|exact Ca]]; intros i Hi.
    + apply (derive_same (fun s => base s i + (1 / 4 * dt * dt) * a s i)); [intros s; symmetry; now apply Hu|]. apply curve_scal_plus; [now apply Cb|now apply Ca].
    + apply (derive_same (fun s => vbase s i + (1 / 2 * dt) * a s i)); [intros s; symmetry; now apply Hv|]. apply curve_scal_plus; [now apply Cvb|now apply Ca].
Qed.
End Steps.

Lemma param_tangent_exists {St} (f : functional St) n c tsize w np cw t others m u : ready f n c tsize -> ready_for f n tsize w np cw -> fitting tsize others -> length u = n ->
  exists P, param_tangent f n w cw t others m u P.
Proof.
  intros R0 Rw Fo Hu. destruct (d_residual_quiet f n c tsize R0 w np cw Rw others Fo {| b_u := u; b_end := t; b_t := t; b_cycle := 0; b_adj := vz; b_load := vz; b_mem := m |}) as (P & m' & _ & T & _); [exact Hu|].
  exists P. exact T.
Qed.

(** ** quasi-static runs *)
Section Static.
Context {St : Type}.
Variable f : functional St.
Variable n : nat.
Variable c : csr.
Variable bcs : list dofset.
Variable target : R -> vec.
Variable tsize : nat -> nat.
Hypothesis R0 : ready f n c tsize.
Variable w np : nat.
Variable cw : csr.
Hypothesis Rw : ready_for f n tsize w np cw.
Variable others : nat -> list R.
Hypothesis Fo : fitting tsize others.

Theorem static_smooth lin dts (p : R -> list R) dp (loads : R -> list load) (runs : R -> list (state (St := St))) s0 k :
  memoryless f -> sound n tsize s0 ->
  (forall eps, length (p eps) = np) -> curve np (fun eps => entries (p eps)) dp ->
  (forall eps, map l_dt (loads eps) = dts /\ List.Forall (fun ld => l_others ld = with_param others w (p eps)) (loads eps)) ->
  (forall eps, run_steps f n c (any bcs) target (loads eps) s0 = Ok (runs eps)) ->
  let u := fun eps k => s_u (at_step s0 (runs eps) k) in let t := fun k => s_t (at_step s0 (runs 0) k) in
  (k < length dts)%nat -> continuous_near n (fun eps => entries (u eps k)) ->
  (forall i, (i < n)%nat -> any bcs i = false -> locally 0 (fun eps => nth i (s_react (at_step s0 (runs eps) k)) 0 = 0)) ->
  (forall i, (i < n)%nat -> any bcs i = true -> locally 0 (fun eps => nth i (u eps k) 0 = target (t k) i)) ->
  (forall m, ad_joint f (t k) (inputs (with_param others w (p 0)) (u 0 k)) m) ->
  (forall m A, tangent f n c (t k) (with_param others w (p 0)) m (u 0 k) A -> lin_ok n bcs lin A) ->
  exists du, curve n (fun eps => entries (u eps k)) du.
Proof.
  intros M Sd Lp Cp Hl Hr u t Hk Near Eq Pr Had Hlin. set (N := length dts) in *.
  assert (Ffit : forall eps, List.Forall (fun ld => fitting tsize (l_others ld)) (loads eps)).
  { intros eps. destruct (Hl eps) as [_ H]. revert H. apply List.Forall_impl. intros ld E. rewrite E. apply (param_fits f n tsize w np cw); auto. }
  assert (Len : forall eps, length (loads eps) = N) by (intros eps; destruct (Hl eps) as [E _]; unfold N; rewrite <- E; symmetry; apply map_length).
  assert (Ch := fun eps => chain_facts f n c bcs target tsize R0 (loads eps) s0 (runs eps) (run_chain f n c (any bcs) target tsize R0 _ _ _ Sd (Ffit eps) (Hr eps)) (Ffit eps)).
  assert (Step : forall eps k, (k < N)%nat -> exists ld, nth_error (loads eps) k = Some ld /\ l_others ld = with_param others w (p eps) /\ nth_error dts k = Some (l_dt ld)).
  { intros eps j Hj. destruct (nth_error (loads eps) j) as [ld|] eqn:E; [|apply nth_error_None in E; rewrite Len in E; lia]. exists ld. split; [reflexivity|].
    destruct (Hl eps) as [D H]. split; [exact (proj1 (List.Forall_forall _ _) H ld (nth_error_In _ _ E))|]. rewrite <- D, nth_error_map, E. reflexivity. }
  assert (Tm : forall eps k, (k < N)%nat -> s_t (at_step s0 (runs eps) k) = t k).
  { intros eps. induction k0 as [|j IH]; intros Hj; destruct (Step eps _ Hj) as (ld & A & _ & B); destruct (Step 0 _ Hj) as (ld' & A' & _ & B');
      destruct (Ch eps) as (_ & _ & _ & C); destruct (C _ _ A) as (m & _ & _ & D); destruct (Ch 0) as (_ & _ & _ & C'); destruct (C' _ _ A') as (m' & _ & _ & D');
      unfold t; rewrite D, D'; [congruence|]. cbn beta in IH. rewrite IH by lia. unfold t. congruence. }
  destruct (Ch 0) as (L1 & L2 & L3 & L4). destruct (Step 0 k Hk) as (ld0 & X0 & _ & _). destruct (L4 k ld0 X0) as (_ & _ & Hu & _).
  assert (Fp := param_fits f n tsize w np cw Rw others (p 0) Fo (Lp 0)). set (ms := s_mem s0).
  destruct (tangent_exists f n c tsize R0 (t k) (with_param others w (p 0)) (u 0 k) ms Fp Hu) as [A TA].
  destruct (param_tangent_exists f n c tsize w np cw (t k) (with_param others w (p 0)) ms (u 0 k) R0 Rw Fp Hu) as [P TP].
  apply (static_step_smooth n np bcs lin (fun u _ p => nodal f n w np (t k) others ms u p)) with (p := fun eps => entries (p eps)) (dp := dp) (J := A) (M := fun _ _ => 0) (P := P).
  - intros x x' v v' q i Hx _. unfold nodal. rewrite (tab_same n x x' Hx). reflexivity.
  - exact Cp.
  - apply (joint_derivative f n c tsize R0 w np cw Rw (t k) others ms (u 0 k) (p 0) A P Fo Hu (Lp 0)); auto.
  - exact (Hlin ms A TA).
  - exact Near.
  - intros i Hi Bi. destruct (Eq i Hi Bi) as (d & Hd). exists d. intros eps He. specialize (Hd eps He).
    destruct (Step eps k Hk) as (ld & X & Y & _). destruct (Ch eps) as (_ & _ & _ & C). destruct (C _ _ X) as (m & F1 & F2 & _).
    rewrite Y, (Tm eps k Hk) in F1. assert (Fpe := param_fits f n tsize w np cw Rw others (p eps) Fo (Lp eps)).
    assert (F3 := force_memoryless f n c tsize R0 (t k) (with_param others w (p eps)) m ms _ _ M Fpe F2 F1).
    unfold nodal. rewrite (tab_of n (u eps k) F2), (tab_of np _ (Lp eps)).
    assert (Fe := force_entries f n c tsize R0 _ _ _ _ _ _ Fpe F2 Hi F3). rewrite Hd in Fe. symmetry. exact Fe.
  - intros i Hi Bi. destruct (Pr i Hi Bi) as (d & Hd). exists d. intros eps He. unfold entries. rewrite (Hd eps He), (Hd 0 (ball_center 0 d)). reflexivity.
Qed.

Theorem run_gradient_continuous lin dts (p : R -> list R) dp (loads : R -> list load) (runs : R -> list (state (St := St))) s0 (Q : nat -> vec -> vec -> R) qu qp :
  memoryless f -> sound n tsize s0 -> s_cycle s0 = 0%nat -> s_saved s0 = [s_u s0] ->
  (forall eps, length (p eps) = np) -> curve np (fun eps => entries (p eps)) dp ->
  (forall eps, map l_dt (loads eps) = dts /\ List.Forall (fun ld => l_others ld = with_param others w (p eps)) (loads eps)) ->
  (forall eps, run_steps f n c (any bcs) target (loads eps) s0 = Ok (runs eps)) ->
  let N := length dts in let u := fun eps k => s_u (at_step s0 (runs eps) k) in let t := fun k => s_t (at_step s0 (runs 0) k) in
  (forall k, (k < N)%nat -> continuous_near n (fun eps => entries (u eps k))) ->
  (forall k i, (k < N)%nat -> (i < n)%nat -> any bcs i = false -> locally 0 (fun eps => nth i (s_react (at_step s0 (runs eps) k)) 0 = 0)) ->
  (forall k i, (k < N)%nat -> (i < n)%nat -> any bcs i = true -> locally 0 (fun eps => nth i (u eps k) 0 = target (t k) i)) ->
  (forall k m, (k < N)%nat -> ad_joint f (t k) (inputs (with_param others w (p 0)) (u 0 k)) m) ->
  (forall k m A, (k < N)%nat -> tangent f n c (t k) (with_param others w (p 0)) m (u 0 k) A -> lin_ok n bcs lin A) ->
  (forall k, (k < N)%nat -> gradient3 n np (fun u _ p => Q k u p) (entries (u 0 k)) vz (entries (p 0)) (qu k) vz (qp k)) ->
  exists total, reverse_pass f n c bcs w cw lin dts (s_saved (final s0 (runs 0))) (with_param others w (p 0)) qu N (turn (final s0 (runs 0))) = Ok total /\
    is_derive (fun eps => sumn N (fun k => Q k (entries (u eps k)) (entries (p eps)))) 0 (vdot np (fun i => total i + sumn N (fun k => qp k i)) dp).
Proof.
  intros M Sd Z0 Sv0 Lp Cp Hl Hr N u t Near Eq Pr Had Hlin HQ.
  destruct (build (fun k d => curve n (fun eps => entries (u eps k)) d) N) as [du Cu].
  { intros k Hk. exact (static_smooth lin dts p dp loads runs s0 k M Sd Lp Cp Hl Hr Hk (Near k Hk) (fun i => Eq k i Hk) (fun i => Pr k i Hk) (fun m => Had k m Hk) (fun m A => Hlin k m A Hk)). }
  apply (run_gradient f n c bcs target tsize R0 w np cw Rw others Fo lin dts p dp loads runs s0 Q qu qp du); auto.
Qed.
Theorem last_reaction_continuous lin dts (p : R -> list R) dp (loads : R -> list load) (runs : R -> list (state (St := St))) s0 d l :
  memoryless f -> sound n tsize s0 -> s_cycle s0 = 0%nat -> s_saved s0 = [s_u s0] ->
  (forall eps, length (p eps) = np) -> curve np (fun eps => entries (p eps)) dp ->
  (forall eps, map l_dt (loads eps) = dts /\ List.Forall (fun ld => l_others ld = with_param others w (p eps)) (loads eps)) ->
  (forall eps, run_steps f n c (any bcs) target (loads eps) s0 = Ok (runs eps)) ->
  let N := length dts in let u := fun eps k => s_u (at_step s0 (runs eps) k) in let t := fun k => s_t (at_step s0 (runs 0) k) in
  N = S l ->
  continuous_near n (fun eps => entries (u eps l)) ->
  (forall i, (i < n)%nat -> any bcs i = false -> locally 0 (fun eps => nth i (s_react (at_step s0 (runs eps) l)) 0 = 0)) ->
  (forall i, (i < n)%nat -> any bcs i = true -> locally 0 (fun eps => nth i (u eps l) 0 = target (t l) i)) ->
  (forall m, ad_joint f (t l) (inputs (with_param others w (p 0)) (u 0 l)) m) ->
  (forall m A, tangent f n c (t l) (with_param others w (p 0)) m (u 0 l) A -> lin_ok n bcs lin A) ->
  exists b0 b1 g h, reaction_adjoint_load f n c (with_param others w (p 0)) d (turn (final s0 (runs 0))) = Ok b0 /\
    reverse_step f n c bcs lin dts (s_saved (final s0 (runs 0))) (with_param others w (p 0)) b0 = Ok b1 /\
    timestep_sensitivity f n w cw (with_param others w (p 0)) b1 = Ok g /\
    dual_sensitivity f n w cw (with_param others w (p 0)) d (remember (snd g) b1) = Ok h /\
    is_derive (fun eps => vdot n d (entries (s_react (at_step s0 (runs eps) l)))) 0 (vdot np (fun i => fst g i + fst h i) dp).
Proof.
  intros M Sd Z0 Sv0 Lp Cp Hl Hr N u t HN Near Eq Pr Had Hlin.
  assert (Hk : (l < N)%nat) by lia. unfold N in Hk. destruct (static_smooth lin dts p dp loads runs s0 l) as [du Cu]; auto.
  apply (last_reaction f n c bcs target tsize R0 w np cw Rw others Fo lin dts p dp loads runs s0 d du l); auto.
Qed.
End Static.

(** ** transient runs of heat conduction *)
Section Heat.
Context {St : Type}.
Variable f : functional St.
Variable n : nat.
Variable c cm : csr.
Variable bcs : list dofset.
Variable target : R -> vec.
Variable tsize : nat -> nat.
Hypothesis R0 : ready f n c tsize.
Hypothesis Rm : ready_for f n tsize 0 n cm.
Variable w np : nat.
Variable cw : csr.
Hypothesis Rw : ready_for f n tsize (S w) np cw.
Variable en : enforcement.
Notation step1 := (Transient.heat_step f n c cm (any bcs) target en).

Lemma forces_ext t params (m : mem St) u u' v v' (p : vec) i : (forall j, (j < n)%nat -> u j = u' j) -> (forall j, (j < n)%nat -> v j = v' j) ->
  forces_of f n w np t params m u v p i = forces_of f n w np t params m u' v' p i.
Proof. intros Hu Hv. unfold forces_of. now rewrite (tab_same n u u' Hu), (tab_same n v v' Hv). Qed.

Theorem heat_smooth params lin dts (p : R -> list R) dp (s0 : R -> warmth (St := St)) du0 (loads : R -> list push) (runs : R -> list (warmth (St := St) * bool)) :
  params_fit tsize params -> en <> FullControl -> curve n (fun eps => entries (w_u (s0 eps))) du0 ->
  (forall eps, length (p eps) = np) -> curve np (fun eps => entries (p eps)) dp -> (forall k dt, nth_error dts k = Some dt -> dt <> 0) ->
  (forall eps, map k_dt (loads eps) = dts /\ List.Forall (fun ld => k_params ld = with_param params w (p eps)) (loads eps)) ->
  (forall eps, heat_run step1 (loads eps) (s0 eps) = Ok (runs eps)) ->
  let N := length dts in let u := fun eps k => w_u (hot (s0 eps) (runs eps) k) in let r := fun eps k => w_rate (hot (s0 eps) (runs eps) k) in
  let t := fun k => w_t (hot (s0 0) (runs 0) k) in let m := w_mem (hot_end (s0 0) (runs 0)) in
  (forall k, (k < N)%nat -> continuous_near n (fun eps => entries (u eps k))) ->
  (forall k i, (k < N)%nat -> (i < n)%nat -> any bcs i = false ->
     locally 0 (fun eps => exists L, force f n (t k) (inputs (with_param params w (p eps)) (r eps k)) m (u eps k) L /\ nth i L 0 = 0)) ->
  (forall k i, (k < N)%nat -> (i < n)%nat -> any bcs i = true -> locally 0 (fun eps => heat_obeys target en (t k) (u eps k) (r eps k) i)) ->
  (forall k, (k < N)%nat -> ad_joint f (t k) (inputs (inputs (with_param params w (p 0)) (r 0 k)) (u 0 k)) m) ->
  (forall k dt K M, nth_error dts k = Some dt -> tangent f n c (t k) (inputs (with_param params w (p 0)) (r 0 k)) m (u 0 k) K ->
     param_tangent f n 0 cm (t k) (inputs (with_param params w (p 0)) (r 0 k)) m (u 0 k) M ->
     lin_ok n bcs lin (fun i j => M i j + dt * K i j) /\ forall i j, (i < n)%nat -> (j < n)%nat -> M i j = M j i) ->
  forall K, (K <= N)%nat -> exists du dv, forall k, (k < K)%nat -> curve n (fun eps => entries (u eps k)) (du k) /\ curve n (fun eps => entries (r eps k)) (dv k).
Proof.
  intros Fo NF C0 Lp Cp Ndt Hl Hr N u r t m Near Bal Held Had Hlin.
  assert (Fp : forall eps, params_fit tsize (with_param params w (p eps))) by (intros eps; apply (with_param_fits f n tsize w np cw); auto).
  assert (Ffit : forall eps, List.Forall (fun ld => params_fit tsize (k_params ld)) (loads eps)).
  { intros eps. destruct (Hl eps) as [_ H]. revert H. apply List.Forall_impl. intros ld E. rewrite E. apply Fp. }
  assert (Len : forall eps, length (loads eps) = N) by (intros eps; destruct (Hl eps) as [E _]; unfold N; rewrite <- E; symmetry; apply map_length).
  assert (Ch := fun eps => heat_run_facts f n c cm bcs target tsize R0 Rm en (loads eps) (s0 eps) (runs eps) (Ffit eps) (Hr eps)).
  assert (Step : forall eps k, (k < N)%nat -> exists ld, nth_error (loads eps) k = Some ld /\ k_params ld = with_param params w (p eps) /\ nth_error dts k = Some (k_dt ld)).
  { intros eps k Hk. destruct (nth_error (loads eps) k) as [ld|] eqn:E; [|apply nth_error_None in E; rewrite Len in E; lia]. exists ld. split; [reflexivity|].
    destruct (Hl eps) as [D H]. split; [exact (proj1 (List.Forall_forall _ _) H ld (nth_error_In _ _ E))|]. rewrite <- D, nth_error_map, E. reflexivity. }
  destruct (Ch 0) as (L1 & L2 & L3 & L4 & L5).
  assert (one : forall k d0, (k < N)%nat -> curve n (fun eps => entries (w_u (hot_before (s0 eps) (runs eps) k))) d0 ->
    exists du dv, curve n (fun eps => entries (u eps k)) du /\ curve n (fun eps => entries (r eps k)) dv).
  { intros k d0 Hk Cprev. destruct (Step 0 k Hk) as (ld0 & X0 & _ & Y0). destruct (L5 k ld0 X0) as (Hu & Hrr & _).
    assert (Fr := rate_fits f n cm tsize Rm _ _ (Fp 0) Hrr).
    destruct (tangent_exists f n c tsize R0 (t k) (inputs (with_param params w (p 0)) (r 0 k)) (u 0 k) m Fr Hu) as [K TK].
    destruct (param_tangent_exists f n c tsize 0 n cm (t k) (inputs (with_param params w (p 0)) (r 0 k)) m (u 0 k) R0 Rm Fr Hu) as [M TM].
    destruct (param_tangent_exists f n c tsize (S w) np cw (t k) (inputs (with_param params w (p 0)) (r 0 k)) m (u 0 k) R0 Rw Fr Hu) as [P TP].
    apply (heat_step_smooth n np bcs lin (forces_of f n w np (t k) params m)) with (p := fun eps => entries (p eps)) (dp := dp) (direct := directly en) (dt := k_dt ld0)
      (u0 := fun eps => entries (w_u (hot_before (s0 eps) (runs eps) k))) (du0 := d0) (K := K) (M := M) (P := P).
    - intros; now apply forces_ext.
    - exact Cp.
    - exact (Ndt _ _ Y0).
    - exact Cprev.
    - intros eps i Hi. destruct (Step eps k Hk) as (ld & X & _ & Y). destruct (Ch eps) as (_ & _ & _ & _ & C5).
      destruct (C5 k ld X) as (_ & _ & _ & _ & Ki). rewrite Y0 in Y. injection Y as ->. unfold entries, u, r. now apply Ki.
    - apply (joint_rate f n c cm tsize R0 Rm w np cw Rw); auto.
    - exact (proj1 (Hlin k _ _ _ Y0 TK TM)).
    - now apply Near.
    - intros i Hi Bi. destruct (Bal k i Hk Hi Bi) as (e & He). exists e. intros eps Ee. destruct (He eps Ee) as (L & F1 & F2).
      destruct (Step eps k Hk) as (ld & X & _ & _). destruct (Ch eps) as (_ & _ & _ & _ & C5). destruct (C5 k ld X) as (Q1 & Q2 & _).
      unfold forces_of. rewrite (tab_of n (u eps k) Q1), (tab_of n (r eps k) Q2), (tab_of np _ (Lp eps)).
      assert (Fe := force_entries f n c tsize R0 _ _ _ _ _ _ (rate_fits f n cm tsize Rm _ _ (Fp eps) Q2) Q1 Hi F1). rewrite F2 in Fe. symmetry. exact Fe.
    - intros i Hi Bi. destruct (Held k i Hk Hi Bi) as (e & He). exists e. intros eps Ee. assert (H1 := He eps Ee). assert (H2 := He 0 (ball_center 0 e)).
      unfold heat_obeys in H1, H2. unfold directly, entries. destruct en; congruence. }
  induction K as [|k IH]; intros HK; [exists (fun _ => vz), (fun _ => vz); intros; lia|]. destruct IH as (du & dv & H); [lia|].
  destruct (one k (match k with O => du0 | S j => du j end)) as (du' & dv' & Cu & Cv); [lia| |].
  { destruct k as [|j]; [exact C0|]. apply H. lia. }
  exists (fun j => if Nat.eqb j k then du' else du j), (fun j => if Nat.eqb j k then dv' else dv j). intros j Hj. destruct (Nat.eqb_spec j k) as [-> | Ne]; [split; assumption|apply H; lia].
Qed.

Theorem heat_gradient_continuous params lin dts (p : R -> list R) dp (s0 : R -> warmth (St := St)) du0 (loads : R -> list push) (runs : R -> list (warmth (St := St) * bool))
  (Q : nat -> vec -> vec -> vec -> R) qu qv qp :
  params_fit tsize params -> en <> FullControl ->
  (forall eps, w_cycle (s0 eps) = 0%nat /\ w_saved (s0 eps) = [(w_u (s0 eps), w_rate (s0 eps))] /\ w_t (s0 eps) = w_t (s0 0)) ->
  curve n (fun eps => entries (w_u (s0 eps))) du0 -> (en = RateControl -> forall i, (i < n)%nat -> any bcs i = true -> du0 i = 0) ->
  (forall eps, length (p eps) = np) -> curve np (fun eps => entries (p eps)) dp -> (forall k dt, nth_error dts k = Some dt -> dt <> 0) ->
  (forall eps, map k_dt (loads eps) = dts /\ List.Forall (fun ld => k_params ld = with_param params w (p eps)) (loads eps)) ->
  (forall eps, heat_run step1 (loads eps) (s0 eps) = Ok (runs eps)) ->
  let N := length dts in let u := fun eps k => w_u (hot (s0 eps) (runs eps) k) in let r := fun eps k => w_rate (hot (s0 eps) (runs eps) k) in
  let t := fun k => w_t (hot (s0 0) (runs 0) k) in let m := w_mem (hot_end (s0 0) (runs 0)) in
  (forall k, (k < N)%nat -> continuous_near n (fun eps => entries (u eps k))) ->
  (forall k i, (k < N)%nat -> (i < n)%nat -> any bcs i = false ->
     locally 0 (fun eps => exists L, force f n (t k) (inputs (with_param params w (p eps)) (r eps k)) m (u eps k) L /\ nth i L 0 = 0)) ->
  (forall k i, (k < N)%nat -> (i < n)%nat -> any bcs i = true -> locally 0 (fun eps => heat_obeys target en (t k) (u eps k) (r eps k) i)) ->
  (forall k, (k < N)%nat -> ad_joint f (t k) (inputs (inputs (with_param params w (p 0)) (r 0 k)) (u 0 k)) m) ->
  (forall k dt K M, nth_error dts k = Some dt -> tangent f n c (t k) (inputs (with_param params w (p 0)) (r 0 k)) m (u 0 k) K ->
     param_tangent f n 0 cm (t k) (inputs (with_param params w (p 0)) (r 0 k)) m (u 0 k) M ->
     lin_ok n bcs lin (fun i j => M i j + dt * K i j) /\ forall i j, (i < n)%nat -> (j < n)%nat -> M i j = M j i) ->
  (forall k, (k < N)%nat -> gradient3 n np (Q k) (entries (u 0 k)) (entries (r 0 k)) (entries (p 0)) (qu k) (rate_part (qv k)) (qp k)) ->
  ((forall k, (k < N)%nat -> qv k <> None) \/ (forall k, (k < N)%nat -> qv k = None)) ->
  exists total b, heat_pass f n c cm bcs w cw lin dts (w_saved (hot_end (s0 0) (runs 0))) (with_param params w (p 0)) qu qv N (heat_turn (hot_end (s0 0) (runs 0))) = Ok (total, b) /\
    is_derive (fun eps => sumn N (fun k => Q k (entries (u eps k)) (entries (r eps k)) (entries (p eps)))) 0
      (vdot n (q_mu b) du0 + vdot np (fun i => total i + sumn N (fun k => qp k i)) dp).
Proof.
  intros Fo NF Hs0 C0 Hrate Lp Cp Ndt Hl Hr N u r t m Near Bal Held Had Hlin HQ Uni.
  destruct (heat_smooth params lin dts p dp s0 du0 loads runs Fo NF C0 Lp Cp Ndt Hl Hr Near Bal Held Had Hlin N (le_n N)) as (du & dv & Cur).
  exact (heat_run_gradient f n c cm bcs target tsize R0 Rm w np cw Rw en params lin dts p dp s0 du0 loads runs Q qu qv qp du dv Fo NF Hs0 C0 Hrate Lp Cp Ndt Hl Hr Cur Bal Held Had Hlin HQ Uni).
Qed.

(** ** dynamic runs *)
Notation run1 := (dynamic_run f n c cm (any bcs) target mean_newmark en).
Theorem motion_smooth params lin dts dts' (p : R -> list R) dp (s0 : R -> motion (St := St)) du0 dv0 (loads : R -> list push) (runs : R -> list (motion (St := St))) :
  params_fit tsize params -> memoryless f -> en <> FullControl -> (forall eps, d_t (s0 eps) = d_t (s0 0)) ->
  curve n (fun eps => entries (d_u (s0 eps))) du0 -> curve n (fun eps => entries (d_v (s0 eps))) dv0 ->
  (forall eps, length (p eps) = np) -> curve np (fun eps => entries (p eps)) dp -> dts = 0 :: dts' ->
  (forall eps, map k_dt (loads eps) = dts /\ List.Forall (fun ld => k_params ld = with_param params w (p eps)) (loads eps)) ->
  (forall eps, run1 (loads eps) (s0 eps) = Ok (runs eps)) ->
  let N := length dts in let x := fun eps k => walked (s0 eps) (runs eps) k in
  let t := fun k => d_t (x 0 k) in let z := walked_end (s0 0) (runs 0) in
  (forall k, (k < N)%nat -> continuous_near n (fun eps => entries (d_a (x eps k)))) ->
  (forall k i, (k < N)%nat -> (i < n)%nat -> any bcs i = false -> locally 0 (fun eps => nth i (d_react (x eps k)) 0 = 0)) ->
  (forall k dt i, nth_error dts k = Some dt -> (i < n)%nat -> any bcs i = true -> locally 0 (fun eps =>
     (dt = 0 -> nth i (d_a (x eps k)) 0 = curvature target eps2 (t k) i) /\ (dt <> 0 -> obeys en target (t k) (d_u (x eps k)) (d_v (x eps k)) i))) ->
  (forall k, (k < N)%nat -> ad_joint f (t k) (inputs (inputs (with_param params w (p 0)) (d_a (x 0 k))) (d_u (x 0 k))) (d_mem z)) ->
  (forall k dt K M, nth_error dts k = Some dt -> tangent f n c (t k) (inputs (with_param params w (p 0)) (d_a (x 0 k))) (d_mem z) (d_u (x 0 k)) K ->
     param_tangent f n 0 cm (t k) (inputs (with_param params w (p 0)) (d_a (x 0 k))) (d_mem z) (d_u (x 0 k)) M ->
     lin_ok n bcs lin (fun i j => M i j + 1 / 4 * dt * dt * K i j)) ->
  forall K, (K <= N)%nat -> exists du dv da, forall k, (k < K)%nat -> curve n (fun eps => entries (d_u (x eps k))) (du k) /\ curve n (fun eps => entries (d_v (x eps k))) (dv k) /\
     curve n (fun eps => entries (d_a (x eps k))) (da k).
Proof.
  intros Fo ML NF Hs0 Cu0 Cv0 Lp Cp Dz Hl Hr N x t z Near Bal Held Had Hlin.
  assert (Fp : forall eps, params_fit tsize (with_param params w (p eps))) by (intros eps; apply (with_param_fits f n tsize w np cw); auto).
  assert (Ffit : forall eps, List.Forall (fun ld => params_fit tsize (k_params ld)) (loads eps)).
  { intros eps. destruct (Hl eps) as [_ H]. revert H. apply List.Forall_impl. intros ld E. rewrite E. apply Fp. }
  assert (Len : forall eps, length (loads eps) = N) by (intros eps; destruct (Hl eps) as [E _]; unfold N; rewrite <- E; symmetry; apply map_length).
  assert (Ch := fun eps => motion_run_facts f n c cm bcs target tsize R0 Rm en NF (loads eps) (s0 eps) (runs eps) (Ffit eps) (Hr eps)).
  assert (Step : forall eps k, (k < N)%nat -> exists ld, nth_error (loads eps) k = Some ld /\ k_params ld = with_param params w (p eps) /\ nth_error dts k = Some (k_dt ld)).
  { intros eps k Hk. destruct (nth_error (loads eps) k) as [ld|] eqn:E; [|apply nth_error_None in E; rewrite Len in E; lia]. exists ld. split; [reflexivity|].
    destruct (Hl eps) as [D H]. split; [exact (proj1 (List.Forall_forall _ _) H ld (nth_error_In _ _ E))|]. rewrite <- D, nth_error_map, E. reflexivity. }
  assert (Tm : forall eps k, (k < N)%nat -> d_t (x eps k) = t k).
  { intros eps. induction k as [|k IH]; intros Hk; destruct (Step eps _ Hk) as (ld & X & _ & Y); destruct (Step 0 _ Hk) as (ld0 & X0 & _ & Y0);
      destruct (Ch eps) as (_ & _ & _ & C5); destruct (Ch 0) as (_ & _ & _ & C50);
      destruct (C5 _ ld X) as (_ & _ & _ & T1 & _); destruct (C50 _ ld0 X0) as (_ & _ & _ & T0 & _); cbn [walked_before] in T1, T0;
      rewrite Y in Y0; injection Y0 as Y0; unfold t, x; rewrite T1, T0, Y0.
    - now rewrite (Hs0 eps).
    - f_equal. apply IH. lia. }
  destruct (Ch 0) as (L1 & L2 & L3 & L5). set (m := d_mem z) in *.
  set (pa := fun k (eps : R) => match k with O => vz | S j => entries (d_a (x eps j)) end).
  assert (one : forall k bu bv ba, (k < N)%nat -> curve n (fun eps => entries (d_u (walked_before (s0 eps) (runs eps) k))) bu ->
    curve n (fun eps => entries (d_v (walked_before (s0 eps) (runs eps) k))) bv -> curve n (pa k) ba ->
    exists du dv da, curve n (fun eps => entries (d_u (x eps k))) du /\ curve n (fun eps => entries (d_v (x eps k))) dv /\ curve n (fun eps => entries (d_a (x eps k))) da).
  { intros k bu bv ba Hk Cu Cv Ca. destruct (Step 0 k Hk) as (ld0 & X0 & _ & Y0). destruct (L5 k ld0 X0) as (Hu & _ & Ha & _).
    assert (Fr := rate_fits f n cm tsize Rm _ _ (Fp 0) Ha).
    destruct (tangent_exists f n c tsize R0 (t k) (inputs (with_param params w (p 0)) (d_a (x 0 k))) (d_u (x 0 k)) m Fr Hu) as [K TK].
    destruct (param_tangent_exists f n c tsize 0 n cm (t k) (inputs (with_param params w (p 0)) (d_a (x 0 k))) m (d_u (x 0 k)) R0 Rm Fr Hu) as [M TM].
    destruct (param_tangent_exists f n c tsize (S w) np cw (t k) (inputs (with_param params w (p 0)) (d_a (x 0 k))) m (d_u (x 0 k)) R0 Rw Fr Hu) as [P TP].
    apply (motion_step_smooth n np bcs lin (forces_of f n w np (t k) params m)) with (p := fun eps => entries (p eps)) (dp := dp) (direct := directly en) (dt := k_dt ld0)
      (u0 := fun eps => entries (d_u (walked_before (s0 eps) (runs eps) k))) (v0 := fun eps => entries (d_v (walked_before (s0 eps) (runs eps) k))) (a0 := pa k)
      (du0 := bu) (dv0 := bv) (da0 := ba) (K := K) (M := M) (P := P).
    - intros; now apply forces_ext.
    - exact Cp.
    - exact Cu.
    - exact Cv.
    - exact Ca.
    - intros eps i Hi. destruct (Step eps k Hk) as (ld & X & _ & Y). destruct (Ch eps) as (_ & _ & _ & C5).
      destruct (C5 k ld X) as (_ & _ & _ & _ & _ & _ & a0 & A0 & Ki). pose proof Y0 as Y0'. rewrite Y in Y0'. injection Y0' as Y0'. destruct (Ki i Hi) as [K1 K2]. rewrite Y0' in K1, K2.
      unfold pa, entries, x. destruct k as [|k].
      + assert (Z : k_dt ld0 = 0) by (rewrite Dz in Y0; cbn [nth_error] in Y0; congruence). rewrite Z in *. split; lra.
      + assert (Hk1 : (k < N)%nat) by lia. destruct (Step eps k Hk1) as (ld1 & X1 & _ & _). destruct (C5 k ld1 X1) as (_ & _ & _ & _ & _ & (a & O1 & O2) & _).
        cbn [walked_before] in A0. rewrite (A0 a O1) in K1, K2. rewrite O2, !nth_tab by exact Hi. split; lra.
    - apply (joint_rate f n c cm tsize R0 Rm w np cw Rw); auto.
    - exact (Hlin k _ _ _ Y0 TK TM).
    - now apply Near.
    - intros i Hi Bi. destruct (Bal k i Hk Hi Bi) as (e & He). exists e. intros eps Ee. assert (Z := He eps Ee).
      destruct (Step eps k Hk) as (ld & X & Pr & _). destruct (Ch eps) as (_ & _ & _ & C5). destruct (C5 k ld X) as (Q1 & _ & Q2 & _ & Fr2 & _).
      fold (x eps k) in Q1, Q2, Fr2. rewrite Pr, (Tm eps k Hk) in Fr2. assert (Fe0 := rate_fits f n cm tsize Rm _ _ (Fp eps) Q2).
      assert (F2 := force_memoryless f n c tsize R0 _ _ _ m _ _ ML Fe0 Q1 Fr2).
      unfold forces_of. rewrite (tab_of n (d_u (x eps k)) Q1), (tab_of n (d_a (x eps k)) Q2), (tab_of np _ (Lp eps)).
      assert (Fe := force_entries f n c tsize R0 _ _ _ _ _ _ Fe0 Q1 Hi F2). rewrite Z in Fe. symmetry. exact Fe.
    - intros i Hi Bi. destruct (Held k _ i Y0 Hi Bi) as (e & He). exists e. intros eps Ee. destruct (He eps Ee) as [H1 H1']. destruct (He 0 (ball_center 0 e)) as [H2 H2'].
      unfold entries. destruct (Req_EM_T (k_dt ld0) 0) as [Z|Z]; [rewrite (H1 Z), (H2 Z); reflexivity|].
      specialize (H1' Z). specialize (H2' Z). unfold obeys in H1', H2'. unfold directly. destruct en; congruence. }
  induction K as [|k IH]; intros HK; [exists (fun _ => vz), (fun _ => vz), (fun _ => vz); intros; lia|]. destruct IH as (du & dv & da & H); [lia|].
  destruct (one k (match k with O => du0 | S j => du j end) (match k with O => dv0 | S j => dv j end) (match k with O => vz | S j => da j end)) as (du' & dv' & da' & Cu & Cv & Ca); [lia| | | |].
  { destruct k as [|j]; [exact Cu0|]. apply H. lia. }
  { destruct k as [|j]; [exact Cv0|]. apply H. lia. }
  { destruct k as [|j]; [apply curve_const|]. apply H. lia. }
  exists (fun j => if Nat.eqb j k then du' else du j), (fun j => if Nat.eqb j k then dv' else dv j), (fun j => if Nat.eqb j k then da' else da j).
  intros j Hj. destruct (Nat.eqb_spec j k) as [-> | Ne]; [exact (conj Cu (conj Cv Ca))|apply H; lia].
Qed.

Theorem motion_gradient_continuous params lin dts dts' (p : R -> list R) dp (s0 : R -> motion (St := St)) du0 dv0 (loads : R -> list push) (runs : R -> list (motion (St := St)))
  (Q : nat -> vec -> vec -> vec -> vec -> R) qu qa qp :
  params_fit tsize params -> memoryless f -> en <> FullControl ->
  (forall eps, d_cycle (s0 eps) = 0%nat /\ d_saved (s0 eps) = [(d_u (s0 eps), d_v (s0 eps), d_a (s0 eps))] /\ d_t (s0 eps) = d_t (s0 0)) ->
  curve n (fun eps => entries (d_u (s0 eps))) du0 -> curve n (fun eps => entries (d_v (s0 eps))) dv0 ->
  (forall i, (i < n)%nat -> any bcs i = true -> du0 i = 0 /\ dv0 i = 0) ->
  (forall eps, length (p eps) = np) -> curve np (fun eps => entries (p eps)) dp -> dts = 0 :: dts' ->
  (forall eps, map k_dt (loads eps) = dts /\ List.Forall (fun ld => k_params ld = with_param params w (p eps)) (loads eps)) ->
  (forall eps, run1 (loads eps) (s0 eps) = Ok (runs eps)) ->
  let N := length dts in let x := fun eps k => walked (s0 eps) (runs eps) k in
  let t := fun k => d_t (x 0 k) in let z := walked_end (s0 0) (runs 0) in
  (forall k, (k < N)%nat -> continuous_near n (fun eps => entries (d_a (x eps k)))) ->
  (forall k i, (k < N)%nat -> (i < n)%nat -> any bcs i = false -> locally 0 (fun eps => nth i (d_react (x eps k)) 0 = 0)) ->
  (forall k dt i, nth_error dts k = Some dt -> (i < n)%nat -> any bcs i = true -> locally 0 (fun eps =>
     (dt = 0 -> nth i (d_a (x eps k)) 0 = curvature target eps2 (t k) i) /\ (dt <> 0 -> obeys en target (t k) (d_u (x eps k)) (d_v (x eps k)) i))) ->
  (forall k, (k < N)%nat -> ad_joint f (t k) (inputs (inputs (with_param params w (p 0)) (d_a (x 0 k))) (d_u (x 0 k))) (d_mem z)) ->
  (forall k dt K M, nth_error dts k = Some dt -> tangent f n c (t k) (inputs (with_param params w (p 0)) (d_a (x 0 k))) (d_mem z) (d_u (x 0 k)) K ->
     param_tangent f n 0 cm (t k) (inputs (with_param params w (p 0)) (d_a (x 0 k))) (d_mem z) (d_u (x 0 k)) M ->
     lin_ok n bcs lin (fun i j => M i j + 1 / 4 * dt * dt * K i j)) ->
  (forall k, (k < N)%nat -> gradient4 n np (Q k) (entries (d_u (x 0 k))) (entries (d_v (x 0 k))) (entries (d_a (x 0 k))) (entries (p 0)) (qu k) vz (rate_part (qa k)) (qp k)) ->
  ((forall k, (k < N)%nat -> qa k <> None) \/ (forall k, (k < N)%nat -> qa k = None)) ->
  exists total b, motion_pass f n c cm bcs w cw lin dts (d_saved z) (with_param params w (p 0)) qu (fun _ => None) qa N (motion_turn z) = Ok (total, b) /\
    is_derive (fun eps => sumn N (fun k => Q k (entries (d_u (x eps k))) (entries (d_v (x eps k))) (entries (d_a (x eps k))) (entries (p eps)))) 0
      (vdot n (z_U b) du0 + vdot n (z_V b) dv0 + vdot np (fun i => total i + sumn N (fun k => qp k i)) dp).
Proof.
  intros Fo ML NF Hs0 Cu0 Cv0 Fix0 Lp Cp Dz Hl Hr N x t z Near Bal Held Had Hlin HQ Uni.
  assert (Ht : forall eps, d_t (s0 eps) = d_t (s0 0)) by (intros eps; apply Hs0).
  destruct (motion_smooth params lin dts dts' p dp s0 du0 dv0 loads runs Fo ML NF Ht Cu0 Cv0 Lp Cp Dz Hl Hr Near Bal Held Had Hlin N (le_n N)) as (du & dv & da & Cur).
  exact (motion_run_gradient f n c cm bcs target tsize R0 Rm w np cw Rw en NF params lin dts dts' p dp s0 du0 dv0 loads runs Q qu qa qp du dv da
    Fo ML Hs0 Cu0 Cv0 Fix0 Lp Cp Dz Hl Hr Cur Bal Held Had Hlin HQ Uni).
Qed.
End Heat.
