(** * Energy along whole runs of the integrators, and the solid module's residual as such a problem (C68) *)
From Coq Require Import NArith ZArith Reals List Lia Lra Bool.
From Verif Require Import Prelude DofCodec Sums Restriction Kernels FunctionalModel Assembly Tensor MatAlg Materials MaterialFacts ShapeAware WeakForm WeakFormFacts WeakFormPhysics WeakFormWork Fit Ode Energy EnergySolid.
Import ListNotations.
Local Open Scope R_scope.

(** ** specification *)
(** where a run may begin: an integrator that has stepped to [t] holds the acceleration of the motion there; a new one starts
    at [t] from a state that meets the supports *)
Definition begins (p : problem) (mem : option vec) (told t : R) (x : vec) : Prop :=
  match mem with
  | Some a => motion_at_free p t x a
  | None => told = t /\ forall i, (i < p_n p)%nat -> p_ess p i = true -> x i = p_g p t i
  end.
Definition unloaded (f : R -> vec) : Prop := forall t i, f t i = 0.
Definition constant_energy (m k : vec -> vec -> R) (x v : vec) (states : list (vec * vec * vec)) : Prop :=
  List.Forall (fun s => let '(x', v', _) := s in energy m k x' v' = energy m k x v) states.

Section Runs.
Variables (p : problem) (solver : R -> R -> vec -> vec -> vec) (m k : vec -> vec -> R) (f : R -> vec).
Hypothesis (Sol : solves p solver) (Ext : extensional p) (Bm : symmetric_form (p_n p) m) (Bk : symmetric_form (p_n p) k) (L : linear_motion p m k f).

Lemma begin_motion en mem told t x v : begins p mem told t x -> exists a0, start_acceleration p solver mem told x v a0 en /\ motion_at_free p t x a0.
Proof.
  destruct mem as [a|]; cbn [begins start_acceleration]; intros H; [now exists a|]. destruct H as [-> H].
  destruct (explicit_solve p solver Sol Ext en t x v) as (a & E & M & _). exists a. split; [exact E|].
  intros i Hi Ei. rewrite <- (M i Hi Ei). apply Ext; auto. intros j Hj. unfold merge, U. destruct (p_ess p j) eqn:Ej; [now rewrite H|reflexivity].
Qed.

Theorem work_run en dts mem told t x v : en = DirectControl \/ en = RateControl -> List.Forall (fun dt => dt <> 0) dts -> begins p mem told t x ->
  exists a0 states, newmark_run p solver (1 / 4) (1 / 2) en mem told t x v dts = Some states /\ start_acceleration p solver mem told x v a0 en /\
    length states = length dts /\
    let '(x', v', _) := final x v a0 states in energy m k x' v' = energy m k x v + run_work p f t x a0 dts states.
Proof.
  intros En F B. destruct (begin_motion en mem told t x v B) as (a0 & S & M0). exists a0.
  assert (Len : forall held states t x v a, trajectory p (1 / 4) (1 / 2) held t x v a dts states -> length states = length dts).
  { clear. intros held. induction dts as [|dt dts IH]; intros [|[[x1 v1] a1] states] t x v a; cbn [trajectory]; try contradiction; [reflexivity|].
    intros (_ & _ & _ & T). cbn [length]. f_equal. now apply IH in T. }
  destruct En as [-> | ->].
  - destruct (newmark_run_direct p solver Sol Ext (1 / 4) (1 / 2) dts ltac:(lra) F mem told t x v a0 S) as (st & E & T).
    exists st. split; [exact E|]. split; [exact S|]. split; [exact (Len _ _ _ _ _ _ T)|]. exact (average_run p m k f Bm Bk L _ dts F t x v a0 st T M0).
  - destruct (newmark_run_rate p solver Sol Ext (1 / 4) (1 / 2) dts ltac:(lra)) with (mem := mem) (told := told) (t := t) (x := x) (v := v) (a0 := a0) as (st & E & T); auto.
    { apply (Forall_impl _ (P := fun dt => dt <> 0)); [intros; lra|exact F]. }
    exists st. split; [exact E|]. split; [exact S|]. split; [exact (Len _ _ _ _ _ _ T)|]. exact (average_run p m k f Bm Bk L _ dts F t x v a0 st T M0).
Qed.

Theorem conserved_direct g dts mem told t x v : unloaded f -> fixed p g -> List.Forall (fun dt => dt <> 0) dts -> begins p mem told t x ->
  (forall i, (i < p_n p)%nat -> p_ess p i = true -> x i = g i) ->
  exists states, newmark_run p solver (1 / 4) (1 / 2) DirectControl mem told t x v dts = Some states /\ constant_energy m k x v states.
Proof.
  intros F0 Fx F B Hx. destruct (begin_motion DirectControl mem told t x v B) as (a0 & S & M0).
  destruct (newmark_run_direct p solver Sol Ext (1 / 4) (1 / 2) dts ltac:(lra) F mem told t x v a0 S) as (st & E & T). exists st. split; [exact E|].
  eapply Forall_impl; [|exact (average_conserves_direct p m k f Bm Bk L F0 g dts Fx F t x v a0 st T M0 Hx)]. intros [[x' v'] a'] H. exact H.
Qed.
Theorem conserved_rate g dts mem told t x v : unloaded f -> fixed p g -> List.Forall (fun dt => dt <> 0) dts -> begins p mem told t x ->
  (forall i, (i < p_n p)%nat -> p_ess p i = true -> v i = 0) ->
  exists states, newmark_run p solver (1 / 4) (1 / 2) RateControl mem told t x v dts = Some states /\ constant_energy m k x v states.
Proof.
  intros F0 Fx F B Hv. destruct (begin_motion RateControl mem told t x v B) as (a0 & S & M0).
  destruct (newmark_run_rate p solver Sol Ext (1 / 4) (1 / 2) dts ltac:(lra)) with (mem := mem) (told := told) (t := t) (x := x) (v := v) (a0 := a0) as (st & E & T); auto.
  { apply (Forall_impl _ (P := fun dt => dt <> 0)); [intros; lra|exact F]. }
  exists st. split; [exact E|].
  eapply Forall_impl; [|exact (average_conserves_rate p m k f Bm Bk L F0 g dts Fx F t x v a0 st T M0 Hv)]. intros [[x' v'] a'] H. exact H.
Qed.
(** unconditional stability: gamma >= 1/2, 2 beta >= gamma, any fixed step *)
Theorem stable_run beta gamma dt g dts mem told t x v : unloaded f -> fixed p g -> dt <> 0 -> List.Forall (fun d => d = dt) dts -> 1 / 2 <= gamma -> gamma / 2 <= beta ->
  nonnegative m -> nonnegative k -> begins p mem told t x -> (forall i, (i < p_n p)%nat -> p_ess p i = true -> x i = g i) ->
  exists a0 states, newmark_run p solver beta gamma DirectControl mem told t x v dts = Some states /\ start_acceleration p solver mem told x v a0 DirectControl /\
    List.Forall (fun s => let '(x', v', a') := s in 0 <= energy m k x' v' <= corrected m k beta gamma dt x v a0) states.
Proof.
  intros F0 Fx Nd F Hg Hb Pm Pk B Hx. destruct (begin_motion DirectControl mem told t x v B) as (a0 & S & M0).
  destruct (newmark_run_direct p solver Sol Ext beta gamma dts) with (mem := mem) (told := told) (t := t) (x := x) (v := v) (a0 := a0) as (st & E & T); auto; [lra| |].
  { apply (Forall_impl _ (P := fun d => d = dt)); [intros d ->; exact Nd|exact F]. }
  exists a0, st. split; [exact E|]. split; [exact S|].
  destruct (newmark_decays p m k f Bm Bk L F0 beta gamma dt g dts Fx Nd F Hg Hb Pm Pk t x v a0 st T M0 Hx) as (_ & _ & H).
  eapply Forall_impl; [|exact H]. intros [[x' v'] a'] (A & B0 & C). cbn [fst snd] in *. unfold energy. split; [lra|exact C].
Qed.
(** backward Euler *)
Theorem euler2_run t dt x v : dt <> 0 -> exists x' v' a', backward_euler2 p solver DirectControl t dt x v = Some (x', v', a') /\
  energy m k x' v' = energy m k x v + dotn (p_n p) (diff x' x) (force p f (t + dt) x' a') - energy m k (diff x' x) (diff v' v) /\
  (forall g, unloaded f -> fixed p g -> nonnegative m -> nonnegative k -> (forall i, (i < p_n p)%nat -> p_ess p i = true -> x i = g i) -> energy m k x' v' <= energy m k x v).
Proof.
  intros Nd. destruct (euler2_ok p solver Sol Ext t dt x v Nd) as [(x' & v' & a' & E & Rel & M & Hh) _]. exists x', v', a'. split; [exact E|].
  assert (EE := euler2_energy p m k f Bm Bk L dt t x v x' v' a' Rel). split; [exact EE|]. intros g F0 Fx Pm Pk Hx.
  rewrite (held_dot p f g (t + dt) x x' x' a') in EE; auto; [|intros; rewrite Hh by auto; now apply Fx].
  assert (0 <= energy m k (diff x' x) (diff v' v)) by (unfold energy; specialize (Pm (diff v' v)); specialize (Pk (diff x' x)); lra). lra.
Qed.
Theorem euler1_run t dt x : 0 < dt -> let '(x', r) := backward_euler1 p solver DirectControl t dt x in
  k x' x' / 2 = k x x / 2 + dotn (p_n p) (diff x' x) (force p f (t + dt) x' r) - dt * m r r - k (diff x' x) (diff x' x) / 2 /\
  m x' x' / 2 = m x x / 2 + dt * dotn (p_n p) x' (force p f (t + dt) x' r) - dt * k x' x' - m (diff x' x) (diff x' x) / 2 /\
  (forall g, unloaded f -> fixed p g -> nonnegative m -> nonnegative k -> (forall i, (i < p_n p)%nat -> p_ess p i = true -> x i = g i) ->
     k x' x' <= k x x /\ ((forall i, g i = 0) -> m x' x' <= m x x)).
Proof.
  intros Pd. destruct (euler1_ok p solver Sol t dt x Pd) as [H _].
  destruct (backward_euler1 p solver DirectControl t dt x) as [x' r]. destruct H as (Rel & M & Hh).
  destruct (euler1_energy p m k f Bm Bk L dt t x x' r) as [E1 E2]; [intros; apply Rel|]. split; [exact E1|]. split; [exact E2|].
  intros g F0 Fx Pm Pk Hx. assert (Hx' : forall i, (i < p_n p)%nat -> p_ess p i = true -> x' i = g i) by (intros; rewrite Hh by auto; now apply Fx). split.
  - rewrite (held_dot p f g (t + dt) x x' x' r) in E1; auto. assert (0 <= dt * m r r) by (apply Rmult_le_pos; [lra|apply Pm]). specialize (Pk (diff x' x)). lra.
  - intros G0. assert (Z : dotn (p_n p) x' (force p f (t + dt) x' r) = 0).
    { apply sumn_zero. intros i Hi. unfold force. rewrite F0. destruct (p_ess p i) eqn:E; [rewrite Hx', G0 by auto; ring|rewrite (M i Hi E); ring]. }
    rewrite Z in E2. assert (0 <= dt * k x' x') by (apply Rmult_le_pos; [lra|apply Pk]). specialize (Pm (diff x' x)). lra.
Qed.
End Runs.

(** ** the solid module *)
(** solid_mechanics.hpp:1325-1380: the residual of the equation of motion, for linear elastic terms that keep no state *)
Definition elastic_problem {St} (N : nat) (f : functional St) (m : mem St) (params : nat -> list R) (ess : nat -> bool) (g : R -> vec) : problem :=
  {| p_n := N; p_ess := ess; p_g := g;
     p_res := fun t x a i => match evaluate f t None false (arguments N params x a) N m with Ok (L, _) => nth i L 0 | _ => 0 end |}.

Section Elastic.
Context {St : Type} (n N : nat) (f : functional St) (m : mem St) (terms : list (solid_term St)) (pos : nat -> nat -> nat -> nat -> vec) (jac : nat -> nat -> nat -> nat -> mat)
  (params : nat -> list R) (ess : nat -> bool) (g : R -> vec).
Hypothesis (D : dim23 n) (LE : List.Forall (linear_elastic n) terms) (W : forall x a, wf f N (fun w => length (arguments N params x a w))) (F : all_fit f) (TS : two_spaces n f)
  (RES : forall t x a, solid_residual n f t (arguments N params x a) m terms pos jac).
Notation p := (elastic_problem N f m params ess g).

Lemma elastic_residual t x a : exists L' m', evaluate f t None false (arguments N params x a) N m = Ok (L', m') /\ forall i, p_res p t x a i = nth i L' 0.
Proof.
  destruct (evaluate_spec f t None false (arguments N params x a) N m (W x a)) as (L' & E & _). eexists L', _. split; [exact E|].
  intros i. cbn [elastic_problem p_res]. now rewrite E.
Qed.
Theorem elastic_motion : linear_motion p (mass_form n N f terms jac) (stiffness_form n N f m terms jac) (load_vector n N f terms pos jac).
Proof.
  intros t x a h. cbn [p_n elastic_problem]. destruct (elastic_residual t x a) as (L' & m' & E & R).
  rewrite (dotn_ext N h h _ (fun i => nth i L' 0)) by auto.
  exact (solid_balance n N f m terms pos jac params D LE t x a L' m' None false (W x a) F TS (RES t x a) E h).
Qed.
Theorem elastic_extensional : extensional p.
Proof.
  intros t u u' a a' i Hu Ha _. cbn [elastic_problem p_res p_n] in *.
  assert (E : forall w, arguments N params u a w = arguments N params u' a' w) by (intros [|[|w]]; cbn [arguments]; [now apply tab_ext|now apply tab_ext|reflexivity]).
  destruct (evaluate_spec f t None false _ N m (W u a)) as (L1 & E1 & _ & V1). destruct (evaluate_spec f t None false _ N m (W u' a')) as (L2 & E2 & _ & V2).
  rewrite E1, E2. assert (EE : forall Ig, Es_of f (arguments N params u a) Ig = Es_of f (arguments N params u' a') Ig).
  { intros Ig. unfold Es_of. apply map_ext. intros s. now rewrite E. }
  destruct (lt_dec i N) as [Hi|Hi]; [|rewrite !nth_overflow; [reflexivity| |]].
  - rewrite V1, V2 by auto. assert (X : forall ints k0, res_sum f t (arguments N params u a) m k0 ints i = res_sum f t (arguments N params u' a') m k0 ints i).
    { induction ints as [|Ig ints IH]; intros k0; [reflexivity|]. cbn [res_sum]. rewrite IH. f_equal. unfold res_contrib, res_blocks. now rewrite EE. }
    apply X.
  - destruct (evaluate_spec f t None false _ N m (W u' a')) as (L3 & E3 & Len & _). rewrite E2 in E3. injection E3 as <-. lia.
  - destruct (evaluate_spec f t None false _ N m (W u a)) as (L3 & E3 & Len & _). rewrite E1 in E3. injection E3 as <-. lia.
Qed.

Definition oriented : Prop := forall k Ig g G le q, nth_error (f_integrals f) k = Some Ig -> nth_error (i_geoms Ig) g = Some G -> (le < length (gk_elems G))%nat -> (q < gk_nq G)%nat ->
  forall on rho sigma, nth_error terms k = Some (SMaterial on rho sigma) -> 0 <= gk_w G q * detn n (jac k g le q).
Definition positive : Prop := forall on rho sigma, In (SMaterial on rho sigma) terms -> 0 <= rho /\ forall st A, 0 <= inner n n (stress_of sigma st A) A.
Theorem mass_nonneg : oriented -> positive -> nonnegative (mass_form n N f terms jac).
Proof.
  intros O P x. unfold mass_form. apply over_points_nonneg. intros k Ig g0 G r le q E1 E2 Hle Hq.
  destruct (nth_error terms k) as [T|] eqn:ET; [|lra]. destruct T as [on rho sigma|b|tr|on pr]; cbn [mass_density]; try lra.
  destruct (P on rho sigma (nth_error_In _ _ ET)) as [Pr _]. assert (O' := O k Ig g0 G le q E1 E2 Hle Hq on rho sigma ET).
  set (s := sumn n _). assert (Hs : 0 <= s) by (apply sumn_nonneg; intros; apply Rle_0_sqr).
  replace (rho * s * detn n (jac k g0 le q) * gk_w G q) with (rho * s * (gk_w G q * detn n (jac k g0 le q))) by ring. apply Rmult_le_pos; [now apply Rmult_le_pos|exact O'].
Qed.
Theorem stiffness_nonneg : oriented -> positive -> nonnegative (stiffness_form n N f m terms jac).
Proof.
  intros O P x. unfold stiffness_form. apply over_points_nonneg. intros k Ig g0 G r le q E1 E2 Hle Hq.
  destruct (nth_error terms k) as [T|] eqn:ET; [|lra]. destruct T as [on rho sigma|b|tr|on pr]; cbn [stiffness_density]; try lra.
  destruct (P on rho sigma (nth_error_In _ _ ET)) as [_ Ps]. assert (O' := O k Ig g0 G le q E1 E2 Hle Hq on rho sigma ET).
  set (A := grad_at _ _ _). specialize (Ps (m_q m k g0 le q) A). set (s := inner n n _ A) in *.
  replace (s * detn n (jac k g0 le q) * gk_w G q) with (s * (gk_w G q * detn n (jac k g0 le q))) by ring. now apply Rmult_le_pos.
Qed.
End Elastic.

Theorem elastic_residual_forms : forall St n N (f : functional St) m terms pos jac params t x a L' m' wrt upd, dim23 n -> List.Forall (linear_elastic n) terms ->
  wf f N (fun w => length (arguments N params x a w)) -> all_fit f -> two_spaces n f -> solid_residual n f t (arguments N params x a) m terms pos jac ->
  evaluate f t wrt upd (arguments N params x a) N m = Ok (L', m') ->
  symmetric_form N (mass_form n N f terms jac) /\ symmetric_form N (stiffness_form n N f m terms jac) /\
  forall h, dotn N h (fun i => nth i L' 0) = mass_form n N f terms jac h a + stiffness_form n N f m terms jac h x - dotn N h (load_vector n N f terms pos jac t).
Proof.
  intros St n N f m terms pos jac params t x a L' m' wrt upd D LE W F TS RES EV. split; [now apply mass_symmetric|]. split; [now apply stiffness_symmetric|].
  exact (solid_balance n N f m terms pos jac params D LE t x a L' m' wrt upd W F TS RES EV).
Qed.
Theorem elastic_forms_positive : forall St n N (f : functional St) m terms jac, oriented n f terms jac -> positive n terms ->
  nonnegative (mass_form n N f terms jac) /\ nonnegative (stiffness_form n N f m terms jac).
Proof. intros. split; [now apply mass_nonneg|now apply stiffness_nonneg]. Qed.
Theorem elastic_case : forall St n N (f : functional St) m terms pos jac params ess g, dim23 n -> List.Forall (linear_elastic n) terms ->
  (forall x a, wf f N (fun w => length (arguments N params x a w))) -> all_fit f -> two_spaces n f -> (forall t x a, solid_residual n f t (arguments N params x a) m terms pos jac) ->
  extensional (elastic_problem N f m params ess g) /\
  linear_motion (elastic_problem N f m params ess g) (mass_form n N f terms jac) (stiffness_form n N f m terms jac) (load_vector n N f terms pos jac).
Proof. intros. split; [now apply elastic_extensional|now apply elastic_motion]. Qed.

(** ** momentum of any solid, large deformations and any material *)
Section Momentum.
Context {St : Type} (n nn : nat) (o : ordering) (f : functional St) (terms : list (solid_term St)) (pos : nat -> nat -> nat -> nat -> vec) (jac : nat -> nat -> nat -> nat -> mat) (params : nat -> list R).
Notation N := (nn * n)%nat.
(** momentum of the nodal velocities [v] in direction [i], and the force of the loads *)
Definition momentum_of (i : nat) (v : vec) : R := over_points f (fun k Ig g G r le q =>
  match nth_error terms k with Some (SMaterial _ rho _) => rho * test_field G r (tab N v) le q i 0%nat * detn n (jac k g le q) | _ => 0 end).
Definition force_of (i : nat) (t : R) : R := over_points f (fun k Ig g G r le q =>
  match nth_error terms k with
  | Some (SBody b) => b (pos k g le q) t i * detn n (jac k g le q)
  | Some (STraction tr) => tr (pos k g le q) (unit_normal n (jac k g le q)) t i * vnorm n (crossn n (jac k g le q))
  | Some (SPressure _ p) => - p (pos k g le q) t * crossn n (jac k g le q) i
  | _ => 0 end).
Definition dead_loads : Prop := forall on p, In (SPressure on p) terms -> on = false.

Lemma momentum_linear i c d v w u : (forall j, (j < N)%nat -> u j = c * v j + d * w j) -> momentum_of i u = c * momentum_of i v + d * momentum_of i w.
Proof.
  intros H. unfold momentum_of. rewrite <- over_points_comb. apply over_points_ext. intros k Ig g G r le q _ _ _ _ _.
  destruct (nth_error terms k) as [[on rho sigma|b|tr|on p]|]; try ring.
  assert (E : tab N u = tab N (fun j => c * v j + (fun j => d * w j + 0) j)) by (apply tab_ext; intros j Hj; rewrite (H j Hj); ring).
  rewrite E, test_field_comb, (test_field_comb G r N w (fun _ => 0) d). assert (Z : test_field G r (tab N (fun _ => 0)) le q i 0%nat = 0).
  { assert (A := test_field_comb G r N (fun _ => 0) (fun _ => 0) 1 le q i 0%nat). assert (B : tab N (fun j => 1 * 0 + 0) = tab N (fun _ => 0)) by (apply tab_ext; intros; ring).
    cbv beta in A. rewrite B in A. lra. }
  rewrite Z. ring.
Qed.
Lemma momentum_total (Hn : dim23 n) t x a m L m' wrt upd i : dead_loads -> wf f N (fun w => length (arguments N params x a w)) -> all_fit f -> layout f o nn n -> two_spaces n f -> unity f ->
  solid_residual n f t (arguments N params x a) m terms pos jac -> evaluate f t wrt upd (arguments N params x a) N m = Ok (L, m') -> (i < n)%nat ->
  total o nn n L i = momentum_of i a - force_of i t.
Proof.
  intros DL W F LY TS HU RES EV Hi. rewrite (momentum n Hn f t wrt upd _ m m' L o nn terms pos jac W F LY EV RES i Hi HU).
  unfold momentum_of, force_of. rewrite <- over_points_minus. apply over_points_ext. intros k Ig g G r le q E1 E2 E3 Hle Hq.
  destruct (nth_error terms k) as [T|] eqn:ET; [|ring]. destruct (argument_field n N f params x a TS k Ig g G r le q E1 E2 E3) as [A0 A1]. rewrite A0, A1.
  destruct T as [on rho sigma|b|tr|on p]; cbn [solid_force]; try (unfold unit_normal; ring).
  rewrite (DL on p (nth_error_In _ _ ET)). rewrite (crossn_ext n _ (jac k g le q) i Hn); [ring|]. intros; cbn; ring.
Qed.
(** one step, whatever the material did to its state in between: the loads and the reactions change the momentum *)
Theorem momentum_advance (Hn : dim23 n) beta gamma dt t x v a x' v' a' m0 m1 L0 L1 m0' m1' wrt0 upd0 wrt1 upd1 i : dead_loads ->
  wf f N (fun w => length (arguments N params x a w)) -> all_fit f -> layout f o nn n -> two_spaces n f -> unity f ->
  solid_residual n f t (arguments N params x a) m0 terms pos jac -> evaluate f t wrt0 upd0 (arguments N params x a) N m0 = Ok (L0, m0') ->
  solid_residual n f (t + dt) (arguments N params x' a') m1 terms pos jac -> evaluate f (t + dt) wrt1 upd1 (arguments N params x' a') N m1 = Ok (L1, m1') ->
  (forall j, (j < N)%nat -> x' j = x j + dt * v j + dt * dt * ((1 / 2 - beta) * a j + beta * a' j) /\ v' j = v j + dt * ((1 - gamma) * a j + gamma * a' j)) -> (i < n)%nat ->
  momentum_of i v' = momentum_of i v + dt * ((1 - gamma) * (force_of i t + total o nn n L0 i) + gamma * (force_of i (t + dt) + total o nn n L1 i)).
Proof.
  intros DL W F LY TS HU R0 E0 R1 E1 Rel Hi.
  rewrite (momentum_total Hn t x a m0 L0 m0' wrt0 upd0 i DL W F LY TS HU R0 E0 Hi).
  assert (W' : wf f N (fun w => length (arguments N params x' a' w))).
  { intros Ig HI. destruct (W Ig HI) as (A & B & C & D). split; [exact A|]. split; [|now split]. intros w r Hr. specialize (B w r Hr).
    replace (length (arguments N params x' a' w)) with (length (arguments N params x a w)); [exact B|]. destruct w as [|[|w]]; cbn [arguments]; now rewrite ?tab_length. }
  rewrite (momentum_total Hn (t + dt) x' a' m1 L1 m1' wrt1 upd1 i DL W' F LY TS HU R1 E1 Hi).
  rewrite (momentum_linear i 1 dt v (fun j => (1 - gamma) * a j + gamma * a' j) v') by (intros j Hj; rewrite (proj2 (Rel j Hj)); ring).
  rewrite (momentum_linear i (1 - gamma) gamma a a' (fun j => (1 - gamma) * a j + gamma * a' j)) by (intros; ring). ring.
Qed.
End Momentum.

(** solid_material.hpp:37-44: the law of LinearIsotropic *)
Lemma tr_ext n A B : meq n A B -> tr n A = tr n B.
Proof. intros H. apply sumn_ext. intros i Hi. now apply H. Qed.
Lemma strain_comb c A B i j : small_strain (fun i j => c * A i j + B i j) i j = c * small_strain A i j + small_strain B i j.
Proof. unfold small_strain, mscal, madd, transpose. ring. Qed.
Lemma iso_inner n lambda G A B : inner n n (iso_stress n lambda G A) B = lambda * tr n (small_strain A) * tr n (small_strain B) + 2 * G * inner n n (small_strain A) (small_strain B).
Proof.
  assert (S : symmetric n (iso_stress n lambda G A)).
  { intros i j _ _. unfold iso_stress, transpose, madd, mscal, small_strain, madd, mscal, transpose. rewrite (ident_comm i j). ring. }
  assert (S2 : symmetric n (small_strain A)) by (intros i j _ _; unfold transpose, small_strain, mscal, madd, transpose; ring).
  rewrite <- (inner_sym_part n _ B S). unfold iso_stress. rewrite inner_add_l, (inner_scal_l n (lambda * tr n (small_strain A))), (inner_scal_l n (2 * G)), inner_ident_l. f_equal.
  f_equal. unfold inner. apply sumn_ext. intros i _. apply sumn_ext. intros j _. unfold small_strain, mscal, madd, transpose. ring.
Qed.
Lemma iso_entry n lambda G A i j : iso_stress n lambda G A i j = lambda * tr n (small_strain A) * ident i j + 2 * G * small_strain A i j.
Proof. reflexivity. Qed.
Theorem isotropic_linear {St} n rho K G : linear_elastic n (SMaterial false rho (fun (_ : St) H => Some (linear_isotropic n K G H))).
Proof.
  cbn [linear_elastic]. split; [reflexivity|]. split; [discriminate|]. intros st. unfold stress_of, linear_isotropic. split; [|split].
  - intros A B H. assert (E : meq n (small_strain A) (small_strain B)) by (intros i j Hi Hj; unfold small_strain, mscal, madd, transpose; now rewrite !H).
    intros i j Hi Hj. rewrite !iso_entry, (tr_ext n _ _ E), E by auto. reflexivity.
  - intros c A B i j Hi Hj. rewrite !iso_entry.
    assert (T : tr n (small_strain (fun i j => c * A i j + B i j)) = c * tr n (small_strain A) + tr n (small_strain B)).
    { unfold tr. rewrite <- sumn_scal_l, <- sumn_plus. apply sumn_ext. intros l _. apply strain_comb. }
    rewrite T, strain_comb. ring.
  - intros A B. rewrite !iso_inner. assert (E : inner n n (small_strain A) (small_strain B) = inner n n (small_strain B) (small_strain A)).
    { unfold inner. apply sumn_ext. intros. apply sumn_ext. intros. ring. }
    rewrite E. ring.
Qed.
Theorem isotropic_positive n K G A : dim23 n -> 0 <= K -> 0 <= G -> 0 <= inner n n (linear_isotropic n K G A) A.
Proof.
  intros D HK HG. unfold linear_isotropic. rewrite iso_inner. set (E := small_strain A).
  assert (S : tr n E * tr n E <= 3 * inner n n E E).
  { unfold tr, inner. destruct D as [-> | ->]; cbn [sumn].
    - assert (0 <= (E 0%nat 0%nat - E 1%nat 1%nat) * (E 0%nat 0%nat - E 1%nat 1%nat)) by apply Rle_0_sqr.
      assert (0 <= E 0%nat 0%nat * E 0%nat 0%nat) by apply Rle_0_sqr. assert (0 <= E 1%nat 1%nat * E 1%nat 1%nat) by apply Rle_0_sqr.
      assert (0 <= E 0%nat 1%nat * E 0%nat 1%nat) by apply Rle_0_sqr. assert (0 <= E 1%nat 0%nat * E 1%nat 0%nat) by apply Rle_0_sqr. lra.
    - assert (forall i j, 0 <= E i j * E i j) as Q by (intros; apply Rle_0_sqr).
      assert (Q1 := Rle_0_sqr (E 0%nat 0%nat - E 1%nat 1%nat)). assert (Q2 := Rle_0_sqr (E 0%nat 0%nat - E 2%nat 2%nat)). assert (Q3 := Rle_0_sqr (E 1%nat 1%nat - E 2%nat 2%nat)). unfold Rsqr in *.
      assert (O1 := Q 0%nat 1%nat). assert (O2 := Q 0%nat 2%nat). assert (O3 := Q 1%nat 0%nat). assert (O4 := Q 1%nat 2%nat). assert (O5 := Q 2%nat 0%nat). assert (O6 := Q 2%nat 1%nat). lra. }
  unfold lame. replace ((K - 2 / 3 * G) * tr n E * tr n E + 2 * G * inner n n E E) with (K * (tr n E * tr n E) + 2 / 3 * (G * (3 * inner n n E E - tr n E * tr n E))) by field.
  assert (0 <= K * (tr n E * tr n E)) by (apply Rmult_le_pos; [exact HK|apply Rle_0_sqr]).
  assert (0 <= G * (3 * inner n n E E - tr n E * tr n E)) by (apply Rmult_le_pos; [exact HG|lra]). lra.
Qed.
Theorem isotropic_case : forall St n rho K G, linear_elastic n (SMaterial false rho (fun (_ : St) H => Some (linear_isotropic n K G H))) /\
  (dim23 n -> 0 <= K -> 0 <= G -> forall A, 0 <= inner n n (linear_isotropic n K G A) A).
Proof. intros. split; [apply isotropic_linear|]. intros. now apply isotropic_positive. Qed.
