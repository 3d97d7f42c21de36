(** * Implicit heat conduction forgets its start and settles at the steady temperature, whatever the step lengths (C95)
    The steps are those of MFEM's backward Euler solver on FirstOrderODE (odes.cpp:302-365, Ode.v) with the residual of the heat module
    (heat_transfer.hpp:727-762, EnergyHeat.v). *)
From Coq Require Import NArith ZArith Reals List Lia Lra Bool.
From Verif Require Import Prelude DofCodec Sums Restriction Kernels FunctionalModel Assembly Tensor MatAlg Materials MaterialFacts ShapeAware WeakForm WeakFormFacts WeakFormPhysics WeakFormWork Fit Ode Energy EnergySolid EnergyRun EnergyHeat SymEigFacts StiffBody HeatUnique.
Import ListNotations.
Local Open Scope R_scope.

(** ** specification *)
(** at the end of the step the equation holds at the free degrees of freedom, and the others have the values prescribed for that time *)
Definition implicit_step (p : problem) (t dt : R) (x x' : vec) : Prop := exists r, (forall i, (i < p_n p)%nat -> x' i = x i + dt * r i) /\
  (forall i, (i < p_n p)%nat -> p_ess p i = false -> p_res p (t + dt) x' r i = 0) /\ forall i, (i < p_n p)%nat -> p_ess p i = true -> x' i = p_g p (t + dt) i.
(** steps of the lengths [dts], one after the other *)
Fixpoint implicit_run (p : problem) (t : R) (x : vec) (dts : list R) (x' : vec) : Prop :=
  match dts with [] => x' = x | dt :: later => 0 < dt /\ exists y, implicit_step p t dt x y /\ implicit_run p (t + dt) y later x' end.
Definition elapsed (dts : list R) : R := fold_right Rplus 0 dts.
(** supplies which do not depend on time *)
Definition constant_supplies (terms : list heat_term) : Prop := (forall s, In (HSource s) terms -> forall X t, s X t 0 none = s X 0 0 none) /\ forall q, In (HFlux q) terms -> forall X nu t, q X nu t 0 = q X nu 0 0.

(** ** the steps of the integrator *)
Lemma last_cons {A} (l : list A) x y : last (y :: l) x = last l y.
Proof. revert x y. induction l as [|z l IH]; intros; [reflexivity|]. change (last (z :: l) x = last (z :: l) y). now rewrite !IH. Qed.
Theorem integrator_runs p solver : solves p solver -> forall dts t x, List.Forall (fun dt => 0 < dt) dts -> implicit_run p t x dts (last (diffusion_run p solver t x dts) x).
Proof.
  intros Sol dts. induction dts as [|dt dts IH]; intros t x P; [reflexivity|]. inversion P as [|? ? P1 P2]; subst. cbn [diffusion_run implicit_run]. split; [exact P1|].
  destruct (euler1_ok p solver Sol t dt x P1) as [H _]. destruct (backward_euler1 p solver DirectControl t dt x) as [x' r]. cbn [fst]. destruct H as (H1 & H2 & H3).
  exists x'. split; [exists r; split; [intros; apply H1|]; split; [exact H2|exact H3]|]. rewrite last_cons. now apply IH.
Qed.

Lemma common_bound N (Q : nat -> R -> Prop) : (forall i T T', Q i T -> T <= T' -> Q i T') -> (forall i, (i < N)%nat -> exists T, Q i T) -> exists T, forall i, (i < N)%nat -> Q i T.
Proof.
  intros MO. induction N as [|N IH]; intros H; [exists 0; intros; lia|]. destruct IH as (T1 & H1); [intros; apply H; lia|]. destruct (H N ltac:(lia)) as (T2 & H2). exists (Rmax T1 T2).
  intros i Hi. destruct (Nat.eq_dec i N) as [->|NE]; [apply (MO N T2); [exact H2|apply Rmax_r]|apply (MO i T1); [apply H1; lia|apply Rmax_l]].
Qed.
(** ** two runs *)
Section Gap.
Context (N : nat) (m k : vec -> vec -> R) (ess : nat -> bool).
Hypothesis (Bm : symmetric_form N m) (Bk : symmetric_form N k) (Pm : nonnegative m) (Pk : nonnegative k).
Definition silent (h : vec) : Prop := forall i, (i < N)%nat -> ess i = true -> h i = 0.
(** the equation tested with all changes that the held values allow *)
Definition weak_step (l : vec) (dt : R) (x x' : vec) : Prop := exists r, (forall i, (i < N)%nat -> x' i = x i + dt * r i) /\ forall h, silent h -> m h r + k h x' = dotn N h l.
Lemma step_gap l dt x x' y y' : 0 < dt -> weak_step l dt x x' -> weak_step l dt y y' -> silent (diff x y) -> silent (diff x' y') ->
  m (diff x' y') (diff x' y') + 2 * dt * k (diff x' y') (diff x' y') <= m (diff x y) (diff x y) /\ k (diff x' y') (diff x' y') <= k (diff x y) (diff x y).
Proof.
  intros Pd (r & R1 & R2) (s & S1 & S2) Z Z'. set (d := diff x y) in *. set (d' := diff x' y') in *. set (e := diff r s).
  assert (DE : forall i, (i < N)%nat -> d i = 1 * d' i + (- dt) * e i) by (intros i Hi; unfold d, d', e, diff; rewrite R1, S1 by exact Hi; ring).
  assert (ZE : silent e). { intros i Hi Es. assert (Q := DE i Hi). rewrite (Z i Hi Es), (Z' i Hi Es) in Q. assert (Q2 : dt * e i = 0) by lra. apply Rmult_integral in Q2 as [Q2|Q2]; [lra|exact Q2]. }
  assert (EQ : forall h, silent h -> m h e + k h d' = 0). { intros h Hh. unfold e, d'. rewrite (diff_r N m Bm), (diff_r N k Bk). assert (A := R2 h Hh). assert (B := S2 h Hh). lra. }
  assert (E1 := EQ d' Z'). assert (E2 := EQ e ZE).
  assert (XM : m d d = m d' d' - 2 * dt * m d' e + dt * dt * m e e).
  { rewrite (ext_2 N m Bm d d _ _ DE DE), (comb2 N m Bm), !(comb2_r N m Bm), (form_sym N m Bm e d'). ring. }
  assert (XK : k d d = k d' d' - 2 * dt * k d' e + dt * dt * k e e).
  { rewrite (ext_2 N k Bk d d _ _ DE DE), (comb2 N k Bk), !(comb2_r N k Bk), (form_sym N k Bk e d'). ring. }
  assert (M1 := Pm e). assert (K1 := Pk e). assert (DD : 0 <= dt * dt) by nra.
  assert (A1 : 0 <= dt * dt * m e e) by (now apply Rmult_le_pos). assert (A2 : 0 <= dt * dt * k e e) by (now apply Rmult_le_pos). assert (A3 : 0 <= dt * m e e) by (apply Rmult_le_pos; lra).
  split.
  - replace (m d' e) with (- k d' d') in XM by lra. lra.
  - rewrite (form_sym N k Bk e d') in E2. replace (k d' e) with (- m e e) in XK by lra. lra.
Qed.
(** the value at a degree of freedom is bounded by the form, if the form is definite *)
Lemma value_bound : (forall v, k v v = 0 -> silent v -> forall i, (i < N)%nat -> v i = 0) -> forall i, (i < N)%nat -> exists c, 0 <= c /\ forall v, silent v -> v i * v i <= c * k v v.
Proof.
  intros DEF i Hi. destruct (form_one N k Bk Pk (fun j => negb (ess j))) with (l := fun j => if Nat.eqb j i then 1 else 0) (g := fun _ : nat => 0) as (z & (Z1 & Z2) & _).
  { intros v V0 VZ. apply DEF; [exact V0|]. intros j Hj Es. apply VZ; [exact Hj|]. now rewrite Es. }
  exists (k z z). split; [apply Pk|]. intros v SV. assert (E : k v z = v i).
  { rewrite (form_expand N k Bk). rewrite (sumn_ext N _ (fun j => if Nat.eqb j i then v j else 0)); [exact (sumn_delta N i v Hi)|]. intros j Hj. destruct (ess j) eqn:Es.
    - rewrite (SV j Hj Es). destruct (Nat.eqb j i); ring.
    - rewrite (Z2 j Hj) by (now rewrite Es). destruct (Nat.eqb j i); ring. }
  rewrite <- E, (Rmult_comm (k z z)).
  apply (cauchy_quadratic (k v v) (k v z) (k z z)); [apply Pk|]. intros s. assert (Q := Pk (fun j => v j + s * z j)). rewrite (form_comb N k Bk), !(form_comb_r N k Bk), (form_sym N k Bk z v) in Q. lra.
Qed.
End Gap.

Section Heat.
Context {St : Type} (n N : nat) (f : functional St) (m : mem St) (terms : list heat_term) (pos : nat -> nat -> nat -> nat -> vec) (jac : nat -> nat -> nat -> nat -> mat)
  (params : nat -> list R) (ess : nat -> bool) (g : R -> vec).
Hypothesis (D : dim23 n) (LH : List.Forall (linear_heat n) terms) (F : all_fit f) (TS : two_spaces 1 f) (SE : sound_elements n f terms jac) (CV : conductive n terms) (CP : capacious terms)
  (EV : forall t x a, exists L, heat_flows n N f m terms pos jac params t x a L).
Notation K := (conduct_form n N f terms pos jac).
Notation C := (capacity_form n N f terms pos jac).
Notation P := (heat_problem N f m params ess).
Let KS : symmetric_form N K := conduct_symmetric n N f terms pos jac LH.
Let CS : symmetric_form N C := capacity_symmetric n N f terms pos jac.
Let KP : nonnegative K := fun v => proj1 (conduct_definite n N f terms pos jac LH SE CV v).
Let CPos : nonnegative C := fun v => proj1 (capacity_definite n N f terms pos jac SE v CP).
Lemma motion_eq : linear_motion (P g) C K (supply_vector n N f terms pos jac).
Proof. apply heat_motion; auto; [intros x a; destruct (EV 0 x a) as (L & W & _); exact W|intros t x a; destruct (EV t x a) as (L & _ & R & _); exact R]. Qed.
Lemma step_weak t dt x x' : implicit_step (P g) t dt x x' -> weak_step N C K ess (supply_vector n N f terms pos jac (t + dt)) dt x x'.
Proof.
  intros (r & R1 & R2 & _). exists r. split; [exact R1|]. intros h Hh. assert (E := motion_eq (t + dt) x' r h). cbn [p_n heat_problem] in E.
  assert (Z : dotn N h (p_res (P g) (t + dt) x' r) = 0); [|lra]. apply sumn_zero. intros i Hi. destruct (ess i) eqn:Es; [rewrite (Hh i Hi Es); ring|]. rewrite (R2 i Hi Es). ring.
Qed.
Lemma step_held t dt x x' y y' : implicit_step (P g) t dt x x' -> implicit_step (P g) t dt y y' -> silent N ess (diff x' y').
Proof. intros (r & _ & _ & A) (s & _ & _ & B) i Hi Es. unfold diff. rewrite (A i Hi Es), (B i Hi Es). ring. Qed.
Theorem runs_approach : forall dts t x x' y y', implicit_run (P g) t x dts x' -> implicit_run (P g) t y dts y' -> (forall i, (i < N)%nat -> ess i = true -> x i = y i) ->
  C (diff x' y') (diff x' y') + 2 * elapsed dts * K (diff x' y') (diff x' y') <= C (diff x y) (diff x y) /\ K (diff x' y') (diff x' y') <= K (diff x y) (diff x y).
Proof.
  intros dts. induction dts as [|dt dts IH]; intros t x x' y y' HX HY Z; cbn [implicit_run elapsed fold_right] in *.
  - subst. split; lra.
  - destruct HX as (Pd & x1 & X1 & X2). destruct HY as (_ & y1 & Y1 & Y2). assert (Z1 := step_held t dt x x1 y y1 X1 Y1).
    assert (ZZ : silent N ess (diff x y)) by (intros i Hi Es; unfold diff; rewrite (Z i Hi Es); ring).
    destruct (step_gap N C K ess CS KS CPos KP _ dt x x1 y y1 Pd (step_weak t dt x x1 X1) (step_weak t dt y y1 Y1) ZZ Z1) as [S1 S2].
    destruct (IH (t + dt) x1 x' y1 y' X2 Y2) as [I1 I2]; [intros i Hi Es; assert (Q := Z1 i Hi Es); unfold diff in Q; lra|]. fold (elapsed dts). split; [|lra].
    assert (dt * K (diff x' y') (diff x' y') <= dt * K (diff x1 y1) (diff x1 y1)) by (apply Rmult_le_compat_l; lra). lra.
Qed.
(** runs exist when each step has an answer *)
Theorem runs_exist : (forall dt t u g0, 0 < dt -> exists a, step_answer n N f m terms pos jac params t dt (fun i => negb (ess i)) u g0 a) ->
  forall dts, List.Forall (fun dt => 0 < dt) dts -> forall t x, exists x', implicit_run (P g) t x dts x'.
Proof.
  intros OS dts. induction dts as [|dt dts IH]; intros PD t x; [now exists x|]. inversion PD as [|? ? P1 P2]; subst.
  destruct (OS dt (t + dt) x (fun i => (g (t + dt) i - x i) / dt) P1) as (a & A1 & L & HL & A2). set (y := fun i => x i + dt * a i) in *.
  destruct (IH P2 (t + dt) y) as (x' & HX). exists x'. cbn [implicit_run]. split; [exact P1|]. exists y. split; [|exact HX]. exists a. split; [reflexivity|]. split.
  - intros i Hi Es. cbn [heat_problem p_n p_ess p_res] in *. assert (HL2 := HL). destruct HL2 as (W & RS & _). destruct (evaluate_spec f (t + dt) None false (arguments N params y a) N m W) as (L0 & E0 & _). rewrite E0.
    assert (H0 : heat_flows n N f m terms pos jac params (t + dt) y a L0) by (split; [exact W|]; split; [exact RS|]; eexists _, _, _; exact E0).
    rewrite (flow_entry n N f m terms pos jac params D LH F TS (t + dt) y a L0 i H0 Hi), <- (flow_entry n N f m terms pos jac params D LH F TS (t + dt) y a L i HL Hi). apply A2; [exact Hi|]. now rewrite Es.
  - intros i Hi Es. cbn [heat_problem p_n p_ess p_g] in *. unfold y. rewrite (A1 i Hi) by (now rewrite Es). field. lra.
Qed.
End Heat.

Section Settle.
Context {St : Type} (n N : nat) (f : functional St) (m : mem St) (terms : list heat_term) (pos : nat -> nat -> nat -> nat -> vec) (jac : nat -> nat -> nat -> nat -> mat)
  (params : nat -> list R) (ess : nat -> bool) (g : vec).
Hypothesis (D : dim23 n) (LH : List.Forall (linear_heat n) terms) (F : all_fit f) (TS : two_spaces 1 f) (SE : sound_elements n f terms jac) (CV : conductive n terms) (CP : capacious terms)
  (EV : forall t x a, exists L, heat_flows n N f m terms pos jac params t x a L) (CO : constant_supplies terms).
Notation K := (conduct_form n N f terms pos jac).
Notation C := (capacity_form n N f terms pos jac).
Notation P := (heat_problem N f m params ess (fun _ => g)).
Notation free := (fun i => negb (ess i)).
Let KS : symmetric_form N K := conduct_symmetric n N f terms pos jac LH.
Let CS : symmetric_form N C := capacity_symmetric n N f terms pos jac.
Let KP : nonnegative K := fun v => proj1 (conduct_definite n N f terms pos jac LH SE CV v).
Let CPos : nonnegative C := fun v => proj1 (capacity_definite n N f terms pos jac SE v CP).
Lemma supply_constant t i : supply_vector n N f terms pos jac t i = supply_vector n N f terms pos jac 0 i.
Proof.
  unfold supply_vector, supply_form. apply over_points_ext. intros k Ig g0 G r le q _ _ _ _ _. destruct (nth_error terms k) as [[mm|s|fl]|] eqn:ET; cbn [supply_density]; try reflexivity; apply nth_error_In in ET.
  - now rewrite (proj1 CO s ET _ t).
  - now rewrite (proj2 CO fl ET _ _ t).
Qed.
Lemma steady_weak s t dt : steady n N f m terms pos jac params 0 free g s -> weak_step N C K ess (supply_vector n N f terms pos jac t) dt s s.
Proof.
  intros H. apply (steady_iff n N f m terms pos jac params D LH F TS EV) in H as [H1 H2]. exists none. split; [intros; unfold none; ring|]. intros h Hh.
  rewrite (no_rate n N f terms pos jac h), (form_expand N K KS). rewrite Rplus_0_l. apply sumn_ext. intros i Hi. destruct (ess i) eqn:Es; [rewrite (Hh i Hi Es); ring|].
  rewrite (H2 i Hi) by (now rewrite Es). now rewrite (supply_constant t).
Qed.
Theorem approach_steady s : steady n N f m terms pos jac params 0 free g s -> forall dts t x x', implicit_run P t x dts x' -> (forall i, (i < N)%nat -> ess i = true -> x i = g i) ->
  C (diff x' s) (diff x' s) + 2 * elapsed dts * K (diff x' s) (diff x' s) <= C (diff x s) (diff x s) /\ silent N ess (diff x' s).
Proof.
  intros HS. assert (SG : forall i, (i < N)%nat -> ess i = true -> s i = g i) by (intros i Hi Es; apply (proj1 HS); [exact Hi|now rewrite Es]).
  assert (SI : forall x, (forall i, (i < N)%nat -> ess i = true -> x i = g i) -> silent N ess (diff x s)) by (intros x Z i Hi Es; unfold diff; rewrite (Z i Hi Es), (SG i Hi Es); ring).
  assert (G : forall dts t x x', implicit_run P t x dts x' -> (forall i, (i < N)%nat -> ess i = true -> x i = g i) ->
    C (diff x' s) (diff x' s) + 2 * elapsed dts * K (diff x' s) (diff x' s) <= C (diff x s) (diff x s) /\ K (diff x' s) (diff x' s) <= K (diff x s) (diff x s) /\ silent N ess (diff x' s)).
  { intros dts. induction dts as [|dt dts IH]; intros t x x' HX Z; cbn [implicit_run elapsed fold_right] in *.
    - subst. split; [lra|]. split; [lra|]. now apply SI.
    - destruct HX as (Pd & x1 & X1 & X2). assert (Z1 : forall i, (i < N)%nat -> ess i = true -> x1 i = g i) by (destruct X1 as (r & _ & _ & A); exact A).
      destruct (step_gap N C K ess CS KS CPos KP _ dt x x1 s s Pd (step_weak n N f m terms pos jac params ess (fun _ => g) D LH F TS EV t dt x x1 X1) (steady_weak s (t + dt) dt HS) (SI x Z) (SI x1 Z1)) as [S1 S2].
      destruct (IH (t + dt) x1 x' X2 Z1) as (I1 & I2 & I3). fold (elapsed dts). split; [|split; [lra|exact I3]].
      assert (dt * K (diff x' s) (diff x' s) <= dt * K (diff x1 s) (diff x1 s)) by (apply Rmult_le_compat_l; lra). lra. }
  intros dts t x x' HX Z. destruct (G dts t x x' HX Z) as (A & _ & B). now split.
Qed.
(** from any start the temperature settles at the steady temperature, and the time this takes does not depend on the steps *)
Theorem settles : anchored n N f terms pos jac free -> exists s, steady n N f m terms pos jac params 0 free g s /\
  forall x, (forall i, (i < N)%nat -> ess i = true -> x i = g i) -> forall eps, 0 < eps -> exists T, forall dts t x', implicit_run P t x dts x' -> T <= elapsed dts -> forall i, (i < N)%nat -> Rabs (x' i - s i) <= eps.
Proof.
  intros AN. destruct (proj1 (one_steady n N f m terms pos jac params D LH F TS SE CV EV free) AN 0 g) as (s & HS & _). exists s. split; [exact HS|]. intros x Z eps He.
  assert (DEF : forall v, K v v = 0 -> silent N ess v -> forall i, (i < N)%nat -> v i = 0).
  { intros v V0 SV. apply AN; [now apply (conduct_definite n N f terms pos jac LH SE CV)|]. intros i Hi Es. apply SV; [exact Hi|]. now destruct (ess i). }
  assert (ONE : forall i, (i < N)%nat -> exists T, forall dts t x', implicit_run P t x dts x' -> T <= elapsed dts -> Rabs (x' i - s i) <= eps).
  { intros i Hi. destruct (value_bound N K ess KS KP DEF i Hi) as (c & Hc & HB). set (E0 := C (diff x s) (diff x s)). assert (HE : 0 <= E0) by apply CPos.
    exists (c * E0 / (eps * eps) + 1). intros dts t x' HX HT. destruct (approach_steady s HS dts t x x' HX Z) as [A1 A2]. set (d := diff x' s) in *. assert (B := HB d A2). assert (Cd := CPos d). assert (Kd := KP d).
    fold E0 in A1. set (T := elapsed dts) in *. assert (EP : 0 < eps * eps) by (now apply Rmult_lt_0_compat). assert (CE : 0 <= c * E0) by (now apply Rmult_le_pos).
    assert (Q0 : 0 <= c * E0 / (eps * eps)) by (apply Rmult_le_pos; [exact CE|left; now apply Rinv_0_lt_compat]). assert (TP : 0 < T) by lra.
    assert (Q1 : c * E0 <= T * (eps * eps)). { replace (c * E0) with (c * E0 / (eps * eps) * (eps * eps)) by (field; lra). apply Rmult_le_compat_r; lra. }
    assert (Q2 : T * (d i * d i) <= T * (eps * eps)).
    { apply Rle_trans with (c * (T * K d d)); [replace (c * (T * K d d)) with (T * (c * K d d)) by ring; apply Rmult_le_compat_l; lra|]. apply Rle_trans with (c * E0); [|exact Q1]. apply Rmult_le_compat_l; [exact Hc|].
      assert (0 <= T * K d d) by (apply Rmult_le_pos; lra). lra. }
    apply Rmult_le_reg_l in Q2; [|exact TP]. replace (x' i - s i) with (d i) by (unfold d, diff; ring). apply Rsqr_le_abs_0 in Q2. rewrite (Rabs_pos_eq eps) in Q2 by lra. exact Q2. }
  destruct (common_bound N (fun i T => forall dts t x', implicit_run P t x dts x' -> T <= elapsed dts -> Rabs (x' i - s i) <= eps)) as (T & HT).
  - intros i T T' H L dts t x' HX HT. apply (H dts t x' HX). lra.
  - exact ONE.
  - exists T. intros dts t x' HX L i Hi. exact (HT i Hi dts t x' HX L).
Qed.
End Settle.
