(** * Two dynamic runs under the same loads keep the energy of their difference (C96)
    The runs are those of the Newmark integrator of Ode.v (odes.cpp:77-250 with MFEM's NewmarkSolver) on the equation of motion of the solid
    module (EnergyRun.v, solid_mechanics.hpp:1168-1208). *)
From Coq Require Import NArith ZArith Reals List Lia Lra Bool.
From Verif Require Import Prelude DofCodec Sums Restriction Kernels FunctionalModel Assembly Tensor MatAlg Materials MaterialFacts ShapeAware WeakForm WeakFormFacts WeakFormPhysics WeakFormWork Fit Ode Energy EnergySolid EnergyRun StoredEnergy StoredEnergyUse EnergyHeat SymEigFacts StiffBody HeatUnique HeatDecay MotionUnique.
Import ListNotations.
Local Open Scope R_scope.

(** ** specification *)
(** what holds of the states of two runs, one by one; the runs have equally many *)
Definition side_by_side (Q : vec -> vec -> vec -> vec -> Prop) (l1 l2 : list (vec * vec * vec)) : Prop :=
  List.Forall2 (fun s1 s2 => let '(x1, v1, _) := s1 in let '(x2, v2, _) := s2 in Q x1 v1 x2 v2) l1 l2.

Section Apart.
Variables (p : problem) (m k : vec -> vec -> R) (f : R -> vec).
Notation N := (p_n p).
Hypothesis (Bm : symmetric_form N m) (Bk : symmetric_form N k) (L : linear_motion p m k f).
(** the same body without loads and with its supports at rest *)
Let alone : problem := {| p_n := p_n p; p_ess := p_ess p; p_g := fun _ _ => 0; p_res := fun _ x a i => m (unit i) a + k (unit i) x |}.
Lemma dot_unit i (y : vec) : (i < N)%nat -> dotn N (unit i) y = y i.
Proof. intros Hi. unfold dotn, unit. rewrite (sumn_ext N _ (fun j => if Nat.eqb j i then y j else 0)) by (intros j _; destruct (Nat.eqb j i); ring). exact (sumn_delta N i y Hi). Qed.
Lemma alone_motion : linear_motion alone m k (fun _ _ => 0).
Proof.
  intros t x a h. cbn [p_n p_res alone]. rewrite (form_expand N m Bm h a), (form_expand N k Bk h x), <- sumn_plus. unfold dotn.
  rewrite (sumn_zero N (fun i => h i * 0)) by (intros; ring). rewrite Rminus_0_r. apply sumn_ext. intros; ring.
Qed.
Lemma alone_free t x a y b : motion_at_free p t x a -> motion_at_free p t y b -> motion_at_free alone t (diff x y) (diff a b).
Proof.
  intros H1 H2 i Hi Es. cbn [p_n p_ess p_res alone] in *. assert (E1 := L t x a (unit i)). assert (E2 := L t y b (unit i)). rewrite !(dot_unit i) in E1, E2 by exact Hi.
  rewrite (H1 i Hi Es) in E1. rewrite (H2 i Hi Es) in E2. rewrite (diff_r N m Bm), (diff_r N k Bk). lra.
Qed.
Definition gap_of (s1 s2 : vec * vec * vec) : vec * vec * vec := (diff (fst (fst s1)) (fst (fst s2)), diff (snd (fst s1)) (snd (fst s2)), diff (snd s1) (snd s2)).
Fixpoint gaps (l1 l2 : list (vec * vec * vec)) : list (vec * vec * vec) := match l1, l2 with s1 :: r1, s2 :: r2 => gap_of s1 s2 :: gaps r1 r2 | _, _ => [] end.
Lemma gap_trajectory beta gamma : forall dts l1 l2 t x v a y w b, trajectory p beta gamma (value_held p) t x v a dts l1 -> trajectory p beta gamma (value_held p) t y w b dts l2 ->
  trajectory alone beta gamma (value_held alone) t (diff x y) (diff v w) (diff a b) dts (gaps l1 l2) /\ length l1 = length dts /\ length l2 = length dts.
Proof.
  intros dts. induction dts as [|dt dts IH]; intros l1 l2 t x v a y w b; destruct l1 as [|[[x1 v1] a1] l1], l2 as [|[[x2 v2] a2] l2]; cbn [trajectory]; try contradiction; [intros _ _; repeat split|].
  intros (R1 & M1 & H1 & T1) (R2 & M2 & H2 & T2). destruct (IH l1 l2 (t + dt) x1 v1 a1 x2 v2 a2 T1 T2) as (I1 & I2 & I3). cbn [gaps gap_of fst snd trajectory length]. split; [|split; congruence].
  split; [|split; [now apply alone_free|split; [|exact I1]]].
  - intros i Hi. cbn [p_n alone] in Hi. destruct (R1 i Hi) as [A1 A2]. destruct (R2 i Hi) as [B1 B2]. unfold diff. rewrite A1, A2, B1, B2. split; ring.
  - intros i Hi Es. cbn [p_n p_ess p_g alone] in *. unfold diff. rewrite (H1 i Hi Es), (H2 i Hi Es). ring.
Qed.
Lemma gaps_forall (Q : vec -> vec -> Prop) : forall l1 l2, length l1 = length l2 -> List.Forall (fun s => Q (fst (fst s)) (snd (fst s))) (gaps l1 l2) -> side_by_side (fun x1 v1 x2 v2 => Q (diff x1 x2) (diff v1 v2)) l1 l2.
Proof.
  intros l1. induction l1 as [|[[x1 v1] a1] l1 IH]; intros [|[[x2 v2] a2] l2] E; try discriminate; cbn [gaps]; intros H; [constructor|]. inversion H as [|? ? H1 H2]; subst. constructor; [exact H1|]. apply IH; [now injection E|exact H2].
Qed.
Variables (s1 s2 : R -> R -> vec -> vec -> vec).
Hypothesis (Sol1 : solves p s1) (Sol2 : solves p s2) (Ext : extensional p).
(** Newmark's method as the module uses it: the energy of the difference stays what it was *)
Theorem energy_apart dts mem1 mem2 told1 told2 t x v y w : List.Forall (fun dt => dt <> 0) dts -> begins p mem1 told1 t x -> begins p mem2 told2 t y ->
  (forall i, (i < N)%nat -> p_ess p i = true -> x i = y i) ->
  exists l1 l2, newmark_run p s1 (1 / 4) (1 / 2) DirectControl mem1 told1 t x v dts = Some l1 /\ newmark_run p s2 (1 / 4) (1 / 2) DirectControl mem2 told2 t y w dts = Some l2 /\ length l1 = length dts /\
    side_by_side (fun x1 v1 x2 v2 => energy m k (diff x1 x2) (diff v1 v2) = energy m k (diff x y) (diff v w)) l1 l2.
Proof.
  intros F B1 B2 Z. destruct (begin_motion p s1 Sol1 Ext DirectControl mem1 told1 t x v B1) as (a & S1 & M1). destruct (begin_motion p s2 Sol2 Ext DirectControl mem2 told2 t y w B2) as (b & S2 & M2).
  destruct (newmark_run_direct p s1 Sol1 Ext (1 / 4) (1 / 2) dts ltac:(lra) F mem1 told1 t x v a S1) as (l1 & E1 & T1). destruct (newmark_run_direct p s2 Sol2 Ext (1 / 4) (1 / 2) dts ltac:(lra) F mem2 told2 t y w b S2) as (l2 & E2 & T2).
  destruct (gap_trajectory _ _ dts l1 l2 t x v a y w b T1 T2) as (T & N1 & N2). exists l1, l2. split; [exact E1|]. split; [exact E2|]. split; [exact N1|].
  apply (gaps_forall (fun d e => energy m k d e = energy m k (diff x y) (diff v w))); [congruence|].
  apply (average_conserves_direct alone m k (fun _ _ => 0) Bm Bk alone_motion (fun _ _ => eq_refl) (fun _ => 0) dts (fun _ _ _ _ => eq_refl) F t (diff x y) (diff v w) (diff a b) (gaps l1 l2) T (alone_free t x a y b M1 M2)).
  intros i Hi Es. cbn [p_n p_ess alone] in *. unfold diff. rewrite (Z i Hi Es). ring.
Qed.
(** the same with the rates of the supports enforced *)
Lemma gap_trajectory_rate beta gamma : forall dts l1 l2 t x v a y w b, trajectory p beta gamma (rate_held p) t x v a dts l1 -> trajectory p beta gamma (rate_held p) t y w b dts l2 ->
  trajectory alone beta gamma (rate_held alone) t (diff x y) (diff v w) (diff a b) dts (gaps l1 l2) /\ length l1 = length dts /\ length l2 = length dts.
Proof.
  intros dts. induction dts as [|dt dts IH]; intros l1 l2 t x v a y w b; destruct l1 as [|[[x1 v1] a1] l1], l2 as [|[[x2 v2] a2] l2]; cbn [trajectory]; try contradiction; [intros _ _; repeat split|].
  intros (R1 & M1 & H1 & T1) (R2 & M2 & H2 & T2). destruct (IH l1 l2 (t + dt) x1 v1 a1 x2 v2 a2 T1 T2) as (I1 & I2 & I3). cbn [gaps gap_of fst snd trajectory length]. split; [|split; congruence].
  split; [|split; [now apply alone_free|split; [|exact I1]]].
  - intros i Hi. cbn [p_n alone] in Hi. destruct (R1 i Hi) as [A1 A2]. destruct (R2 i Hi) as [B1 B2]. unfold diff. rewrite A1, A2, B1, B2. split; ring.
  - intros i Hi Es. assert (Z := fixed_rate alone (fun _ => 0) (t + dt) i (fun _ _ _ _ => eq_refl) Hi Es). rewrite Z. cbn [p_n p_ess alone] in *. unfold diff. rewrite (H1 i Hi Es), (H2 i Hi Es). ring.
Qed.
Theorem energy_apart_rate dts mem1 mem2 told1 told2 t x v y w : List.Forall (fun dt => dt <> 0) dts -> begins p mem1 told1 t x -> begins p mem2 told2 t y ->
  (forall i, (i < N)%nat -> p_ess p i = true -> v i = w i) ->
  exists l1 l2, newmark_run p s1 (1 / 4) (1 / 2) RateControl mem1 told1 t x v dts = Some l1 /\ newmark_run p s2 (1 / 4) (1 / 2) RateControl mem2 told2 t y w dts = Some l2 /\ length l1 = length dts /\
    side_by_side (fun x1 v1 x2 v2 => energy m k (diff x1 x2) (diff v1 v2) = energy m k (diff x y) (diff v w)) l1 l2.
Proof.
  intros F B1 B2 Z. destruct (begin_motion p s1 Sol1 Ext RateControl mem1 told1 t x v B1) as (a & S1 & M1). destruct (begin_motion p s2 Sol2 Ext RateControl mem2 told2 t y w B2) as (b & S2 & M2).
  assert (F2 : List.Forall (fun dt => 1 / 2 * dt <> 0) dts) by (apply (Forall_impl _ (P := fun dt => dt <> 0)); [intros; lra|exact F]).
  destruct (newmark_run_rate p s1 Sol1 Ext (1 / 4) (1 / 2) dts ltac:(lra) F2 mem1 told1 t x v a S1) as (l1 & E1 & T1). destruct (newmark_run_rate p s2 Sol2 Ext (1 / 4) (1 / 2) dts ltac:(lra) F2 mem2 told2 t y w b S2) as (l2 & E2 & T2).
  destruct (gap_trajectory_rate _ _ dts l1 l2 t x v a y w b T1 T2) as (T & N1 & N2). exists l1, l2. split; [exact E1|]. split; [exact E2|]. split; [exact N1|].
  apply (gaps_forall (fun d e => energy m k d e = energy m k (diff x y) (diff v w))); [congruence|].
  apply (average_conserves_rate alone m k (fun _ _ => 0) Bm Bk alone_motion (fun _ _ => eq_refl) (fun _ => 0) dts (fun _ _ _ _ => eq_refl) F t (diff x y) (diff v w) (diff a b) (gaps l1 l2) T (alone_free t x a y b M1 M2)).
  intros i Hi Es. cbn [p_n p_ess alone] in *. unfold diff. rewrite (Z i Hi Es). ring.
Qed.
(** held values keep the difference at zero *)
Lemma trajectory_held beta gamma : forall dts l1 l2 t x v a y w b, trajectory p beta gamma (value_held p) t x v a dts l1 -> trajectory p beta gamma (value_held p) t y w b dts l2 ->
  side_by_side (fun x1 _ x2 _ => silent N (p_ess p) (diff x1 x2)) l1 l2.
Proof.
  intros dts. induction dts as [|dt dts IH]; intros l1 l2 t x v a y w b; destruct l1 as [|[[x1 v1] a1] l1], l2 as [|[[x2 v2] a2] l2]; cbn [trajectory]; try contradiction; [constructor|].
  intros (_ & _ & H1 & T1) (_ & _ & H2 & T2). constructor; [|exact (IH l1 l2 _ _ _ _ _ _ _ T1 T2)]. intros i Hi Es. unfold diff. rewrite (H1 i Hi Es), (H2 i Hi Es). ring.
Qed.
Hypothesis (Pm : nonnegative m) (Pk : nonnegative k) (DEF : forall v, k v v = 0 -> silent N (p_ess p) v -> forall i, (i < N)%nat -> v i = 0).
Lemma dof_constant i : (i < N)%nat -> exists c, 0 <= c /\ forall v e, silent N (p_ess p) v -> v i * v i <= c * energy m k v e.
Proof.
  intros Hi. destruct (value_bound N k (p_ess p) Bk Pk DEF i Hi) as (c & Hc & HB). exists (2 * c). split; [lra|]. intros v e SV. apply Rle_trans with (c * k v v); [now apply HB|]. unfold energy.
  assert (A := Pm e). assert (B := Rmult_le_pos c (m e e) Hc A). lra.
Qed.
End Apart.

(** ** a supported body: the displacements stay close for ever *)
Section Solid.
Context {St : Type} (n N : nat) (f : functional St) (m : mem St) (terms : list (solid_term St)) (pos : nat -> nat -> nat -> nat -> vec) (jac : nat -> nat -> nat -> nat -> mat)
  (params : nat -> list R) (ess : nat -> bool).
Hypothesis (D : dim23 n) (LE : List.Forall (linear_elastic n) terms) (F : all_fit f) (TS : two_spaces n f) (SE : solid_elements n f terms jac) (SF : stiff n terms) (HV : heavy terms)
  (NF : forall t x a, exists L, nodal_forces n N f m terms pos jac params t x a L).
Notation K := (stiffness_form n N f m terms jac).
Notation M := (mass_form n N f terms jac).
Notation P g := (elastic_problem N f m params ess g).
Let WF x a : wf f N (fun w => length (arguments N params x a w)).
Proof. destruct (NF 0 x a) as (L & W & _). exact W. Qed.
Let RES t x a : solid_residual n f t (arguments N params x a) m terms pos jac.
Proof. destruct (NF t x a) as (L & _ & Q & _). exact Q. Qed.
Theorem solid_apart g s1 s2 : solves (P g) s1 -> solves (P g) s2 -> forall dts mem1 mem2 told1 told2 t x v y w, List.Forall (fun dt => dt <> 0) dts -> begins (P g) mem1 told1 t x -> begins (P g) mem2 told2 t y ->
  (forall i, (i < N)%nat -> ess i = true -> x i = y i) ->
  exists l1 l2, newmark_run (P g) s1 (1 / 4) (1 / 2) DirectControl mem1 told1 t x v dts = Some l1 /\ newmark_run (P g) s2 (1 / 4) (1 / 2) DirectControl mem2 told2 t y w dts = Some l2 /\ length l1 = length dts /\
    side_by_side (fun x1 v1 x2 v2 => energy M K (diff x1 x2) (diff v1 v2) = energy M K (diff x y) (diff v w)) l1 l2.
Proof.
  intros Sol1 Sol2. destruct (elastic_case St n N f m terms pos jac params ess g D LE WF F TS RES) as [EX LM].
  exact (energy_apart (P g) M K (load_vector n N f terms pos jac) (mass_symmetric n N f terms jac) (stiffness_symmetric n N f m terms jac LE) LM s1 s2 Sol1 Sol2 EX).
Qed.
Theorem solid_apart_rate g s1 s2 : solves (P g) s1 -> solves (P g) s2 -> forall dts mem1 mem2 told1 told2 t x v y w, List.Forall (fun dt => dt <> 0) dts -> begins (P g) mem1 told1 t x -> begins (P g) mem2 told2 t y ->
  (forall i, (i < N)%nat -> ess i = true -> v i = w i) ->
  exists l1 l2, newmark_run (P g) s1 (1 / 4) (1 / 2) RateControl mem1 told1 t x v dts = Some l1 /\ newmark_run (P g) s2 (1 / 4) (1 / 2) RateControl mem2 told2 t y w dts = Some l2 /\ length l1 = length dts /\
    side_by_side (fun x1 v1 x2 v2 => energy M K (diff x1 x2) (diff v1 v2) = energy M K (diff x y) (diff v w)) l1 l2.
Proof.
  intros Sol1 Sol2. destruct (elastic_case St n N f m terms pos jac params ess g D LE WF F TS RES) as [EX LM].
  exact (energy_apart_rate (P g) M K (load_vector n N f terms pos jac) (mass_symmetric n N f terms jac) (stiffness_symmetric n N f m terms jac LE) LM s1 s2 Sol1 Sol2 EX).
Qed.
Theorem solid_close : supported n N f terms jac (fun i => negb (ess i)) -> forall i, (i < N)%nat -> exists c, 0 <= c /\
  forall g s1 s2, solves (P g) s1 -> solves (P g) s2 -> forall dts mem1 mem2 told1 told2 t x v y w l1 l2, List.Forall (fun dt => dt <> 0) dts -> begins (P g) mem1 told1 t x -> begins (P g) mem2 told2 t y ->
    (forall j, (j < N)%nat -> ess j = true -> x j = y j) ->
    newmark_run (P g) s1 (1 / 4) (1 / 2) DirectControl mem1 told1 t x v dts = Some l1 -> newmark_run (P g) s2 (1 / 4) (1 / 2) DirectControl mem2 told2 t y w dts = Some l2 ->
    side_by_side (fun x1 _ x2 _ => (x1 i - x2 i) * (x1 i - x2 i) <= c * energy M K (diff x y) (diff v w)) l1 l2.
Proof.
  intros SU i Hi.
  assert (KP : nonnegative K) by (intros u; apply (energy_definite n N f m terms jac SE SF u)). assert (MP : nonnegative M) by (intros u; apply (mass_definite n N f terms jac SE HV u)).
  assert (DEF : forall u, K u u = 0 -> silent N ess u -> forall j, (j < N)%nat -> u j = 0).
  { intros u U0 SU0. apply SU; [now apply (energy_definite n N f m terms jac SE SF)|]. intros j Hj Es. apply SU0; [exact Hj|]. now destruct (ess j). }
  destruct (dof_constant (P (fun _ _ => 0)) M K (stiffness_symmetric n N f m terms jac LE) MP KP DEF i Hi) as (c & Hc & HB). exists c. split; [exact Hc|].
  intros g s1 s2 Sol1 Sol2. destruct (elastic_case St n N f m terms pos jac params ess g D LE WF F TS RES) as [EX LM]. intros dts mem1 mem2 told1 told2 t x v y w l1 l2 Fd B1 B2 Z E1 E2.
  destruct (solid_apart g s1 s2 Sol1 Sol2 dts mem1 mem2 told1 told2 t x v y w Fd B1 B2 Z) as (k1 & k2 & K1 & K2 & _ & SB). rewrite E1 in K1. injection K1 as <-. rewrite E2 in K2. injection K2 as <-.
  destruct (begin_motion (P g) s1 Sol1 EX DirectControl mem1 told1 t x v B1) as (a & S1 & _). destruct (begin_motion (P g) s2 Sol2 EX DirectControl mem2 told2 t y w B2) as (b & S2 & _).
  destruct (newmark_run_direct (P g) s1 Sol1 EX (1 / 4) (1 / 2) dts ltac:(lra) Fd mem1 told1 t x v a S1) as (k1 & K1 & T1). destruct (newmark_run_direct (P g) s2 Sol2 EX (1 / 4) (1 / 2) dts ltac:(lra) Fd mem2 told2 t y w b S2) as (k2 & K2 & T2).
  rewrite E1 in K1. injection K1 as <-. rewrite E2 in K2. injection K2 as <-. assert (SH := trajectory_held (P g) _ _ dts l1 l2 t x v a y w b T1 T2).
  clear - SB SH HB. unfold side_by_side in *. induction SB as [|[[x1 v1] a1] [[x2 v2] a2] l1 l2 Q1 Q2 IH]; [constructor|]. inversion SH as [|? ? ? ? H1 H2]; subst. constructor; [|now apply IH].
  rewrite <- Q1. assert (A := HB (diff x1 x2) (diff v1 v2) H1). unfold diff in A at 1 2. replace (x1 i - x2 i) with (1 * x1 i + -1 * x2 i) by ring. exact A.
Qed.
End Solid.
