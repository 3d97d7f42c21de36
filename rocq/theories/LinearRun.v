(** * Quasi-static runs of a supported linear elastic body go from equilibrium to equilibrium (C93)
    A run is any sequence of calls of advanceTimestep (solid_mechanics.hpp:1243-1295, QuasiStatic.v) with Newton's method (equation_solver.cpp:42-202,
    QuasiNewton.v): any step lengths, warm starts, line searches, load parameters and prescribed displacements. *)
From Coq Require Import NArith ZArith Reals List Lia Lra Bool FunctionalExtensionality.
From Coquelicot Require Import Coquelicot.
From Verif Require Import Prelude DofCodec Sums Restriction Csr Kernels FunctionalModel FunctionalGrad FunctionalTotal Assembly Dual LUDeriv Tensor MatAlg Materials MaterialFacts ShapeAware WeakForm WeakFormFacts WeakFormPhysics WeakFormWork Fit Ode Energy EnergySolid EnergyRun StoredEnergy StoredEnergyUse.
From Verif Require Import BoundaryElim Newton QuasiStatic QuasiNewton Traced TracedSolid TracedSolidEx SymmetricEx StiffBody HeatUnique NewtonLinear.
Import ListNotations.
Local Open Scope R_scope.

(** ** specification *)
(** a linear solver which is exact for the symmetric positive definite matrices that elimination leaves *)
Definition exact_for_definite (N : nat) (bc : nat -> bool) (lin : mat -> vec -> vec) : Prop :=
  forall A b, (forall i j, (i < N)%nat -> (j < N)%nat -> eliminate bc A i j = eliminate bc A j i) -> positive_definite N (eliminate bc A) ->
  forall i, (i < N)%nat -> sumn N (fun j => eliminate bc A i j * lin (eliminate bc A) b j) = b i.
(** Newton's method with such a solver, no absolute tolerance, a relative tolerance below one, at least one iteration allowed and none demanded *)
Definition exact_newton (N : nat) (bc : nat -> bool) (sv : vec -> solver) : Prop :=
  exists lin o, sv = newton_solver N lin o /\ exact_for_definite N bc lin /\ o_abs o = 0 /\ o_rel o < 1 /\ o_min o = 0%nat /\ (1 <= o_max o)%nat.
Definition plain_load (N : nat) (bc : nat -> bool) (tsize : nat -> nat) (ld : load) : Prop :=
  fitting tsize (l_others ld) /\ (forall i, nth i (l_others ld 0%nat) 0 = 0) /\ exact_newton N bc (l_solver ld) /\ (l_warm ld = true -> keeps_unit_rows N bc (l_lin ld)).

Lemma norm2_zero N r : (forall i, (i < N)%nat -> r i = 0) -> norm2 N r = 0.
Proof. intros Z. unfold norm2. rewrite sumn_zero by (intros i Hi; rewrite Z by exact Hi; ring). apply sqrt_0. Qed.
Lemma zero_norm2 N r : norm2 N r = 0 -> forall i, (i < N)%nat -> r i = 0.
Proof. intros Z i Hi. assert (E := entry_norm N r i Hi). rewrite Z in E. assert (P := Rabs_pos (r i)). destruct (Req_dec (r i) 0) as [H|H]; [exact H|]. apply Rabs_pos_lt in H. lra. Qed.

Section Runs.
Context {St : Type} (n N : nat) (f : functional St) (terms : list integrand) (pos : nat -> nat -> nat -> nat -> vec) (jac : nat -> nat -> nat -> nat -> mat)
  (c : csr) (tsize : nat -> nat) (bc : nat -> bool) (target : R -> vec).
Hypothesis (D : dim23 n) (F : all_fit f) (TS : two_spaces n f) (R0 : ready f N c tsize) (HA : tsize 1%nat = N)
  (W : solid_traced n f terms pos jac) (LI : List.Forall linear_integrand terms) (RE : regular_elements n f terms jac).
Notation sterms := (as_terms (St := St) n terms).
Notation free := (fun i => negb (bc i)).
Hypothesis SU : supported n N f sterms jac free.
Notation balanced m others t x := (equilibrium n N f m sterms pos jac (fun w => others (w - 1)%nat) t free (target t) x).

(** one step *)
Theorem step_balanced ld s s' ok : plain_load N bc tsize ld -> sound N tsize s -> step f N c bc target ld s = Ok (s', ok) ->
  ok = true /\ balanced (s_mem s) (l_others ld) (s_t s') (entries (s_u s')).
Proof.
  intros (Fo & A0 & (lin & o & ES & EX & OA & OR & OM & OX) & LK) Sd E. destruct (step_advances f N c bc target tsize R0 ld s s' ok Sd Fo E) as [A _].
  destruct (material_exists f N c bc tsize R0 (s_t s') (l_others ld) (s_mem s) Fo) as (Fr & J & HM).
  destruct (adv_solve f N c bc target ld s s' ok A Fr J HM) as (x0 & x & B & P & U).
  assert (HG : forall i, (i < N)%nat -> bc i = true -> x0 i = target (s_t s') i).
  { intros i Hi Di. rewrite (adv_time f N c bc target ld s s' ok A). exact (begins_on_target f N c bc target ld s x0 LK B i Hi Di). }
  rewrite ES, (newton_pure N lin Fr J 0 o x0 (Fr x0)) in P.
  assert (Q : ok = true /\ equilibrium n N f (s_mem s) sterms pos jac (fun w => l_others ld (w - 1)%nat) (s_t s') free (target (s_t s')) x).
  { destruct (Req_dec (norm2 N (Fr x0)) 0) as [Z|NZ].
    - unfold newton, eval_at in P. cbn [sys sys_res sys_norm pt_norm] in P. rewrite Z, OA in P.
      assert (SM : smax (o_rel o * 0) 0 = 0) by (unfold smax; destruct (rltb (o_rel o * 0) 0); ring). rewrite SM in P.
      assert (T : rleb 0 0 = true) by (apply rleb_true; lra).
      destruct (o_max o); cbn [newton_loop pt_norm] in P; rewrite T, OM in P; cbn [andb Nat.leb res_verdict res_pt pt_x as_bool] in P; injection P as <- <-; (split; [reflexivity|]);
      (split; [intros i Hi Fi; apply HG; [exact Hi|now apply negb_false_iff]|]);
      (destruct (forces_s n N f terms pos jac c tsize (l_others ld) (s_mem s) D TS R0 Fo HA A0 W LI RE (s_t s') x0) as (L & HL & NF); exists L; split; [exact NF|]);
      intros i Hi Fi; (assert (V := zero_norm2 N _ Z i Hi)); destruct (proj1 HM x0) as (L' & (m1 & E1) & EL); destruct HL as (m2 & E2); rewrite E1 in E2; injection E2 as E3 _; subst L';
      rewrite EL in V; unfold zeroed, entries in V; apply negb_true_iff in Fi; now rewrite Fi in V.
    - assert (PN : 0 < norm2 N (Fr x0)) by (assert (S0 := sqrt_pos (sumn N (fun i => Fr x0 i * Fr x0 i))); unfold norm2 in *; lra).
      destruct (newton_once n N f terms pos jac c tsize (l_others ld) (s_mem s) D F TS R0 Fo HA A0 W LI RE (s_t s') (target (s_t s')) bc Fr J (sys N lin Fr J) 0 o x0 (Fr x0) (norm2 N (Fr x0)) HM) as (V1 & _ & V3).
      + reflexivity.
      + intros r Z. cbn [sys sys_norm]. now rewrite (norm2_zero N r Z).
      + intros y i Hi. cbn [sys sys_lin]. destruct (proj2 HM y) as (K & HT & EJ). unfold mvec. rewrite EJ. apply EX; [| |exact Hi].
        { assert (HE := assembled_stiffness n N f terms pos jac c tsize (l_others ld) (s_mem s) D F TS R0 Fo HA A0 W LI RE (s_t s') _ K (tab_length _ _) HT).
          apply eliminated_symmetric. intros k l Hk Hl. rewrite !HE by assumption. apply (form_sym N _ (stiffness_symmetric n N f (s_mem s) sterms jac (linear_s n terms LI))). }
        exact (proj1 (definite_supported n N f terms pos jac c tsize (l_others ld) (s_mem s) D F TS R0 Fo HA A0 W LI RE (s_t s') _ K bc (tab_length _ _) HT) SU).
      + lra.
      + lia.
      + exact OX.
      + exact HG.
      + reflexivity.
      + rewrite OA. apply Rmax_lub_lt; [|exact PN]. rewrite <- (Rmult_1_l (norm2 N (Fr x0))) at 2. now apply Rmult_lt_compat_r.
      + rewrite V1 in P. cbn [as_bool] in P. injection P as <- <-. split; [reflexivity|exact V3]. }
  destruct Q as (-> & (H1 & L & (N1 & N2 & wrt & upd & m' & N3) & H2)). split; [reflexivity|].
  assert (TE : tab N (entries (s_u s')) = tab N x) by (apply tab_ext; intros i Hi; unfold entries; rewrite U; now rewrite nth_tab).
  assert (AE : arguments N (fun w => l_others ld (w - 1)%nat) (entries (s_u s')) rest = arguments N (fun w => l_others ld (w - 1)%nat) x rest)
    by (apply functional_extensionality; intros [|[|w]]; cbn [arguments]; [exact TE|reflexivity|reflexivity]).
  split.
  - intros i Hi Fi. unfold entries. rewrite U, nth_tab by exact Hi. now apply H1.
  - exists L. split; [|exact H2]. unfold nodal_forces. rewrite AE. split; [exact N1|]. split; [exact N2|]. now exists wrt, upd, m'.
Qed.

(** the material keeps no memory *)
Lemma no_memory m m' v w : stiffness_form n N f m sterms jac v w = stiffness_form n N f m' sterms jac v w.
Proof.
  unfold stiffness_form. f_equal. do 7 (apply functional_extensionality; intros ?). unfold as_terms. rewrite nth_error_map. destruct (nth_error terms x) as [T|] eqn:ET; [|reflexivity].
  assert (L := proj1 (Forall_forall _ _) LI T (nth_error_In _ _ ET)). cbn [option_map]. destruct T as [on rho [| | | |]|bf|tr|on p]; cbn [linear_integrand] in L; try contradiction; reflexivity.
Qed.
Lemma same_balance m m' others others' t x y : fitting tsize others -> (forall i, nth i (others 0%nat) 0 = 0) -> fitting tsize others' -> (forall i, nth i (others' 0%nat) 0 = 0) ->
  balanced m others t x -> balanced m' others' t y -> forall i, (i < N)%nat -> x i = y i.
Proof.
  intros Fo A0 Fo' A0' X Y. set (KS := linear_s (St := St) n terms LI).
  apply (balance_iff n N f m sterms pos jac _ D KS F TS (EV_s n N f terms pos jac c tsize others m D TS R0 Fo HA A0 W LI RE)) in X as [X1 X2].
  apply (balance_iff n N f m' sterms pos jac _ D KS F TS (EV_s n N f terms pos jac c tsize others' m' D TS R0 Fo' HA A0' W LI RE)) in Y as [Y1 Y2].
  destruct (proj1 (one_equilibrium n N f m sterms pos jac _ D KS F TS (solid_s n f terms jac RE) (stiff_s (St := St) n terms D LI) (EV_s n N f terms pos jac c tsize others m D TS R0 Fo HA A0 W LI RE) free) SU t (target t)) as (z & _ & UZ).
  intros i Hi. rewrite (UZ x), (UZ y); [reflexivity| |exact Hi| |exact Hi];
    apply (balance_iff n N f m sterms pos jac _ D KS F TS (EV_s n N f terms pos jac c tsize others m D TS R0 Fo HA A0 W LI RE)).
  - split; [exact Y1|]. intros j Hj Fj. rewrite (no_memory m m'). now apply Y2.
  - split; [exact X1|exact X2].
Qed.

(** runs: every step converges into the equilibrium of its time *)
Theorem run_balanced : forall loads s l, sound N tsize s -> List.Forall (plain_load N bc tsize) loads -> run_steps f N c bc target loads s = Ok l ->
  forall k ld s', nth_error loads k = Some ld -> nth_error l k = Some s' ->
  exists m, balanced m (l_others ld) (s_t s') (entries (s_u s')) /\ force f N (s_t s') (l_others ld) m (s_u s') (s_react s') /\ length (s_u s') = N /\ length (s_react s') = N.
Proof.
  induction loads as [|ld loads IH]; intros s l Sd PL E k ld' s' EL E'; [destruct k; discriminate|]. apply Forall_cons_iff in PL as [P1 P2].
  destruct (step_ok f N c bc target tsize R0 ld s Sd (proj1 P1)) as (s1 & ok & E1 & AD & Sd1 & _). cbn [run_steps] in E. rewrite E1 in E. cbn [bindO fst snd] in E.
  destruct (run_steps f N c bc target loads s1) as [l1| |] eqn:E2; try discriminate. cbn [bindO] in E. injection E as <-. destruct k as [|k].
  - injection EL as <-. injection E' as <-. exists (s_mem s). split; [exact (proj2 (step_balanced ld s s1 ok P1 Sd E1))|].
    assert (AR := adv_react f N c bc target ld s s1 ok AD). split; [exact AR|]. split; [exact (proj1 Sd1)|].
    destruct (force_exists f N c tsize R0 (s_t s1) (l_others ld) (s_u s1) (s_mem s) (proj1 P1) (proj1 Sd1)) as (L & (m1 & Q1) & Len). destruct AR as (m2 & Q2). rewrite Q1 in Q2. injection Q2 as <- _. exact Len.
  - exact (IH s1 l1 Sd1 P2 E2 k ld' s' EL E').
Qed.
(** and do not depend on how it was reached: two runs from any states, at steps which end at the same time under any parameters, agree *)
Theorem history_free loads1 loads2 s1 s2 l1 l2 k1 k2 ld1 ld2 e1 e2 : sound N tsize s1 -> sound N tsize s2 -> List.Forall (plain_load N bc tsize) loads1 -> List.Forall (plain_load N bc tsize) loads2 ->
  run_steps f N c bc target loads1 s1 = Ok l1 -> run_steps f N c bc target loads2 s2 = Ok l2 ->
  nth_error loads1 k1 = Some ld1 -> nth_error l1 k1 = Some e1 -> nth_error loads2 k2 = Some ld2 -> nth_error l2 k2 = Some e2 -> s_t e1 = s_t e2 ->
  s_u e1 = s_u e2 /\ s_react e1 = s_react e2.
Proof.
  intros Sd1 Sd2 P1 P2 R1 R2 L1 E1 L2 E2 ET.
  destruct (run_balanced loads1 s1 l1 Sd1 P1 R1 k1 ld1 e1 L1 E1) as (m1 & B1 & F1 & U1 & X1). destruct (run_balanced loads2 s2 l2 Sd2 P2 R2 k2 ld2 e2 L2 E2) as (m2 & B2 & F2 & U2 & X2).
  destruct (proj1 (Forall_forall _ _) P1 ld1 (nth_error_In _ _ L1)) as (Fo1 & A1 & _). destruct (proj1 (Forall_forall _ _) P2 ld2 (nth_error_In _ _ L2)) as (Fo2 & A2 & _).
  rewrite <- ET in B2, F2. assert (Q := same_balance m1 m2 (l_others ld1) (l_others ld2) (s_t e1) _ _ Fo1 A1 Fo2 A2 B1 B2).
  assert (UE : s_u e1 = s_u e2) by (apply (nth_ext _ _ 0 0); [congruence|]; intros i Hi; rewrite U1 in Hi; exact (Q i Hi)). split; [exact UE|].
  set (KS := linear_s (St := St) n terms LI). set (x := entries (s_u e1)).
  assert (TX : tab N x = s_u e1) by (apply (nth_ext _ _ 0 0); [now rewrite tab_length|]; intros i Hi; rewrite tab_length in Hi; now rewrite nth_tab).
  assert (NF : forall others m L, fitting tsize others -> (forall i, nth i (others 0%nat) 0 = 0) -> force f N (s_t e1) others m (s_u e1) L -> nodal_forces n N f m sterms pos jac (fun w => others (w - 1)%nat) (s_t e1) x rest L).
  { intros others m L Fo A0 (ma & Qa). destruct (forces_s n N f terms pos jac c tsize others m D TS R0 Fo HA A0 W LI RE (s_t e1) x) as (L' & (mb & Qb) & H). rewrite TX, Qa in Qb. injection Qb as <- _. exact H. }
  rewrite <- UE in F2. apply (nth_ext _ _ 0 0); [congruence|]. intros i Hi. rewrite X1 in Hi.
  rewrite (force_entry n N f m1 sterms pos jac _ D KS F TS (s_t e1) x (s_react e1) i (NF _ _ _ Fo1 A1 F1) Hi), (force_entry n N f m2 sterms pos jac _ D KS F TS (s_t e1) x (s_react e2) i (NF _ _ _ Fo2 A2 F2) Hi).
  now rewrite (no_memory m1 m2).
Qed.
End Runs.
