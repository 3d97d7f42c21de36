(** * Coupled runs of heat transfer and solid mechanics on their residual functionals
    Thermomechanics::advanceTimestep (thermomechanics.hpp:241-251) around the steps of Transient.v and QuasiStatic.v.
    The thermal residual has the arguments temperature, rate, displacement, further parameters (heat_transfer.hpp:209,
    thermomechanics.hpp:64); the solid one displacement, acceleration, temperature, further parameters (solid_mechanics.hpp:243). *)
From Coq Require Import NArith ZArith Reals List Lia Lra Bool.
From Verif Require Import Prelude DofCodec Sums Restriction Csr Kernels FunctionalModel FunctionalGrad Assembly Tensor BoundaryElim Newton Adjoint Ode
  QuasiStatic QuasiNewton QuasiBalance QuasiAdjoint Transient TransientFacts.
Import ListNotations.
Local Open Scope R_scope.

(** setParameter(0, field) copies the field's values into the first parameter (base_physics.cpp:81-99) *)
Definition with_parameter (p : list R) (ld : push) : push :=
  {| k_dt := k_dt ld; k_params := inputs (k_params ld) p; k_solver := k_solver ld |}.
Definition with_temperature (p : list R) (ld : load) : load :=
  {| l_dt := l_dt ld; l_others := inputs (inputs (fun w => l_others ld (S w)) p) (l_others ld 0%nat);
     l_solver := l_solver ld; l_lin := l_lin ld; l_warm := l_warm ld |}.

Section Couple.
Context {StT X : Type}.
(** the module's own clock starts at 0 (thermomechanics.hpp:66-103) *)
Record couple := { c_heat : warmth (St := StT); c_solid : X; c_time : R; c_cycle : nat }.
(** thermomechanics.hpp:241-251 *)
Definition coupled_step (displacement : X -> list R) (heat : list R -> warmth (St := StT) -> outcome (warmth (St := StT) * bool))
                        (solid : list R -> X -> outcome (X * bool)) (dt : R) (s : couple) : outcome (couple * (bool * bool)) :=
  bindO (heat (displacement (c_solid s)) (c_heat s)) (fun p =>
  bindO (solid (w_u (fst p)) (c_solid s)) (fun q =>
  Ok ({| c_heat := fst p; c_solid := fst q; c_time := c_time s + dt; c_cycle := S (c_cycle s) |}, (snd p, snd q)))).
End Couple.
Arguments couple : clear implicits.

(** ** quasi-static or dynamic solid, steady or transient heat *)
Inductive heat_kind := Steady | Transient (en : enforcement).

Section Runs.
Context {StT StS : Type}.
Variables (fT : functional StT) (nT : nat) (cT cTm : csr) (bcT : nat -> bool) (targetT : R -> vec) (kind : heat_kind).
Variables (fS : functional StS) (nS : nat) (cS cSm : csr) (bcS : nat -> bool) (targetS : R -> vec) (it : integrator) (enS : enforcement).

Definition heat_advance (ld : push) (w : warmth (St := StT)) : outcome (warmth (St := StT) * bool) :=
  match kind with
  | Steady => steady_step fT nT cT bcT targetT ld w
  | Transient en => heat_step fT nT cT cTm bcT targetT en ld w
  end.
(** one call of advanceTimestep: what is in force in the two modules; both are given the same dt *)
Definition static_step (ld : push * load) (s : couple StT (state (St := StS))) :=
  coupled_step s_u (fun u => heat_advance (with_parameter u (fst ld))) (fun T => step fS nS cS bcS targetS (with_temperature T (snd ld))) (k_dt (fst ld)) s.
Definition moving_step (ld : push * push) (s : couple StT (motion (St := StS))) :=
  coupled_step d_u (fun u => heat_advance (with_parameter u (fst ld))) (fun T => dynamic_step fS nS cS cSm bcS targetS it enS (with_parameter T (snd ld))) (k_dt (fst ld)) s.

Fixpoint coupled_run {X L} (one : L -> couple StT X -> outcome (couple StT X * (bool * bool))) (loads : list L) (s : couple StT X)
                     : outcome (list (couple StT X * (bool * bool))) :=
  match loads with
  | [] => Ok []
  | ld :: rest => bindO (one ld s) (fun p => bindO (coupled_run one rest (fst p)) (fun l => Ok (p :: l)))
  end.

(** ** A coupled run is a run of each module, with the fields of the other as parameters *)
(** the parameters which the thermal module met: the displacement before each step *)
Fixpoint heat_loads {X L} (displacement : X -> list R) (heat_part : L -> push) (loads : list L) (s : couple StT X) (l : list (couple StT X * (bool * bool))) : list push :=
  match loads, l with
  | ld :: loads', p :: l' => with_parameter (displacement (c_solid s)) (heat_part ld) :: heat_loads displacement heat_part loads' (fst p) l'
  | _, _ => []
  end.
(** and those of the solid: the temperature after each step *)
Fixpoint solid_loads {X L L'} (solid_part : list R -> L -> L') (loads : list L) (l : list (couple StT X * (bool * bool))) : list L' :=
  match loads, l with
  | ld :: loads', p :: l' => solid_part (w_u (c_heat (fst p))) ld :: solid_loads solid_part loads' l'
  | _, _ => []
  end.

Lemma coupled_step_parts {X} (displacement : X -> list R) heat solid dt (s : couple StT X) s' ok :
  coupled_step displacement heat solid dt s = Ok (s', ok) ->
  heat (displacement (c_solid s)) (c_heat s) = Ok (c_heat s', fst ok) /\ solid (w_u (c_heat s')) (c_solid s) = Ok (c_solid s', snd ok) /\
  c_time s' = c_time s + dt /\ c_cycle s' = S (c_cycle s).
Proof.
  unfold coupled_step. intros H. destruct (heat _ _) as [[w o]| |]; cbn [bindO fst snd] in H; try discriminate.
  destruct (solid _ _) as [[x o']| |] eqn:E; cbn [bindO fst snd] in H; try discriminate. inversion H; subst. cbn. auto.
Qed.

Lemma coupled_heat_run {X L} displacement (heat_part : L -> push) (solid : L -> list R -> X -> outcome (X * bool)) : forall loads s l,
  coupled_run (fun ld => coupled_step displacement (fun u => heat_advance (with_parameter u (heat_part ld))) (solid ld) (k_dt (heat_part ld))) loads s = Ok l ->
  heat_run heat_advance (heat_loads displacement heat_part loads s l) (c_heat s) = Ok (map (fun p => (c_heat (fst p), fst (snd p))) l).
Proof.
  induction loads as [|ld loads IH]; intros s l H; cbn [coupled_run] in H; [inversion H; subst; reflexivity|].
  destruct (coupled_step _ _ _ _ _) as [[s' ok]| |] eqn:E; cbn [bindO fst] in H; try discriminate.
  destruct (coupled_run _ loads s') as [l'| |] eqn:E'; cbn [bindO] in H; try discriminate. inversion H; subst l.
  apply coupled_step_parts in E as (E1 & _). apply IH in E'. cbn [heat_loads heat_run fst snd map]. rewrite E1. cbn [bindO fst]. rewrite E'. reflexivity.
Qed.
Lemma static_solid_run : forall loads s l, coupled_run static_step loads s = Ok l ->
  run_steps fS nS cS bcS targetS (solid_loads (fun T ld => with_temperature T (snd ld)) loads l) (c_solid s) = Ok (map (fun p => c_solid (fst p)) l).
Proof.
  induction loads as [|ld loads IH]; intros s l H; cbn [coupled_run] in H; [inversion H; subst; reflexivity|].
  destruct (static_step ld s) as [[s' ok]| |] eqn:E; cbn [bindO fst] in H; try discriminate.
  destruct (coupled_run _ loads s') as [l'| |] eqn:E'; cbn [bindO] in H; try discriminate. inversion H; subst l.
  unfold static_step in E. apply coupled_step_parts in E as (_ & E1 & _). apply IH in E'. cbn [solid_loads run_steps fst snd map]. rewrite E1. cbn [bindO fst]. rewrite E'. reflexivity.
Qed.
Lemma moving_solid_run : forall loads s l, coupled_run moving_step loads s = Ok l ->
  dynamic_run fS nS cS cSm bcS targetS it enS (solid_loads (fun T ld => with_parameter T (snd ld)) loads l) (c_solid s) = Ok (map (fun p => c_solid (fst p)) l).
Proof.
  induction loads as [|ld loads IH]; intros s l H; cbn [coupled_run] in H; [inversion H; subst; reflexivity|].
  destruct (moving_step ld s) as [[s' ok]| |] eqn:E; cbn [bindO fst] in H; try discriminate.
  destruct (coupled_run _ loads s') as [l'| |] eqn:E'; cbn [bindO] in H; try discriminate. inversion H; subst l.
  unfold moving_step in E. apply coupled_step_parts in E as (_ & E1 & _). apply IH in E'. cbn [solid_loads dynamic_run fst snd map]. rewrite E1. cbn [bindO fst]. rewrite E'. reflexivity.
Qed.

(** ** specification of a coupled step *)
(** the heat balance of a step with the parameters [params] *)
Definition heat_balanced (accept : vec -> vec -> Prop) (dt : R) (params : nat -> list R) (w w' : warmth (St := StT)) : Prop :=
  match kind with
  | Steady =>
      (forall i, (i < nT)%nat -> bcT i = true -> nth i (w_u w') 0 = targetT (w_t w') i) /\
      exists L0 L, force fT nT (w_t w') (inputs params (w_rate w)) (w_mem w) (tab nT (fun i => if bcT i then targetT (w_t w') i else nth i (w_u w) 0)) L0 /\
        force fT nT (w_t w') (inputs params (w_rate w)) (w_mem w) (w_u w') L /\ accept (zeroed bcT (entries L0)) (zeroed bcT (entries L))
  | Transient en =>
      (forall i, (i < nT)%nat -> nth i (w_u w') 0 = nth i (w_u w) 0 + dt * nth i (w_rate w') 0) /\
      (forall i, (i < nT)%nat -> bcT i = true -> heat_obeys targetT en (w_t w') (w_u w') (w_rate w') i) /\
      exists L0 L, let r0 := fun i => if bcT i then nth i (w_rate w') 0 else nth i (w_rate w) 0 in
        force fT nT (w_t w') (inputs params (tab nT r0)) (w_mem w) (tab nT (fun i => nth i (w_u w) 0 + dt * r0 i)) L0 /\
        force fT nT (w_t w') (inputs params (w_rate w')) (w_mem w) (w_u w') L /\ accept (zeroed bcT (entries L0)) (zeroed bcT (entries L))
  end.

Variables (tsizeT tsizeS : nat -> nat).
Hypothesis RT : ready fT nT cT tsizeT.
Hypothesis RTm : ready_for fT nT tsizeT 0 nT cTm.
Hypothesis RS : ready fS nS cS tsizeS.
(** the displacement fits the thermal residual, the temperature the solid one *)
Hypothesis Hdisp : tsizeT 2%nat = nS.
Hypothesis Htemp : tsizeS 2%nat = nT.
(** the further parameters of a load fit *)
Definition extra_fit (tsize : nat -> nat) (params : nat -> list R) : Prop := forall w, length (params w) = tsize (S (S (S w))).
Definition load_fits (others : nat -> list R) : Prop := length (others 0%nat) = tsizeS 1%nat /\ extra_fit tsizeS (fun w => others (S w)).
Definition heat_allowed (ld : push) : Prop := match kind with Steady => True | Transient en => en <> FullControl /\ k_dt ld <> 0 end.
Definition warmth_sound (w : warmth (St := StT)) : Prop := length (w_u w) = nT /\ length (w_rate w) = nT.

Lemma with_parameter_fit tsize p ld : extra_fit tsize (k_params ld) -> length p = tsize 2%nat -> params_fit tsize (k_params (with_parameter p ld)).
Proof. intros E Hp [|w]; cbn; [exact Hp|apply E]. Qed.
Lemma with_temperature_fit p ld : load_fits (l_others ld) -> length p = nT -> fitting tsizeS (l_others (with_temperature p ld)).
Proof. intros [A B] Hp [|[|w]]; cbn; [exact A|congruence|apply B]. Qed.

Lemma heat_advance_ok ld w : params_fit tsizeT (k_params ld) -> warmth_sound w ->
  exists w' ok, heat_advance ld w = Ok (w', ok) /\ w_t w' = w_t w + k_dt ld /\ w_cycle w' = S (w_cycle w) /\ same_material (w_mem w') (w_mem w) /\ warmth_sound w'.
Proof.
  intros P [S1 S2]. unfold heat_advance. destruct kind as [|en].
  - destruct (steady_step_ok fT nT cT cTm bcT targetT tsizeT RT RTm ld w P S2) as (w' & ok & E & A & B & C & _ & D & x & _ & F).
    exists w', ok. split; [exact E|]. repeat split; auto; [rewrite F; apply tab_length|congruence].
  - destruct (heat_step_ok fT nT cT cTm bcT targetT tsizeT RT RTm en ld w P) as (w' & ok & E & A & B & C & _ & k & H).
    cbv zeta in H. destruct H as (_ & F & G). exists w', ok. split; [exact E|]. repeat split; auto; [rewrite G|rewrite F]; apply tab_length.
Qed.
Lemma heat_advance_balanced ld w w' accept : params_fit tsizeT (k_params ld) -> warmth_sound w -> heat_allowed ld -> trustworthy nT bcT accept (k_solver ld) ->
  heat_advance ld w = Ok (w', true) -> heat_balanced accept (k_dt ld) (k_params ld) w w'.
Proof.
  intros P [S1 S2] A TW E. unfold heat_advance in E. unfold heat_balanced. unfold heat_allowed in A. destruct kind as [|en].
  - exact (steady_balance fT nT cT cTm bcT targetT tsizeT RT RTm ld w w' accept P S2 TW E).
  - destruct A as [A1 A2]. exact (heat_balance fT nT cT cTm bcT targetT tsizeT RT RTm en ld w w' accept A1 P A2 TW E).
Qed.

(** ** quasi-static solid *)
Definition static_sound (s : couple StT (state (St := StS))) : Prop :=
  warmth_sound (c_heat s) /\ QuasiStatic.sound nS tsizeS (c_solid s) /\ c_time s = s_t (c_solid s) /\ w_t (c_heat s) = s_t (c_solid s) /\
  c_cycle s = s_cycle (c_solid s) /\ w_cycle (c_heat s) = s_cycle (c_solid s).
Definition static_fits (ld : push * load) : Prop :=
  extra_fit tsizeT (k_params (fst ld)) /\ load_fits (l_others (snd ld)) /\ k_dt (fst ld) = l_dt (snd ld).

Theorem static_step_ok ld s : static_fits ld -> static_sound s ->
  exists s' ok, static_step ld s = Ok (s', ok) /\ static_sound s' /\ c_time s' = c_time s + k_dt (fst ld) /\ c_cycle s' = S (c_cycle s) /\
    heat_advance (with_parameter (s_u (c_solid s)) (fst ld)) (c_heat s) = Ok (c_heat s', fst ok) /\ same_material (w_mem (c_heat s')) (w_mem (c_heat s)) /\
    advances fS nS cS bcS targetS (with_temperature (w_u (c_heat s')) (snd ld)) (c_solid s) (c_solid s') (snd ok).
Proof.
  intros (F1 & F2 & F3) (W & S1 & T1 & T2 & C1 & C2). assert (Hu := proj1 S1).
  destruct (heat_advance_ok (with_parameter (s_u (c_solid s)) (fst ld)) (c_heat s)) as (w' & ok & E & A & B & C & D);
    [apply with_parameter_fit; [exact F1|congruence]|exact W|].
  destruct (step_ok fS nS cS bcS targetS tsizeS RS (with_temperature (w_u w') (snd ld)) (c_solid s) S1) as (x' & ok' & E' & A' & B' & _);
    [apply with_temperature_fit; [exact F2|apply D]|].
  eexists _, (ok, ok'). unfold static_step, coupled_step. rewrite E. cbn [bindO fst snd]. rewrite E'. cbn [bindO fst snd]. split; [reflexivity|].
  cbn [c_heat c_solid c_time c_cycle]. split; [|split; [reflexivity|split; [reflexivity|split; [reflexivity|split; [exact C|exact A']]]]].
  assert (T3 := adv_time _ _ _ _ _ _ _ _ _ A'). assert (C3 := adv_cycle _ _ _ _ _ _ _ _ _ A'). cbn [l_dt with_temperature] in T3. cbn [k_dt with_parameter] in A.
  split; [exact D|]. split; [exact B'|]. cbn [c_heat c_solid c_time c_cycle]. repeat split.
  - rewrite T3, T1, F3. reflexivity.
  - rewrite A, T2, T3, F3. reflexivity.
  - rewrite C3, C1. reflexivity.
  - rewrite B, C2, C3. reflexivity.
Qed.

(** what one converged step leaves: heat balanced with the displacement at its start, forces with the temperature at its end *)
Theorem static_balance ld s s' acceptT acceptS : static_fits ld -> static_sound s -> heat_allowed (fst ld) ->
  trustworthy nT bcT acceptT (k_solver (fst ld)) -> trustworthy nS bcS acceptS (l_solver (snd ld)) ->
  (l_warm (snd ld) = true -> keeps_unit_rows nS bcS (l_lin (snd ld))) ->
  static_step ld s = Ok (s', (true, true)) ->
  heat_balanced acceptT (k_dt (fst ld)) (inputs (k_params (fst ld)) (s_u (c_solid s))) (c_heat s) (c_heat s') /\
  (forall i, (i < nS)%nat -> bcS i = true -> nth i (s_u (c_solid s')) 0 = targetS (s_t (c_solid s')) i) /\
  (let others := inputs (inputs (fun w => l_others (snd ld) (S w)) (w_u (c_heat s'))) (l_others (snd ld) 0%nat) in
   force fS nS (s_t (c_solid s')) others (s_mem (c_solid s)) (s_u (c_solid s')) (s_react (c_solid s')) /\
   material_step fS (s_t (c_solid s')) others (s_u (c_solid s')) (s_mem (c_solid s)) (s_mem (c_solid s')) /\
   exists x0 L0, force fS nS (s_t (c_solid s')) others (s_mem (c_solid s)) (tab nS x0) L0 /\
     acceptS (zeroed bcS (entries L0)) (zeroed bcS (entries (s_react (c_solid s'))))) /\
  same_material (w_mem (c_heat s')) (w_mem (c_heat s)).
Proof.
  intros F Sd A TW TW' Hw H. destruct (static_step_ok ld s F Sd) as (s1 & ok1 & E1 & _ & _ & _ & _ & _ & Adv). rewrite E1 in H. inversion H; subst s1 ok1. clear H.
  destruct F as (F1 & F2 & F3). destruct Sd as (W & S1 & _). assert (Hu := proj1 S1).
  unfold static_step in E1. apply coupled_step_parts in E1 as (E1 & E2 & _). cbn [fst snd] in E1, E2, Adv.
  assert (P : params_fit tsizeT (k_params (with_parameter (s_u (c_solid s)) (fst ld)))) by (apply with_parameter_fit; [exact F1|congruence]).
  destruct (heat_advance_ok _ (c_heat s) P W) as (w1 & o1 & E3 & _ & _ & Sm & D). rewrite E1 in E3. inversion E3; subst w1 o1. clear E3.
  split; [exact (heat_advance_balanced _ _ _ acceptT P W A TW E1)|].
  destruct (equilibrium fS nS cS bcS targetS tsizeS RS (with_temperature (w_u (c_heat s')) (snd ld)) (c_solid s) (c_solid s') acceptS S1) as (Q1 & Q2 & x0 & L0 & _ & Q3 & Q4);
    [apply with_temperature_fit; [exact F2|apply D]|exact Hw|exact TW'|exact E2|].
  split; [exact Q1|]. split; [|exact Sm]. cbv zeta. split; [exact Q2|]. split; [exact (adv_material _ _ _ _ _ _ _ _ _ Adv)|]. exists x0, L0. auto.
Qed.

(** every run succeeds, and the three clocks stay together *)
Theorem static_run_ok loads : forall s, List.Forall static_fits loads -> static_sound s ->
  exists l, coupled_run static_step loads s = Ok l /\ List.Forall (fun p => static_sound (fst p)) l /\ length l = length loads.
Proof.
  induction loads as [|ld loads IH]; intros s F Sd; [exists []; repeat split; constructor|].
  destruct (static_step_ok ld s (Forall_inv F) Sd) as (s' & ok & E & Sd' & _).
  destruct (IH s' (Forall_inv_tail F) Sd') as (l & E' & Sl & Hl).
  exists ((s', ok) :: l). cbn [coupled_run]. rewrite E. cbn [bindO fst]. rewrite E'. cbn [bindO length]. repeat split; auto.
Qed.

(** ** dynamic solid *)
Hypothesis RSm : ready_for fS nS tsizeS 0 nS cSm.
Definition moving_sound (s : couple StT (motion (St := StS))) : Prop :=
  warmth_sound (c_heat s) /\ length (d_u (c_solid s)) = nS /\ c_time s = d_t (c_solid s) /\ w_t (c_heat s) = d_t (c_solid s) /\
  c_cycle s = d_cycle (c_solid s) /\ w_cycle (c_heat s) = d_cycle (c_solid s).
Definition moving_fits (ld : push * push) : Prop :=
  extra_fit tsizeT (k_params (fst ld)) /\ extra_fit tsizeS (k_params (snd ld)) /\ k_dt (fst ld) = k_dt (snd ld) /\ step_defined it enS (k_dt (snd ld)).

Theorem moving_step_ok ld s : moving_fits ld -> moving_sound s ->
  exists s' ok, moving_step ld s = Ok (s', ok) /\ moving_sound s' /\ c_time s' = c_time s + k_dt (fst ld) /\ c_cycle s' = S (c_cycle s) /\
    heat_advance (with_parameter (d_u (c_solid s)) (fst ld)) (c_heat s) = Ok (c_heat s', fst ok) /\ same_material (w_mem (c_heat s')) (w_mem (c_heat s)) /\
    moves fS nS cS cSm bcS targetS it enS (with_parameter (w_u (c_heat s')) (snd ld)) (c_solid s) (c_solid s') (snd ok).
Proof.
  intros (F1 & F2 & F3 & F4) (W & Hu & T1 & T2 & C1 & C2).
  destruct (heat_advance_ok (with_parameter (d_u (c_solid s)) (fst ld)) (c_heat s)) as (w' & ok & E & A & B & C & D);
    [apply with_parameter_fit; [exact F1|congruence]|exact W|].
  destruct (dynamic_step_ok fS nS cS cSm bcS targetS tsizeS RS RSm it enS (with_parameter (w_u w') (snd ld)) (c_solid s)) as (x' & ok' & E' & A');
    [apply with_parameter_fit; [exact F2|rewrite Htemp; apply D]|exact F4|].
  eexists _, (ok, ok'). unfold moving_step, coupled_step. rewrite E. cbn [bindO fst snd]. rewrite E'. cbn [bindO fst snd]. split; [reflexivity|].
  cbn [c_heat c_solid c_time c_cycle]. split; [|split; [reflexivity|split; [reflexivity|split; [reflexivity|split; [exact C|exact A']]]]].
  assert (T3 := mv_time _ _ _ _ _ _ _ _ _ _ _ _ A'). assert (C3 := mv_cycle _ _ _ _ _ _ _ _ _ _ _ _ A'). cbn [k_dt with_parameter] in T3, A.
  destruct (mv_goes _ _ _ _ _ _ _ _ _ _ _ _ A') as (x & v & a & _ & Hx & _).
  split; [exact D|]. cbn [c_heat c_solid c_time c_cycle]. repeat split.
  - rewrite Hx. apply tab_length.
  - rewrite T3, T1, F3. reflexivity.
  - rewrite A, T2, T3, F3. reflexivity.
  - rewrite C3, C1. reflexivity.
  - rewrite B, C2, C3. reflexivity.
Qed.
Theorem moving_balance ld s s' acceptT acceptS : moving_fits ld -> moving_sound s -> heat_allowed (fst ld) -> enS <> FullControl ->
  step_allowed it enS (k_dt (snd ld)) ->
  trustworthy nT bcT acceptT (k_solver (fst ld)) -> trustworthy nS bcS acceptS (k_solver (snd ld)) ->
  moving_step ld s = Ok (s', (true, true)) ->
  heat_balanced acceptT (k_dt (fst ld)) (inputs (k_params (fst ld)) (d_u (c_solid s))) (c_heat s) (c_heat s') /\
  (forall i, (i < nS)%nat -> bcS i = true -> obeys enS targetS (d_t (c_solid s')) (d_u (c_solid s')) (d_v (c_solid s')) i) /\
  (let params := inputs (k_params (snd ld)) (w_u (c_heat s')) in
   force fS nS (d_t (c_solid s')) (inputs params (d_a (c_solid s'))) (d_mem (c_solid s)) (d_u (c_solid s')) (d_react (c_solid s')) /\
   material_step fS (d_t (c_solid s')) (inputs params (d_a (c_solid s'))) (d_u (c_solid s')) (d_mem (c_solid s)) (d_mem (c_solid s')) /\
   exists a u L0, force fS nS (d_t (c_solid s')) (inputs params a) (d_mem (c_solid s)) u L0 /\
     acceptS (zeroed bcS (entries L0)) (zeroed bcS (entries (d_react (c_solid s'))))) /\
  same_material (w_mem (c_heat s')) (w_mem (c_heat s)).
Proof.
  intros F Sd A NF SA TW TW' H. destruct (moving_step_ok ld s F Sd) as (s1 & ok1 & E1 & _ & _ & _ & _ & _ & Adv). rewrite E1 in H. inversion H; subst s1 ok1. clear H.
  destruct F as (F1 & F2 & F3 & F4). destruct Sd as (W & Hu & _).
  unfold moving_step in E1. apply coupled_step_parts in E1 as (E1 & E2 & _). cbn [fst snd] in E1, E2, Adv.
  assert (P : params_fit tsizeT (k_params (with_parameter (d_u (c_solid s)) (fst ld)))) by (apply with_parameter_fit; [exact F1|congruence]).
  destruct (heat_advance_ok _ (c_heat s) P W) as (w1 & o1 & E3 & _ & _ & Sm & D). rewrite E1 in E3. inversion E3; subst w1 o1. clear E3.
  split; [exact (heat_advance_balanced _ _ _ acceptT P W A TW E1)|].
  destruct (motion_balance fS nS cS cSm bcS targetS tsizeS RS RSm it enS (with_parameter (w_u (c_heat s')) (snd ld)) (c_solid s) (c_solid s') acceptS NF) as (_ & Q1 & Q2 & L0 & Q3);
    [apply with_parameter_fit; [exact F2|rewrite Htemp; apply D]|exact SA|exact TW'|exact E2|].
  split; [exact Q1|]. split; [|exact Sm]. cbv zeta. split; [exact Q2|]. split; [exact (mv_material _ _ _ _ _ _ _ _ _ _ _ _ Adv)|].
  cbv zeta in Q3. destruct Q3 as [Q3 Q4]. eexists _, _, L0. split; [exact Q3|exact Q4].
Qed.
Theorem moving_run_ok loads : forall s, List.Forall moving_fits loads -> moving_sound s ->
  exists l, coupled_run moving_step loads s = Ok l /\ List.Forall (fun p => moving_sound (fst p)) l /\ length l = length loads.
Proof.
  induction loads as [|ld loads IH]; intros s F Sd; [exists []; repeat split; constructor|].
  destruct (moving_step_ok ld s (Forall_inv F) Sd) as (s' & ok & E & Sd' & _).
  destruct (IH s' (Forall_inv_tail F) Sd') as (l & E' & Sl & Hl).
  exists ((s', ok) :: l). cbn [coupled_run]. rewrite E. cbn [bindO fst]. rewrite E'. cbn [bindO length]. repeat split; auto.
Qed.

(** ** When conduction does not depend on the displacement, the step solves the coupled problem *)
Definition ignores_displacement : Prop := forall t others rate u u' m T L,
  force fT nT t (inputs (inputs others u) rate) m T L -> force fT nT t (inputs (inputs others u') rate) m T L.
Lemma heat_balanced_any accept dt params u u' w w' : ignores_displacement ->
  heat_balanced accept dt (inputs params u) w w' -> heat_balanced accept dt (inputs params u') w w'.
Proof.
  intros Ig. unfold heat_balanced. destruct kind as [|en].
  - intros (A & L0 & L & B & C & D). split; [exact A|]. exists L0, L. split; [now apply Ig with u|]. split; [now apply Ig with u|exact D].
  - intros (A & B & L0 & L & C). cbv zeta in C. destruct C as (C & D & E). split; [exact A|]. split; [exact B|]. exists L0, L. cbv zeta.
    split; [now apply Ig with u|]. split; [now apply Ig with u|exact E].
Qed.
End Runs.
