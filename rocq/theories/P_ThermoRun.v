(** * C81: coupled runs of heat transfer and solid mechanics *)
From Coq Require Import NArith ZArith Reals List Lia Bool.
From Verif Require Import Prelude DofCodec Sums Restriction Csr Kernels FunctionalModel FunctionalGrad Assembly FunctionalEx Tensor BoundaryElim Newton Adjoint Ode
  QuasiStatic QuasiNewton QuasiBalance QuasiAdjoint QuasiEx Transient TransientFacts TransientEx ThermoRun ThermoRunEx.
Import ListNotations.
Local Open Scope R_scope.

(** a step of the coupled module succeeds, whatever the two nonlinear solvers do; the three clocks stay together; the thermal module has made its own step with
    the displacement at the start, its material state is untouched; the solid has made its own step with the temperature just found *)
Theorem C81_static_step : forall StT StS (fT : functional StT) nT cT cTm bcT targetT kind (fS : functional StS) nS cS bcS targetS tsizeT tsizeS (ld : push * load) s,
  ready fT nT cT tsizeT -> ready_for fT nT tsizeT 0 nT cTm -> ready fS nS cS tsizeS -> tsizeT 2%nat = nS -> tsizeS 2%nat = nT ->
  static_fits tsizeT tsizeS ld -> static_sound nT nS tsizeS s ->
  exists s' ok, static_step fT nT cT cTm bcT targetT kind fS nS cS bcS targetS ld s = Ok (s', ok) /\ static_sound nT nS tsizeS s' /\
    c_time s' = c_time s + k_dt (fst ld) /\ c_cycle s' = S (c_cycle s) /\
    heat_advance fT nT cT cTm bcT targetT kind (with_parameter (s_u (c_solid s)) (fst ld)) (c_heat s) = Ok (c_heat s', fst ok) /\
    same_material (w_mem (c_heat s')) (w_mem (c_heat s)) /\
    advances fS nS cS bcS targetS (with_temperature (w_u (c_heat s')) (snd ld)) (c_solid s) (c_solid s') (snd ok).
Proof. exact (fun StT StS fT nT cT cTm bcT targetT kind fS nS cS bcS targetS tsizeT tsizeS ld s RT RTm RS H1 H2 =>
  @static_step_ok StT StS fT nT cT cTm bcT targetT kind fS nS cS bcS targetS tsizeT tsizeS RT RTm RS H1 H2 ld s). Qed.
Print Assumptions C81_static_step.
Theorem C81_dynamic_step : forall StT StS (fT : functional StT) nT cT cTm bcT targetT kind (fS : functional StS) nS cS cSm bcS targetS it enS tsizeT tsizeS (ld : push * push) s,
  ready fT nT cT tsizeT -> ready_for fT nT tsizeT 0 nT cTm -> ready fS nS cS tsizeS -> tsizeT 2%nat = nS -> tsizeS 2%nat = nT -> ready_for fS nS tsizeS 0 nS cSm ->
  moving_fits it enS tsizeT tsizeS ld -> moving_sound nT nS s ->
  exists s' ok, moving_step fT nT cT cTm bcT targetT kind fS nS cS cSm bcS targetS it enS ld s = Ok (s', ok) /\ moving_sound nT nS s' /\
    c_time s' = c_time s + k_dt (fst ld) /\ c_cycle s' = S (c_cycle s) /\
    heat_advance fT nT cT cTm bcT targetT kind (with_parameter (d_u (c_solid s)) (fst ld)) (c_heat s) = Ok (c_heat s', fst ok) /\
    same_material (w_mem (c_heat s')) (w_mem (c_heat s)) /\
    moves fS nS cS cSm bcS targetS it enS (with_parameter (w_u (c_heat s')) (snd ld)) (c_solid s) (c_solid s') (snd ok).
Proof. exact (fun StT StS fT nT cT cTm bcT targetT kind fS nS cS cSm bcS targetS it enS tsizeT tsizeS ld s RT RTm RS H1 H2 RSm =>
  @moving_step_ok StT StS fT nT cT cTm bcT targetT kind fS nS cS cSm bcS targetS it enS tsizeT tsizeS RT RTm RS H1 H2 RSm ld s). Qed.
Print Assumptions C81_dynamic_step.

(** a converged step: the heat balance holds with the temperature and rate at the end of the step and the displacement at its START; the forces balance with the
    displacement, temperature and time at the end; the boundary conditions hold; the material of the solid is updated once, with the new temperature *)
Theorem C81_static : forall StT StS (fT : functional StT) nT cT cTm bcT targetT kind (fS : functional StS) nS cS bcS targetS tsizeT tsizeS (ld : push * load) s s' acceptT acceptS,
  ready fT nT cT tsizeT -> ready_for fT nT tsizeT 0 nT cTm -> ready fS nS cS tsizeS -> tsizeT 2%nat = nS -> tsizeS 2%nat = nT ->
  static_fits tsizeT tsizeS ld -> static_sound nT nS tsizeS s -> heat_allowed kind (fst ld) ->
  trustworthy nT bcT acceptT (k_solver (fst ld)) -> trustworthy nS bcS acceptS (l_solver (snd ld)) ->
  (l_warm (snd ld) = true -> keeps_unit_rows nS bcS (l_lin (snd ld))) ->
  static_step fT nT cT cTm bcT targetT kind fS nS cS bcS targetS ld s = Ok (s', (true, true)) ->
  heat_balanced fT nT bcT targetT kind acceptT (k_dt (fst ld)) (inputs (k_params (fst ld)) (s_u (c_solid s))) (c_heat s) (c_heat s') /\
  (forall i, (i < nS)%nat -> bcS i = true -> nth i (s_u (c_solid s')) 0 = targetS (s_t (c_solid s')) i) /\
  (let others := inputs (inputs (fun w => l_others (snd ld) (S w)) (w_u (c_heat s'))) (l_others (snd ld) 0%nat) in
   force fS nS (s_t (c_solid s')) others (s_mem (c_solid s)) (s_u (c_solid s')) (s_react (c_solid s')) /\
   material_step fS (s_t (c_solid s')) others (s_u (c_solid s')) (s_mem (c_solid s)) (s_mem (c_solid s')) /\
   exists x0 L0, force fS nS (s_t (c_solid s')) others (s_mem (c_solid s)) (tab nS x0) L0 /\
     acceptS (zeroed bcS (entries L0)) (zeroed bcS (entries (s_react (c_solid s'))))) /\
  same_material (w_mem (c_heat s')) (w_mem (c_heat s)).
Proof. exact (fun StT StS fT nT cT cTm bcT targetT kind fS nS cS bcS targetS tsizeT tsizeS ld s s' acceptT acceptS RT RTm RS H1 H2 =>
  @static_balance StT StS fT nT cT cTm bcT targetT kind fS nS cS bcS targetS tsizeT tsizeS RT RTm RS H1 H2 ld s s' acceptT acceptS). Qed.
Print Assumptions C81_static.
Theorem C81_dynamic : forall StT StS (fT : functional StT) nT cT cTm bcT targetT kind (fS : functional StS) nS cS cSm bcS targetS it enS tsizeT tsizeS (ld : push * push) s s' acceptT acceptS,
  ready fT nT cT tsizeT -> ready_for fT nT tsizeT 0 nT cTm -> ready fS nS cS tsizeS -> tsizeT 2%nat = nS -> tsizeS 2%nat = nT -> ready_for fS nS tsizeS 0 nS cSm ->
  moving_fits it enS tsizeT tsizeS ld -> moving_sound nT nS s -> heat_allowed kind (fst ld) -> enS <> FullControl -> step_allowed it enS (k_dt (snd ld)) ->
  trustworthy nT bcT acceptT (k_solver (fst ld)) -> trustworthy nS bcS acceptS (k_solver (snd ld)) ->
  moving_step fT nT cT cTm bcT targetT kind fS nS cS cSm bcS targetS it enS ld s = Ok (s', (true, true)) ->
  heat_balanced fT nT bcT targetT kind acceptT (k_dt (fst ld)) (inputs (k_params (fst ld)) (d_u (c_solid s))) (c_heat s) (c_heat s') /\
  (forall i, (i < nS)%nat -> bcS i = true -> obeys enS targetS (d_t (c_solid s')) (d_u (c_solid s')) (d_v (c_solid s')) i) /\
  (let params := inputs (k_params (snd ld)) (w_u (c_heat s')) in
   force fS nS (d_t (c_solid s')) (inputs params (d_a (c_solid s'))) (d_mem (c_solid s)) (d_u (c_solid s')) (d_react (c_solid s')) /\
   material_step fS (d_t (c_solid s')) (inputs params (d_a (c_solid s'))) (d_u (c_solid s')) (d_mem (c_solid s)) (d_mem (c_solid s')) /\
   exists a u L0, force fS nS (d_t (c_solid s')) (inputs params a) (d_mem (c_solid s)) u L0 /\
     acceptS (zeroed bcS (entries L0)) (zeroed bcS (entries (d_react (c_solid s'))))) /\
  same_material (w_mem (c_heat s')) (w_mem (c_heat s)).
Proof. exact (fun StT StS fT nT cT cTm bcT targetT kind fS nS cS cSm bcS targetS it enS tsizeT tsizeS ld s s' acceptT acceptS RT RTm RS H1 H2 RSm =>
  @moving_balance StT StS fT nT cT cTm bcT targetT kind fS nS cS cSm bcS targetS it enS tsizeT tsizeS RT RTm RS H1 H2 RSm ld s s' acceptT acceptS). Qed.
Print Assumptions C81_dynamic.
Example C81_dynamic_nonvacuous : exists c s', ready (pair_bar true) 3 c bar_sizes /\ ready_for (pair_bar true) 3 bar_sizes 0 3 c /\
  ready (pair_bar false) 3 c bar_sizes /\ ready_for (pair_bar false) 3 bar_sizes 0 3 c /\
  moving_fits BackwardEuler DirectControl bar_sizes bar_sizes (heat_push, bar_push) /\ moving_sound 3 3 moving_start /\ heat_allowed Steady heat_push /\
  step_allowed BackwardEuler DirectControl (k_dt bar_push) /\ trustworthy 3 ends middle_free probe /\
  moving_step (pair_bar true) 3 c c ends hot_end Steady (pair_bar false) 3 c c ends fixed_ends BackwardEuler DirectControl (heat_push, bar_push) moving_start = Ok (s', (true, true)) /\
  w_u (c_heat s') = [0; 2; 4] /\ d_u (c_solid s') = [0; -1; 0].
Proof. exact moving_pair. Qed.

(** a user may expect that a converged coupled step balances heat for the configuration which it reports: it does not; the first conjuncts are the hypotheses and the
    conclusion of [C81_static] *)
Theorem C81_reported_configuration_refuted : exists c s', ready (pair_bar true) 3 c bar_sizes /\ ready_for (pair_bar true) 3 bar_sizes 0 3 c /\ ready (pair_bar false) 3 c bar_sizes /\
  static_fits bar_sizes bar_sizes (heat_push, bar_load) /\ static_sound 3 3 bar_sizes couple_start /\ heat_allowed Steady heat_push /\
  trustworthy 3 ends middle_free probe /\
  static_step (pair_bar true) 3 c c ends hot_end Steady (pair_bar false) 3 c ends fixed_ends (heat_push, bar_load) couple_start = Ok (s', (true, true)) /\
  w_u (c_heat s') = [0; 2; 4] /\ s_u (c_solid s') = [0; -1; 0] /\
  heat_balanced (pair_bar true) 3 ends hot_end Steady middle_free 1 (inputs no_params (s_u (c_solid couple_start))) cold (c_heat s') /\
  ~ heat_balanced (pair_bar true) 3 ends hot_end Steady middle_free 1 (inputs no_params (s_u (c_solid s'))) cold (c_heat s').
Proof. exact end_displacement_unbalanced. Qed.
Print Assumptions C81_reported_configuration_refuted.
(** it does when conduction does not depend on the displacement *)
Theorem C81_one_way : forall StT (fT : functional StT) nT bcT targetT kind accept dt params u u' w w', ignores_displacement fT nT ->
  heat_balanced fT nT bcT targetT kind accept dt (inputs params u) w w' -> heat_balanced fT nT bcT targetT kind accept dt (inputs params u') w w'.
Proof. exact @heat_balanced_any. Qed.
Print Assumptions C81_one_way.
Example C81_one_way_nonvacuous : ignores_displacement beam 3.
Proof. exact beam_ignores. Qed.

(** every coupled run succeeds, and the clocks of the three modules agree after every step *)
Theorem C81_static_run : forall StT StS (fT : functional StT) nT cT cTm bcT targetT kind (fS : functional StS) nS cS bcS targetS tsizeT tsizeS (loads : list (push * load)) s,
  ready fT nT cT tsizeT -> ready_for fT nT tsizeT 0 nT cTm -> ready fS nS cS tsizeS -> tsizeT 2%nat = nS -> tsizeS 2%nat = nT ->
  List.Forall (static_fits tsizeT tsizeS) loads -> static_sound nT nS tsizeS s ->
  exists l, coupled_run (static_step fT nT cT cTm bcT targetT kind fS nS cS bcS targetS) loads s = Ok l /\
    List.Forall (fun p => static_sound nT nS tsizeS (fst p)) l /\ length l = length loads.
Proof. exact (fun StT StS fT nT cT cTm bcT targetT kind fS nS cS bcS targetS tsizeT tsizeS loads s RT RTm RS H1 H2 =>
  @static_run_ok StT StS fT nT cT cTm bcT targetT kind fS nS cS bcS targetS tsizeT tsizeS RT RTm RS H1 H2 loads s). Qed.
Print Assumptions C81_static_run.
Example C81_static_run_nonvacuous : List.Forall (static_fits bar_sizes bar_sizes) [(heat_push, bar_load); (heat_push, bar_load)] /\ static_sound 3 3 bar_sizes couple_start.
Proof. exact (conj (Forall_cons _ couple_fits (Forall_cons _ couple_fits (Forall_nil _))) couple_start_sound). Qed.
Theorem C81_dynamic_run : forall StT StS (fT : functional StT) nT cT cTm bcT targetT kind (fS : functional StS) nS cS cSm bcS targetS it enS tsizeT tsizeS (loads : list (push * push)) s,
  ready fT nT cT tsizeT -> ready_for fT nT tsizeT 0 nT cTm -> ready fS nS cS tsizeS -> tsizeT 2%nat = nS -> tsizeS 2%nat = nT -> ready_for fS nS tsizeS 0 nS cSm ->
  List.Forall (moving_fits it enS tsizeT tsizeS) loads -> moving_sound nT nS s ->
  exists l, coupled_run (moving_step fT nT cT cTm bcT targetT kind fS nS cS cSm bcS targetS it enS) loads s = Ok l /\
    List.Forall (fun p => moving_sound nT nS (fst p)) l /\ length l = length loads.
Proof. exact (fun StT StS fT nT cT cTm bcT targetT kind fS nS cS cSm bcS targetS it enS tsizeT tsizeS loads s RT RTm RS H1 H2 RSm =>
  @moving_run_ok StT StS fT nT cT cTm bcT targetT kind fS nS cS cSm bcS targetS it enS tsizeT tsizeS RT RTm RS H1 H2 RSm loads s). Qed.
Print Assumptions C81_dynamic_run.

(** a coupled run is a run of each module alone: of the thermal one with the displacement before each step as its first parameter, of the solid with the
    temperature after each step; so that C73, C76 and C79 apply to each *)
Theorem C81_heat_part : forall StT StS (fT : functional StT) nT cT cTm bcT targetT kind (fS : functional StS) nS cS bcS targetS (loads : list (push * load)) s l,
  coupled_run (static_step fT nT cT cTm bcT targetT kind fS nS cS bcS targetS) loads s = Ok l ->
  heat_run (heat_advance fT nT cT cTm bcT targetT kind) (heat_loads s_u fst loads s l) (c_heat s) = Ok (map (fun p => (c_heat (fst p), fst (snd p))) l).
Proof. exact (fun StT StS fT nT cT cTm bcT targetT kind fS nS cS bcS targetS loads s l =>
  @coupled_heat_run StT fT nT cT cTm bcT targetT kind (state (St := StS)) (push * load) s_u fst (fun ld T => step fS nS cS bcS targetS (with_temperature T (snd ld))) loads s l). Qed.
Print Assumptions C81_heat_part.
Theorem C81_heat_part_dynamic : forall StT StS (fT : functional StT) nT cT cTm bcT targetT kind (fS : functional StS) nS cS cSm bcS targetS it enS (loads : list (push * push)) s l,
  coupled_run (moving_step fT nT cT cTm bcT targetT kind fS nS cS cSm bcS targetS it enS) loads s = Ok l ->
  heat_run (heat_advance fT nT cT cTm bcT targetT kind) (heat_loads d_u fst loads s l) (c_heat s) = Ok (map (fun p => (c_heat (fst p), fst (snd p))) l).
Proof. exact (fun StT StS fT nT cT cTm bcT targetT kind fS nS cS cSm bcS targetS it enS loads s l =>
  @coupled_heat_run StT fT nT cT cTm bcT targetT kind (motion (St := StS)) (push * push) d_u fst
    (fun ld T => dynamic_step fS nS cS cSm bcS targetS it enS (with_parameter T (snd ld))) loads s l). Qed.
Print Assumptions C81_heat_part_dynamic.
Theorem C81_solid_part : forall StT StS (fT : functional StT) nT cT cTm bcT targetT kind (fS : functional StS) nS cS bcS targetS (loads : list (push * load)) s l,
  coupled_run (static_step fT nT cT cTm bcT targetT kind fS nS cS bcS targetS) loads s = Ok l ->
  run_steps fS nS cS bcS targetS (solid_loads (fun T ld => with_temperature T (snd ld)) loads l) (c_solid s) = Ok (map (fun p => c_solid (fst p)) l).
Proof. exact @static_solid_run. Qed.
Print Assumptions C81_solid_part.
Theorem C81_solid_part_dynamic : forall StT StS (fT : functional StT) nT cT cTm bcT targetT kind (fS : functional StS) nS cS cSm bcS targetS it enS (loads : list (push * push)) s l,
  coupled_run (moving_step fT nT cT cTm bcT targetT kind fS nS cS cSm bcS targetS it enS) loads s = Ok l ->
  dynamic_run fS nS cS cSm bcS targetS it enS (solid_loads (fun T ld => with_parameter T (snd ld)) loads l) (c_solid s) = Ok (map (fun p => c_solid (fst p)) l).
Proof. exact @moving_solid_run. Qed.
Print Assumptions C81_solid_part_dynamic.
