(** Property theorems C01-C05, C46: time, cycle, time steps and checkpoints. *)
From Coq Require Import String List ZArith Reals Lra Lia.
From Verif Require Import Prelude Ledger LedgerDisk Timestep LedgerAll.
Import ListNotations.
Open Scope R_scope.

(** C01.  [steps]: the forward steps (dt, fields computed); then [m] backward steps. *)
Theorem C01_time_and_cycle_forward_backward :
  forall (V : Type) (cfg : config) (steps : list (R * (string -> V))) (m : nat) (t : R) (f : string -> V),
  good_config cfg -> (m <= length steps)%nat ->
  exists s, run V cfg (map (adv V) steps ++ repeat OReverse m) (reset V cfg 0 t f) = Ok s /\
    l_cycle V s = Z.of_nat (length steps - m) /\
    l_time V s = t + Rsum (firstn (length steps - m) (map fst steps)) /\
    (forall n k, In n (names cfg) -> (k <= length steps)%nat ->
       load_state V s n (Z.of_nat k) = Ok (nth k (f :: map snd steps) f n)).
Proof. exact forward_backward. Qed.
Print Assumptions C01_time_and_cycle_forward_backward.

Theorem C01_no_reverse_before_start :
  forall (V : Type) (cfg : config) (steps : list (R * (string -> V))) (t : R) (f : string -> V),
  good_config cfg ->
  run V cfg (map (adv V) steps ++ repeat OReverse (S (length steps))) (reset V cfg 0 t f) = Refused.
Proof. exact too_many_reverses. Qed.
Print Assumptions C01_no_reverse_before_start.

(** C01/C02.  Any mix of forward steps taken at the frontier, backward steps, resets and
    state edits: the module behaves as the notebook (specification in Ledger.v). *)
Theorem C01_C02_history_refines_notebook_partial :
  forall (V : Type) (cfg : config) (t : R) (f : string -> V) (ops : list (op V)) (e : option (notebook V)),
  good_config cfg ->
  nb_run V cfg {| nb_t0 := t; nb_page0 := f; nb_lines := []; nb_at := O; nb_live := f |} ops e ->
  match e with
  | Some b => exists s, run V cfg ops (reset V cfg 0 t f) = Ok s /\ agrees V cfg s b
  | None => run V cfg ops (reset V cfg 0 t f) = Refused
  end.
Proof. exact ledger_refines_notebook. Qed.
Print Assumptions C01_C02_history_refines_notebook_partial.

Example ex_configs : good_config solid_dynamic /\ good_config solid_quasistatic /\ good_config (heat BackwardEuler).
Proof. split; [exact good_solid_dynamic|split; [exact good_solid_quasistatic|now apply good_heat]]. Qed.

(** A concrete dynamic run: set the initial velocity, two steps, an edit, one step back. *)
Example ex_history : exists b,
  nb_run Z solid_dynamic {| nb_t0 := 0; nb_page0 := fun _ => 0%Z; nb_lines := []; nb_at := O; nb_live := fun _ => 0%Z |}
    [OSetState "velocity"%string 7%Z; OAdvance 1 (fun _ => 1%Z); OAdvance (1/2) (fun _ => 2%Z);
     OSetState "displacement"%string 5%Z; OReverse] (Some b) /\ nb_time Z b = 1 /\ nb_at Z b = 1%nat /\
    option_map (fun p => p "velocity"%string) (nb_page Z b 0) = Some 7%Z /\
    option_map (fun p => p "displacement"%string) (nb_page Z b 2) = Some 5%Z.
Proof.
  eexists. split; [|split; [|split; [|split]]].
  - eapply NBCons; [apply NBSetState; simpl; tauto|].
    eapply NBCons; [apply NBAdvance; reflexivity|].
    eapply NBCons; [apply NBAdvance; reflexivity|].
    eapply NBCons; [apply NBSetState; simpl; tauto|].
    eapply NBCons; [eapply NBReverse; reflexivity|].
    apply NBNil.
  - unfold nb_time. simpl. lra.
  - reflexivity.
  - reflexivity.
  - reflexivity.
Qed.

(** C01, forward steps taken again after going back: the clock is right whenever a step that is repeated
    has the length it had the first time ([schedule] in LedgerAll.v says exactly that). *)
Theorem C01_rerun_same_steps :
  forall (V : Type) (cfg : config) (ops : list (op V)) (t : R) (f : string -> V) (s : ledger V),
  good_config cfg -> schedule V [] 0 ops ->
  run V cfg ops (reset V cfg 0 t f) = Ok s ->
  l_cycle V s = Z.of_nat (snd (sched_end V [] 0 ops)) /\
  l_time V s = t + Rsum (firstn (snd (sched_end V [] 0 ops)) (fst (sched_end V [] 0 ops))) /\
  l_steps V s = fst (sched_end V [] 0 ops) /\
  l_max_time V s = t + Rsum (fst (sched_end V [] 0 ops)).
Proof. exact rerun_clock. Qed.
Print Assumptions C01_rerun_same_steps.

Example ex_rerun :
  let ops := [OAdvance 1 (fun _ => 1%Z); OAdvance 2 (fun _ => 2%Z); OReverse; OAdvance 2 (fun _ => 3%Z);
              OAdvance 4 (fun _ => 3%Z); OReverse] in
  schedule Z [] 0 ops /\ sched_end Z [] 0 ops = ([1; 2; 4], 2%nat) /\
  exists s, run Z solid_quasistatic ops (reset Z solid_quasistatic 0 0 (fun _ => 0%Z)) = Ok s.
Proof. simpl. repeat split; try lia. eexists; reflexivity. Qed.

(** C01, every history whatsoever, any start cycle: exactly one time step is known per cycle between the first
    and the furthest. *)
Theorem C01_one_step_per_cycle :
  forall (V : Type) (cfg : config) (ops : list (op V)) (c : Z) (t : R) (f : string -> V) (s : ledger V),
  run V cfg ops (reset V cfg c t f) = Ok s ->
  Z.of_nat (length (l_steps V s)) = (l_max_cycle V s - l_min_cycle V s)%Z /\
  (l_min_cycle V s <= l_cycle V s <= l_max_cycle V s)%Z.
Proof. exact every_history. Qed.
Print Assumptions C01_one_step_per_cycle.

(** C01.  During a backward step, time() is the start of the undone step, and the timestep sensitivities (derivatives of the
    residual in parameters and shape) are evaluated at its end. *)
Theorem C01_backward_interval :
  forall (V : Type) (cfg : config) (steps : list (R * (string -> V))) (m : nat) (t : R) (f : string -> V) s,
  good_config cfg -> (m < length steps)%nat ->
  run V cfg (map (adv V) steps ++ repeat OReverse (S m)) (reset V cfg 0 t f) = Ok s ->
  l_time V s = t + Rsum (firstn (length steps - S m) (map fst steps)) /\
  l_end_step V s = t + Rsum (firstn (length steps - m) (map fst steps)).
Proof. exact backward_interval. Qed.
Print Assumptions C01_backward_interval.

(** C01 refuted for arbitrary interleavings: forward, back, forward with another dt, back does not return to the
    initial time. *)
Theorem C01_arbitrary_interleaving_refuted :
  exists (ops : list (op Z)) s,
    run Z (heat BackwardEuler) ops (reset Z (heat BackwardEuler) 0 0 (fun _ => 0%Z)) = Ok s /\
    ops = [OAdvance 1 (fun _ => 1%Z); OReverse; OAdvance 2 (fun _ => 2%Z); OReverse] /\
    l_cycle Z s = 0%Z /\ l_time Z s <> 0.
Proof.
  exists [OAdvance 1 (fun _ => 1%Z); OReverse; OAdvance 2 (fun _ => 2%Z); OReverse].
  eexists; split; [reflexivity|]; split; [reflexivity|]. split; [reflexivity|].
  simpl; unfold time_after; simpl. lra.
Qed.
Print Assumptions C01_arbitrary_interleaving_refuted.

(** C02 refuted after a re-run without reset: the checkpoint of cycle 1 is the one of the first run. *)
Theorem C02_checkpoint_after_rerun_refuted :
  exists (ops : list (op Z)) s,
    run Z (heat BackwardEuler) ops (reset Z (heat BackwardEuler) 0 0 (fun _ => 0%Z)) = Ok s /\
    ops = [OAdvance 1 (fun _ => 1%Z); OReverse; OAdvance 1 (fun _ => 2%Z)] /\
    l_cycle Z s = 1%Z /\ l_fields Z s "temperature"%string = 2%Z /\
    load_state Z s "temperature"%string 1 = Ok 1%Z.
Proof.
  exists [OAdvance 1 (fun _ => 1%Z); OReverse; OAdvance 1 (fun _ => 2%Z)].
  eexists; repeat split; reflexivity.
Qed.
Print Assumptions C02_checkpoint_after_rerun_refuted.

(** C02 refuted for requests out of range: the cycle is not checked. *)
Theorem C02_out_of_range_query_refuted :
  forall (V : Type) (cfg : config) (t : R) (f : string -> V) n k,
  In n (names cfg) -> good_config cfg -> (k < 0 \/ 1 <= k)%Z ->
  load_state V (reset V cfg 0 t f) n k = UB.
Proof. exact out_of_range_query. Qed.
Print Assumptions C02_out_of_range_query_refuted.

(** C02 refuted for the velocity of a quasi-static solid: setState indexes an empty vector. *)
Theorem C02_quasistatic_velocity_refuted :
  forall (V : Type) (t : R) (f : string -> V) (v : V),
  set_state V solid_quasistatic "velocity" v (reset V solid_quasistatic 0 t f) = UB.
Proof. reflexivity. Qed.
Print Assumptions C02_quasistatic_velocity_refuted.

(** C03.  With queries for the current cycle only, disk and memory give the same answers. *)
Theorem C03_disk_agrees_on_current_cycle_partial :
  forall (V : Type) (cfg : config) (ops : list (qop V)) (t : R) (f : string -> V),
  good_config cfg -> current_queries V (names cfg) 0 ops ->
  answers_disk V (names cfg) ops (d_init V f) = answers_memory V cfg ops (reset V cfg 0 t f).
Proof. exact disk_memory_current. Qed.
Print Assumptions C03_disk_agrees_on_current_cycle_partial.

Example ex_current_queries :
  current_queries Z (names (heat BackwardEuler)) 0
   [QStep 1 (fun _ => 1%Z); QLoad "temperature" 1; QLoad "temperature_rate" 1; QStep 1 (fun _ => 2%Z); QLoad "temperature" 2].
Proof. simpl. tauto. Qed.

(** C03 refuted in general: the query for an earlier cycle returns the current state. *)
Theorem C03_disk_query_refuted :
  exists (ops : list (qop Z)) (f : string -> Z),
    answers_memory Z (heat BackwardEuler) ops (reset Z (heat BackwardEuler) 0 0 f) = [Ok 1%Z] /\
    answers_disk Z (names (heat BackwardEuler)) ops (d_init Z f) = [Ok 2%Z].
Proof.
  exists [QStep 1 (fun _ => 1%Z); QStep 1 (fun _ => 2%Z); QLoad "temperature" 1], (fun _ => 0%Z).
  split; reflexivity.
Qed.
Print Assumptions C03_disk_query_refuted.

(** C03, exact effect of the disk query, for every state: the answer never depends on the requested cycle
    and the current fields are replaced by the file's. *)
Theorem C03_disk_get_states_effect_refuted :
  forall (V : Type) (ns : list string) (k : Z) (s : dledger V) (f : string -> V),
  d_files V s k = Some f ->
  exists s', d_get_states V ns k s = Ok (d_fields V s, s') /\
    (forall n, In n ns -> d_fields V s' n = f n) /\
    (forall n, ~ In n ns -> d_fields V s' n = d_fields V s n).
Proof. exact disk_get_states_effect. Qed.
Print Assumptions C03_disk_get_states_effect_refuted.

(** ... hence a backward step in disk mode never brings back the checkpointed fields. *)
Theorem C03_disk_reverse_keeps_fields_refuted :
  forall (V : Type) (ns : list string) (s s' : dledger V),
  d_reverse_fields V ns s = Ok s' -> forall n, d_fields V s' n = d_fields V s n.
Proof. exact disk_reverse_keeps_fields. Qed.
Print Assumptions C03_disk_reverse_keeps_fields_refuted.

(** C03/C05 refuted: the cache survives a reset. *)
Theorem C03_C05_disk_cache_after_reset_refuted :
  exists (ns : list string) (f0 f1 f2 : string -> Z) s s2 v v2 n,
    d_load Z ns n 1 (d_advance Z f1 (d_init Z f0)) = Ok (v, s) /\
    d_load Z ns n 1 (d_advance Z f2 (d_reset Z 0 f0 s)) = Ok (v2, s2) /\
    v = f1 n /\ v2 <> f2 n.
Proof.
  exists ["temperature"%string], (fun _ => 0%Z), (fun _ => 1%Z), (fun _ => 2%Z).
  do 4 eexists. exists "temperature"%string. repeat split; try reflexivity. discriminate.
Qed.
Print Assumptions C03_C05_disk_cache_after_reset_refuted.

(** C04.  Clock and time steps of a forward run do not depend on the start cycle. *)
Theorem C04_forward_clock_any_start_partial :
  forall (V : Type) (cfg : config) (steps : list (R * (string -> V))) (c : Z) (t : R) (f : string -> V),
  good_config cfg ->
  exists s, run V cfg (map (fun p => OAdvance (fst p) (snd p)) steps) (reset V cfg c t f) = Ok s /\
    l_cycle V s = (c + Z.of_nat (length steps))%Z /\ l_time V s = t + Rsum (map fst steps) /\
    l_steps V s = map fst steps /\ l_max_cycle V s = l_cycle V s /\ l_max_time V s = l_time V s /\
    l_min_cycle V s = c /\ l_min_time V s = t.
Proof. exact forward_clock. Qed.
Print Assumptions C04_forward_clock_any_start_partial.

(** C04 refuted: starting at cycle 1, the first backward step is refused in solid mechanics, is undefined
    in heat transfer, and the initial state cannot be queried by its cycle number. *)
Theorem C04_restart_cycle_refuted :
  forall (V : Type) (t dt : R) (f g : string -> V),
  run V solid_quasistatic [OAdvance dt g; OReverse] (reset V solid_quasistatic 1 t f) = Refused /\
  run V (heat BackwardEuler) [OAdvance dt g; OReverse] (reset V (heat BackwardEuler) 1 t f) = UB /\
  load_state V (reset V solid_quasistatic 1 t f) "displacement" 1 = UB.
Proof. repeat split; reflexivity. Qed.
Print Assumptions C04_restart_cycle_refuted.

(** C05, in-memory bookkeeping: after a reset nothing of the past is visible. *)
Theorem C05_reset_forgets_partial :
  forall (V : Type) (cfg : config) (c : Z) (t : R) (f : string -> V) (past ops : list (op V)) (s0 s1 : ledger V),
  run V cfg past s0 = Ok s1 ->
  run V cfg (past ++ OReset c t f :: ops) s0 = run V cfg (OReset c t f :: ops) s0.
Proof. exact reset_forgets. Qed.
Print Assumptions C05_reset_forgets_partial.

(** C46.  The clock after one step. *)
Theorem C46_exact_clock_partial :
  forall (m : integrator) (t dt : R), exact_clock m = true -> time_after m t dt = t + dt.
Proof. exact time_after_exact. Qed.
Print Assumptions C46_exact_clock_partial.

Theorem C46_clock_refuted :
  forall (m : integrator) (t dt : R), exact_clock m = false -> dt <> 0 -> time_after m t dt <> t + dt.
Proof. exact time_after_inexact. Qed.
Print Assumptions C46_clock_refuted.

Theorem C46_forward_euler_clock_refuted :
  forall V (steps : list (R * (string -> V))) c t f s,
  run V (heat ForwardEuler) (map (fun p => OAdvance (fst p) (snd p)) steps) (reset V (heat ForwardEuler) c t f) = Ok s ->
  l_time V s = t.
Proof. exact forward_euler_clock_stands_still. Qed.
Print Assumptions C46_forward_euler_clock_refuted.
