(** * C53: the driver's time loop *)
From Coq Require Import String List ZArith Reals Lra.
Import ListNotations.
From Verif Require Import Prelude Ledger Driver.
Local Open Scope R_scope.

(** ** every run with a positive dt and a start before t_final stops, having taken full steps and a positive last one *)
Theorem C53_stops : forall t_final dt t, 0 < dt -> t < t_final -> exists n steps, drive n t_final dt t = Some steps.
Proof. exact drive_terminates. Qed.
Print Assumptions C53_stops.
Theorem C53_steps : forall t_final dt, 0 < dt -> forall n t steps, t < t_final -> drive n t_final dt t = Some steps ->
  exists m last, steps = repeat dt m ++ [last] /\ 0 < last <= dt /\
    (t + Rsum steps = t_final \/ (last = dt /\ t_final - / 10 ^ 8 * dt <= t + Rsum steps < t_final)).
Proof. exact drive_shape. Qed.
Print Assumptions C53_steps.
(** no time visited lies after t_final *)
Theorem C53_never_past_the_end : forall t_final dt t n steps, 0 < dt -> t < t_final -> drive n t_final dt t = Some steps ->
  (forall h, In h steps -> 0 < h <= dt) /\ forall k, t + Rsum (firstn k steps) <= t_final.
Proof. exact drive_times. Qed.
Print Assumptions C53_never_past_the_end.
Theorem C53_number_of_steps : forall t_final dt t n steps, 0 < dt -> t < t_final -> drive n t_final dt t = Some steps ->
  (INR (length steps) - 1) * dt < t_final - t <= INR (length steps) * dt + / 10 ^ 8 * dt.
Proof. exact drive_count. Qed.
Print Assumptions C53_number_of_steps.

(** ** the module's clock, the cycle numbers, the summary and the state files agree with the driver's times.
    [files] are the files present at the start, c the start cycle *)
Theorem C53_outputs_partial : forall V cfg (solve : ledger V -> R -> string -> V) t_final dt c t f files,
  good_config cfg -> 0 < dt -> t < t_final ->
  exists n steps summary disk z, drive n t_final dt t = Some steps /\
    main_loop V n cfg solve t_final dt t (reset V cfg c t f) files = Some (summary, disk, z) /\
    length summary = length steps /\ l_cycle V z = (c + Z.of_nat (length steps))%Z /\
    (forall k, (1 <= k <= length steps)%nat ->
      nth_error summary (k - 1) = Some (t + Rsum (firstn k steps)) /\
      exists s, disk (c + Z.of_nat k)%Z = Some s /\ l_time V s = t + Rsum (firstn k steps) /\ l_cycle V s = (c + Z.of_nat k)%Z) /\
    (forall c', (c' <= c)%Z -> disk c' = files c').
Proof. exact driver_run. Qed.
Print Assumptions C53_outputs_partial.
Example C53_runs : drive 3 1 (2 / 5) 0 = Some [2 / 5; 2 / 5; 1 / 5].
Proof. exact three_steps. Qed.

(** ** restarting from a saved cycle before the last takes exactly the remaining steps *)
Theorem C53_restart : forall t_final dt, 0 < dt -> forall n t steps k, t < t_final -> drive n t_final dt t = Some steps -> (k < length steps)%nat ->
  drive n t_final dt (t + Rsum (firstn k steps)) = Some (skipn k steps).
Proof. exact drive_restart. Qed.
Print Assumptions C53_restart.
(** restarting at or after the end still takes a step, of zero or negative length *)
Theorem C53_restart_at_end_refuted : forall t_final dt t n, 0 < dt -> t_final <= t -> drive (S n) t_final dt t = Some [t_final - t].
Proof. exact drive_past. Qed.
Print Assumptions C53_restart_at_end_refuted.
(** a dt that is zero or negative is accepted and the loop never ends *)
Theorem C53_nonpositive_dt_refuted : forall t_final dt, dt <= 0 -> forall n t, t < t_final -> drive n t_final dt t = None.
Proof. exact drive_never. Qed.
Print Assumptions C53_nonpositive_dt_refuted.

(** ** the module created is the one the input names, with its order and the mesh's dimension; nothing else is accepted *)
Theorem C53_module : forall dim b k o d, setup dim b = Ok (k, o, d) <->
  d = dim /\ (2 <= dim <= 3)%Z /\ (1 <= o <= 3)%Z /\ exists os, wanted b = Some (k, os) /\ forall x, In x os -> x = o.
Proof. exact setup_spec. Qed.
Print Assumptions C53_module.
Theorem C53_module_exists : forall dim b, setup dim b <> UB.
Proof. exact setup_no_ub. Qed.
Print Assumptions C53_module_exists.
Example C53_module_ex : setup 3 {| b_solid := Some 2%Z; b_heat := Some 2%Z; b_thermosolid := None |} = Ok (ThermoSolid, 2%Z, 3%Z).
Proof. reflexivity. Qed.
