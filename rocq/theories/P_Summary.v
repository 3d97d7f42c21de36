(** * C70: the run summary *)
From Coq Require Import String List ZArith Reals Lra.
Import ListNotations.
From Verif Require Import Prelude Names Ledger Driver FEVector Summary SummaryRun.
Local Open Scope R_scope.

(** ** after one initialization and any number of saves the root holds the times and, per state and statistic, one value for each of them.
    [keeps] (SummaryRun.v) spells this out; [lp] is the norm *)
Theorem C70_curves : forall lp index_max count names t_final dt history, NoDup names -> ~ In "t"%string names -> dt <> 0 -> Rabs (t_final / dt) + 1 <= index_max ->
  exists s, summarize lp index_max count 0 names t_final dt history = Ok (Some s) /\ keeps lp count names history s.
Proof. exact keeps_all. Qed.
Print Assumptions C70_curves.
Example C70_two_saves : exists s, summarize ex_lp 10 2 0 (state_names (Heat true) "heat") 2 1 ex_history = Ok (Some s) /\ s_t s = [1; 2] /\
  curve s "heat_temperature" "avgs" = Some [Some 4; Some 7] /\ curve s "heat_temperature" "maxs" = Some [Some 6; Some 9] /\ curve s "heat_temperature" "mins" = Some [Some 2; Some 5] /\
  curve s "heat_temperature" "l2norms" = Some [Some 2; Some 2] /\ curve s "heat_temperature" "medians" = None.
Proof. exact ex_summary. Qed.
(** the entries are the mean, the largest and the smallest of all entries of the field *)
Theorem C70_statistics : forall lp (f : field), concat f <> [] ->
  statistic lp "avgs" f = Some (Some (fold_right Rplus 0 (concat f) / INR (length (concat f)))) /\
  (exists m, statistic lp "maxs" f = Some (Some m) /\ In m (concat f) /\ forall x, In x (concat f) -> x <= m) /\
  (exists m, statistic lp "mins" f = Some (Some m) /\ In m (concat f) /\ forall x, In x (concat f) -> m <= x).
Proof. exact statistics_mean. Qed.
Print Assumptions C70_statistics.
(** no other rank stores anything *)
Theorem C70_other_ranks : forall lp index_max count rank names t_final dt history, rank <> 0%nat -> summarize lp index_max count rank names t_final dt history = Ok None.
Proof. exact other_ranks. Qed.
Print Assumptions C70_other_ranks.
(** saving before initializing and initializing twice are refused *)
Theorem C70_misuse : forall lp index_max count names t_final dt states t s, save_summary lp 0 states t None = Refused /\ initialize_summary index_max count 0 names t_final dt (Some s) = Refused.
Proof. exact misuse. Qed.
Print Assumptions C70_misuse.

(** ** the summary of every run of the driver, for every module and name: entry k belongs to the module's fields after k + 1 steps *)
Theorem C70_driver : forall lp index_max count m name cfg solve t_final dt t s, 0 < dt -> t < t_final -> Rabs (t_final / dt) + 1 <= index_max ->
  exists fuel steps r, drive fuel t_final dt t = Some steps /\ driver_summary lp fuel index_max count 0 (state_names m name) cfg solve t_final dt t s = Some (Ok (Some r)) /\
    keeps lp count (state_names m name) (map (fun k => (t + Rsum (firstn k steps), l_fields field (after field cfg solve s (firstn k steps)))) (seq 1 (length steps))) r.
Proof. exact driver_keeps. Qed.
Print Assumptions C70_driver.
(** the names of a module's states never clash *)
Theorem C70_names : forall m name, NoDup (state_names m name) /\ ~ In "t"%string (state_names m name).
Proof. exact module_names. Qed.
Print Assumptions C70_names.

(** ** what is not guarded: a dt of zero, and a second module on the same DataStore, which can neither initialize nor save *)
Theorem C70_zero_dt_refuted : forall lp index_max count names t_final history, summarize lp index_max count 0 names t_final 0 history = UB.
Proof. exact zero_step. Qed.
Print Assumptions C70_zero_dt_refuted.
Theorem C70_second_module_refuted : forall lp index_max count names others t_final dt history n x t, NoDup names -> ~ In "t"%string names -> capacity_ok index_max t_final dt = true -> In n others -> ~ In n names ->
  exists s, summarize lp index_max count 0 names t_final dt history = Ok (Some s) /\ initialize_summary index_max count 0 others t_final dt (Some s) = Refused /\
    save_summary lp 0 (map (fun n => (n, x n)) others) t (Some s) = UB.
Proof. exact second_module. Qed.
Print Assumptions C70_second_module_refuted.
(** states of equal names, or named "t" *)
Theorem C70_clash_refuted : forall lp index_max count t_final dt history n r,
  summarize lp index_max count 0 ("t"%string :: r) t_final dt history = UB /\ summarize lp index_max count 0 (n :: n :: r) t_final dt history = UB.
Proof. exact clash. Qed.
Print Assumptions C70_clash_refuted.
