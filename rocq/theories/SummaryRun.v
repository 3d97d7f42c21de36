(** * C70: combined statements and examples *)
From Coq Require Import String List ZArith Reals Lra Lia Bool.
From Verif Require Import Prelude Names Ledger Driver FEVector Summary.
Import ListNotations.
Local Open Scope string_scope.
Local Open Scope list_scope.
Local Open Scope R_scope.

(** every curve of [names] has one entry per save, the statistic of that save *)
Definition keeps (lp : field -> power -> R) (count : nat) (names : list string) (history : list (R * (string -> field))) (s : summary) : Prop :=
  s_ranks s = count /\ s_t s = map fst history /\ map fst (s_states s) = names /\
  forall n k, In n names -> In k ["l1norms"; "l2norms"; "linfnorms"; "avgs"; "mins"; "maxs"] ->
    exists c, curve s n k = Some c /\ length c = length history /\ forall i t x, nth_error history i = Some (t, x) -> nth_error c i = statistic lp k (x n).
Lemma records_keeps lp count names history s : records lp count names history s -> keeps lp count names history s.
Proof.
  intros (A & B & C & D). split; [exact A|]. split; [exact B|]. split; [exact C|]. intros n k Hn Hk. specialize (D n k Hn).
  assert (K : statistic lp k [] <> None) by (now apply statistic_known). destruct (statistic lp k []) eqn:E; [|contradiction]. eexists. split; [exact D|].
  rewrite <- E in K. destruct (one_per_save lp k n history K) as [L N]. split; [exact L|]. intros i t x Hi. exact (N i (t, x) Hi).
Qed.
Theorem keeps_all lp index_max count names t_final dt history : NoDup names -> ~ In "t"%string names -> dt <> 0 -> Rabs (t_final / dt) + 1 <= index_max ->
  exists s, summarize lp index_max count 0 names t_final dt history = Ok (Some s) /\ keeps lp count names history s.
Proof.
  intros ND T D I. assert (C : capacity_ok index_max t_final dt = true). { unfold capacity_ok. destruct (Req_EM_T dt 0); [contradiction|]. now destruct (Rle_dec _ _). }
  destruct (summary_records lp index_max count names t_final dt history ND T C) as (s & E & W). exists s. split; [exact E|]. now apply records_keeps.
Qed.
Theorem driver_keeps lp index_max count m name cfg solve t_final dt t s : 0 < dt -> t < t_final -> Rabs (t_final / dt) + 1 <= index_max ->
  exists fuel steps r, drive fuel t_final dt t = Some steps /\ driver_summary lp fuel index_max count 0 (state_names m name) cfg solve t_final dt t s = Some (Ok (Some r)) /\
    keeps lp count (state_names m name) (map (fun k => (t + Rsum (firstn k steps), l_fields field (after field cfg solve s (firstn k steps)))) (seq 1 (length steps))) r.
Proof.
  intros Hdt Ht I. destruct (drive_terminates t_final dt t Hdt Ht) as (fuel & steps & D). exists fuel, steps. destruct (module_names m name) as [ND T].
  assert (C : capacity_ok index_max t_final dt = true). { unfold capacity_ok. destruct (Req_EM_T dt 0); [lra|]. now destruct (Rle_dec _ _). }
  destruct (driver_records lp fuel index_max count _ cfg solve t_final dt t s steps ND T C D) as (r & E & W). exists r. split; [exact D|]. split; [exact E|]. now apply records_keeps.
Qed.
Theorem zero_step lp index_max count names t_final history : summarize lp index_max count 0 names t_final 0 history = UB.
Proof. unfold summarize, initialize_summary, capacity_ok. cbn [Nat.eqb negb]. destruct (Req_EM_T 0 0); [reflexivity|contradiction]. Qed.
Theorem clash lp index_max count t_final dt history n r : summarize lp index_max count 0 ("t" :: r) t_final dt history = UB /\ summarize lp index_max count 0 (n :: n :: r) t_final dt history = UB.
Proof.
  unfold summarize, initialize_summary. cbn [Nat.eqb negb]. destruct (capacity_ok _ _ _); [|now split]. split; [reflexivity|].
  cbn [create_groups app find]. destruct (String.eqb n "t"); [reflexivity|]. rewrite String.eqb_refl. reflexivity.
Qed.

(** a heat module on two ranks, two saves *)
Definition ex_lp (f : field) (p : power) : R := match p with P1 => 1 | P2 => 2 | Pinf => 3 end.
Definition ex_history : list (R * (string -> field)) := [(1, fun _ => [[4; 6]; [2]]); (2, fun _ => [[5]; [7; 9]])].
Theorem ex_summary : exists s, summarize ex_lp 10 2 0 (state_names (Heat true) "heat") 2 1 ex_history = Ok (Some s) /\ s_t s = [1; 2] /\
  curve s "heat_temperature" "avgs" = Some [Some 4; Some 7] /\ curve s "heat_temperature" "maxs" = Some [Some 6; Some 9] /\ curve s "heat_temperature" "mins" = Some [Some 2; Some 5] /\
  curve s "heat_temperature" "l2norms" = Some [Some 2; Some 2] /\ curve s "heat_temperature" "medians" = None.
Proof.
  assert (C : capacity_ok 10 2 1 = true). { unfold capacity_ok. destruct (Req_EM_T 1 0); [lra|]. destruct (Rle_dec _ _) as [_|N]; [reflexivity|]. exfalso. apply N. replace (2 / 1) with 2 by field. rewrite Rabs_right; lra. }
  destruct (module_names (Heat true) "heat") as [ND T]. destruct (summary_records ex_lp 10 2 _ 2 1 ex_history ND T C) as (s & E & (_ & W1 & _ & W2)). exists s. split; [exact E|].
  split; [exact W1|]. assert (I : In "heat_temperature"%string (state_names (Heat true) "heat")) by now left.
  rewrite !(W2 _ _ I). cbn -[Rmax Rmin avg INR]. repeat split; repeat f_equal; unfold avg, rsum; cbn; try lra;
  unfold Rmax, Rmin; repeat destruct (Rle_dec _ _); lra.
Qed.
(** what an entry says about the entries of the field, wherever they are stored *)
Theorem statistics_mean lp (f : field) : concat f <> [] ->
  statistic lp "avgs" f = Some (Some (fold_right Rplus 0 (concat f) / INR (length (concat f)))) /\
  (exists m, statistic lp "maxs" f = Some (Some m) /\ In m (concat f) /\ forall x, In x (concat f) -> x <= m) /\
  (exists m, statistic lp "mins" f = Some (Some m) /\ In m (concat f) /\ forall x, In x (concat f) -> m <= x).
Proof.
  intros NE. split; [|split].
  - change (statistic lp "avgs" f) with (Some (average f)). unfold average. rewrite <- avg_concat. now destruct (concat f).
  - change (statistic lp "maxs" f) with (Some (gmax f)). destruct (gmax f) as [m|] eqn:E.
    + exists m. split; [reflexivity|]. now apply gmax_spec.
    + exfalso. assert (X : forall l : list R, l <> [] -> exists m, In m l /\ forall x, In x l -> x <= m).
      { induction l as [|a l IH]; [easy|]. intros _. destruct l as [|b l]; [exists a; split; [now left|intros x [<-|[]]; lra]|].
        destruct IH as (m & I1 & I2); [discriminate|]. destruct (Rle_dec m a); [exists a|exists m]; (split; [now (left + right)|]); intros x [<-|Hx]; try lra; specialize (I2 x Hx); lra. }
      destruct (X _ NE) as (m & M). apply gmax_spec in M. congruence.
  - change (statistic lp "mins" f) with (Some (gmin f)). destruct (gmin f) as [m|] eqn:E.
    + exists m. split; [reflexivity|]. now apply gmin_spec.
    + exfalso. assert (X : forall l : list R, l <> [] -> exists m, In m l /\ forall x, In x l -> m <= x).
      { induction l as [|a l IH]; [easy|]. intros _. destruct l as [|b l]; [exists a; split; [now left|intros x [<-|[]]; lra]|].
        destruct IH as (m & I1 & I2); [discriminate|]. destruct (Rle_dec m a); [exists m|exists a]; (split; [now (left + right)|]); intros x [<-|Hx]; try lra; specialize (I2 x Hx); lra. }
      destruct (X _ NE) as (m & M). apply gmin_spec in M. congruence.
Qed.
