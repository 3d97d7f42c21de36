(** * Facts about every history of calls, including forward steps taken again after going back

    Nothing new is modelled here: the definitions are those of Ledger.v
    (base_physics.{hpp,cpp}, solid_mechanics.hpp:1243-1404, heat_transfer.hpp:333-374, 840-921). *)
From Coq Require Import String List ZArith Reals Lra Lia Bool.
From Verif Require Import Prelude Ledger LedgerDisk.
Import ListNotations.
Open Scope R_scope.

Section All.
Variable V : Type.
Local Notation fields := (string -> V).

(** Specification of a clock schedule: [dts] the steps known so far, [k] the current cycle.  A forward step taken
    at the frontier may have any length; one taken again has the length it had before. *)
Fixpoint schedule (dts : list R) (k : nat) (ops : list (op V)) : Prop :=
  match ops with
  | [] => True
  | OAdvance dt _ :: r =>
      match nth_error dts k with
      | Some d => dt = d /\ schedule dts (S k) r
      | None => schedule (dts ++ [dt]) (S k) r
      end
  | OReverse :: r => (0 < k)%nat /\ schedule dts (pred k) r
  | OResetAdjoint :: r => schedule dts (length dts) r
  | OSetState _ _ :: r => schedule dts k r
  | OReset c _ _ :: r => False
  end.

(** The known steps and the cycle at the end of a schedule. *)
Fixpoint sched_end (dts : list R) (k : nat) (ops : list (op V)) : list R * nat :=
  match ops with
  | [] => (dts, k)
  | OAdvance dt _ :: r =>
      match nth_error dts k with
      | Some d => sched_end dts (S k) r
      | None => sched_end (dts ++ [dt]) (S k) r
      end
  | OReverse :: r => sched_end dts (pred k) r
  | OResetAdjoint :: r => sched_end dts (length dts) r
  | OSetState _ _ :: r => sched_end dts k r
  | OReset c _ _ :: r => (dts, k)
  end.

(** ** Every history whatsoever *)
Definition bounds (s : ledger V) : Prop :=
  Z.of_nat (length (l_steps V s)) = (l_max_cycle V s - l_min_cycle V s)%Z /\
  (l_min_cycle V s <= l_cycle V s <= l_max_cycle V s)%Z.

Lemma bounds_reverse cfg s s' : bounds s -> reverse V cfg s = Ok s' -> bounds s'.
Proof.
  unfold reverse. intros [H1 H2] E.
  destruct (Z.leb_spec (l_cycle V s) (l_min_cycle V s)); [discriminate|].
  destruct (if lookahead cfg then _ else _); simpl in E; try discriminate.
  destruct (get_timestep V s (l_cycle V s - 1)); simpl in E; try discriminate.
  destruct (load_all V s (names cfg) _ _); simpl in E; try discriminate.
  inversion E; subst; clear E. unfold bounds; simpl. lia.
Qed.

Lemma bounds_exec cfg o s s' : bounds s -> exec V cfg o s = Ok s' -> bounds s'.
Proof.
  intros H E. destruct o as [dt f| | |n v|c t f]; simpl in E.
  - inversion E; subst; clear E. destruct H as [H1 H2]. unfold bounds, advance; simpl.
    destruct (Z.ltb_spec (l_max_cycle V s) (l_cycle V s + 1)); [rewrite app_length; simpl|]; lia.
  - eapply bounds_reverse; eauto.
  - inversion E; subst; clear E. destruct H as [H1 H2]. unfold bounds; simpl. lia.
  - unfold set_state in E. destruct (existsb _ _); [|discriminate].
    destruct (vec_set _ _ _); simpl in E; try discriminate.
    inversion E; subst; clear E. exact H.
  - inversion E; subst; clear E. unfold bounds; simpl. lia.
Qed.

Lemma bounds_run cfg ops s s' : bounds s -> run V cfg ops s = Ok s' -> bounds s'.
Proof.
  revert s. induction ops as [|o r IH]; intros s H E; simpl in E.
  - inversion E; now subst.
  - destruct (exec V cfg o s) as [s1| |] eqn:E1; simpl in E; try discriminate.
    eapply IH; [|exact E]. eapply bounds_exec; eauto.
Qed.

Lemma bounds_reset cfg c t f : bounds (reset V cfg c t f).
Proof. unfold bounds, reset; simpl. lia. Qed.

(** One time step is known for every cycle between the first and the furthest, no more. *)
Lemma every_history cfg ops c t f s :
  run V cfg ops (reset V cfg c t f) = Ok s ->
  Z.of_nat (length (l_steps V s)) = (l_max_cycle V s - l_min_cycle V s)%Z /\
  (l_min_cycle V s <= l_cycle V s <= l_max_cycle V s)%Z.
Proof. intros E. exact (bounds_run cfg ops _ _ (bounds_reset cfg c t f) E). Qed.

(** ** Re-running with the same steps *)
Definition clock (s : ledger V) (t : R) (dts : list R) (k : nat) : Prop :=
  l_min_cycle V s = 0%Z /\ l_min_time V s = t /\ l_steps V s = dts /\ (k <= length dts)%nat /\
  l_cycle V s = Z.of_nat k /\ l_max_cycle V s = Z.of_nat (length dts) /\
  l_time V s = t + Rsum (firstn k dts) /\ l_max_time V s = t + Rsum dts.

Lemma clock_reverse cfg s s' t dts k :
  clock s t dts k -> reverse V cfg s = Ok s' -> (0 < k)%nat /\ clock s' t dts (pred k).
Proof.
  intros (H1 & H2 & H3 & H4 & H5 & H6 & H7 & H8). unfold reverse. intros E.
  destruct (Z.leb_spec (l_cycle V s) (l_min_cycle V s)); [discriminate|].
  destruct k as [|k]; [lia|]. split; [lia|]. simpl pred.
  destruct (if lookahead cfg then _ else _); simpl in E; try discriminate.
  replace (l_cycle V s - 1)%Z with (Z.of_nat k) in E by lia.
  destruct (nth_error dts k) as [dt|] eqn:Hn; [|apply nth_error_None in Hn; lia].
  assert (G : get_timestep V s (Z.of_nat k) = Ok dt).
  { unfold get_timestep. rewrite H3.
    destruct (Z.ltb_spec (Z.of_nat k) 0); [lia|].
    destruct (Z.ltb_spec (Z.of_nat (length dts)) (Z.of_nat k)); [lia|].
    destruct (Z.ltb_spec (Z.of_nat k) (Z.of_nat (length dts))); [|lia].
    unfold vec_get. destruct (Z.ltb_spec (Z.of_nat k) 0); [lia|]. now rewrite Nat2Z.id, Hn. }
  rewrite G in E. simpl in E.
  destruct (load_all V s (names cfg) _ _); simpl in E; try discriminate.
  inversion E; subst; clear E. unfold clock; simpl. repeat split; auto; try lia.
  rewrite H7, (firstn_S_nth _ _ _ _ Hn), Rsum_app. simpl. lra.
Qed.

Lemma clock_run cfg ops : (forall t dt, stage_time cfg t dt = t + dt) ->
  forall s s' t dts k, clock s t dts k -> schedule dts k ops -> run V cfg ops s = Ok s' ->
  clock s' t (fst (sched_end dts k ops)) (snd (sched_end dts k ops)).
Proof.
  intros Hst. induction ops as [|o r IH]; intros s s' t dts k C Sch E.
  - simpl in *. inversion E; now subst.
  - cbn [run] in E. destruct (exec V cfg o s) as [s1| |] eqn:E1; cbn [bindO] in E; try discriminate.
    destruct o as [dt f| | |n v|c t' f]; cbn [exec] in E1; cbn [schedule sched_end] in *.
    + pose proof C as (H1 & H2 & H3 & H4 & H5 & H6 & H7 & H8).
      injection E1 as E1.
      destruct (nth_error dts k) as [d|] eqn:Hn.
      * destruct Sch as [-> Sch]. assert (k < length dts)%nat by (apply nth_error_Some; congruence).
        eapply IH; [|exact Sch|exact E]. subst s1. unfold clock, advance; cbn [l_time l_max_time l_min_time l_cycle l_max_cycle l_min_cycle l_steps].
        destruct (Z.ltb_spec (l_max_cycle V s) (l_cycle V s + 1)); [lia|].
        repeat split; auto; try lia.
        rewrite Hst, H7, (firstn_S_nth _ _ _ _ Hn), Rsum_app. simpl. lra.
      * apply nth_error_None in Hn. assert (Ek : k = length dts) by lia.
        eapply IH; [|exact Sch|exact E]. subst s1. unfold clock, advance; cbn [l_time l_max_time l_min_time l_cycle l_max_cycle l_min_cycle l_steps].
        destruct (Z.ltb_spec (l_max_cycle V s) (l_cycle V s + 1)); [|lia].
        rewrite app_length. cbn [length].
        assert (F : firstn (S k) (dts ++ [dt]) = dts ++ [dt])
          by (apply firstn_all2; rewrite app_length; cbn [length]; lia).
        assert (F' : firstn k dts = dts) by (apply firstn_all2; lia).
        rewrite F, Hst, H7, F', Rsum_app. change (Rsum [dt]) with (dt + 0).
        repeat split; auto; try lia; try lra. now rewrite H3.
    + destruct (clock_reverse cfg s s1 t dts k C E1) as [Hk C1].
      destruct Sch as [_ Sch]. eapply IH; eauto.
    + injection E1 as E1. eapply IH; [|exact Sch|exact E]. subst s1.
      destruct C as (H1 & H2 & H3 & H4 & H5 & H6 & H7 & H8).
      unfold clock, reset_adjoint; cbn. repeat split; auto. now rewrite firstn_all.
    + unfold set_state in E1. destruct (existsb _ _); [|discriminate].
      destruct (vec_set _ _ _); cbn [bindO] in E1; try discriminate.
      injection E1 as E1. eapply IH; [|exact Sch|exact E]. subst s1. exact C.
    + destruct Sch.
Qed.

Lemma rerun_clock cfg ops t f s :
  good_config cfg -> schedule [] 0 ops ->
  run V cfg ops (reset V cfg 0 t f) = Ok s ->
  l_cycle V s = Z.of_nat (snd (sched_end [] 0 ops)) /\
  l_time V s = t + Rsum (firstn (snd (sched_end [] 0 ops)) (fst (sched_end [] 0 ops))) /\
  l_steps V s = fst (sched_end [] 0 ops) /\
  l_max_time V s = t + Rsum (fst (sched_end [] 0 ops)).
Proof.
  intros [_ Hst] Sch E.
  assert (C : clock (reset V cfg 0 t f) t [] 0).
  { unfold clock, reset; simpl. repeat split; auto; lra. }
  pose proof (clock_run cfg ops Hst _ _ _ _ _ C Sch E) as (H1 & H2 & H3 & H4 & H5 & H6 & H7 & H8).
  auto.
Qed.

(** ** The interval of the step being undone *)
Lemma reverse_interval cfg s s' : reverse V cfg s = Ok s' -> l_end_step V s' = l_time V s.
Proof.
  unfold reverse. intros E.
  destruct (Z.leb_spec (l_cycle V s) (l_min_cycle V s)); [discriminate|].
  destruct (if lookahead cfg then _ else _); simpl in E; try discriminate.
  destruct (get_timestep V s (l_cycle V s - 1)); simpl in E; try discriminate.
  destruct (load_all V s (names cfg) _ _); simpl in E; try discriminate.
  inversion E; now subst.
Qed.

Lemma run_app cfg a b s s1 : run V cfg a s = Ok s1 -> run V cfg (a ++ b) s = run V cfg b s1.
Proof.
  revert s. induction a as [|o a IH]; intros s E; simpl in *.
  - inversion E; now subst.
  - destruct (exec V cfg o s); simpl in *; try discriminate. now apply IH.
Qed.

Lemma backward_interval cfg (steps : list (R * fields)) m t f s :
  good_config cfg -> (m < length steps)%nat ->
  run V cfg (map (adv V) steps ++ repeat OReverse (S m)) (reset V cfg 0 t f) = Ok s ->
  l_time V s = t + Rsum (firstn (length steps - S m) (map fst steps)) /\
  l_end_step V s = t + Rsum (firstn (length steps - m) (map fst steps)).
Proof.
  intros Hg Hm E.
  destruct (forward_backward V cfg steps (S m) t f Hg Hm) as (s' & E' & _ & Ht & _).
  rewrite E in E'. inversion E'; subst s'. split; [exact Ht|].
  destruct (forward_backward V cfg steps m t f Hg (Nat.lt_le_incl _ _ Hm)) as (s1 & E1 & _ & Ht1 & _).
  replace (repeat (@OReverse V) (S m)) with (repeat (@OReverse V) m ++ [OReverse]) in E
    by (clear; induction m as [|m IH]; [reflexivity|cbn [repeat app]; f_equal; exact IH]).
  rewrite app_assoc, (run_app _ _ _ _ _ E1) in E. simpl in E.
  destruct (reverse V cfg s1) as [s2| |] eqn:E2; simpl in E; try discriminate.
  inversion E; subst s2. rewrite (reverse_interval _ _ _ E2). exact Ht1.
Qed.

(** ** Resets *)
Lemma reset_forgets cfg c t f past : forall ops s0 s1,
  run V cfg past s0 = Ok s1 ->
  run V cfg (past ++ OReset c t f :: ops) s0 = run V cfg (OReset c t f :: ops) s0.
Proof.
  induction past as [|o past IH]; intros ops s0 s1 E; [reflexivity|].
  cbn [run app] in *. destruct (exec V cfg o s0) as [s| |]; simpl in E |- *; try discriminate.
  rewrite (IH ops s s1 E). reflexivity.
Qed.

Lemma out_of_range_query cfg t f n k :
  In n (names cfg) -> good_config cfg -> (k < 0 \/ 1 <= k)%Z ->
  load_state V (reset V cfg 0 t f) n k = UB.
Proof.
  intros Hn [Hnd _] Hk. unfold load_state, reset; simpl.
  rewrite ckpt_push_all_in by assumption. unfold vec_get.
  destruct (Z.ltb_spec k 0); [reflexivity|].
  destruct (Z.to_nat k) as [|[|j]] eqn:E; [lia| |]; reflexivity.
Qed.

End All.
