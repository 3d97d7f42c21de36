(** * Checkpoints on disk, start cycles, and runs out of order

    The same bookkeeping with checkpoint_to_disk = true, and the corollaries and counterexamples
    that concern the histories of calls. *)
From Coq Require Import String List ZArith Reals Lra Lia Bool.
From Verif Require Import Prelude Ledger.
Import ListNotations.
Open Scope R_scope.

Section Disk.
Variable V : Type.
Local Notation fields := (string -> V).

(** The bookkeeping that matters for disk checkpoints: current fields, cycle, the files written by
    StateManager::save (one per cycle, base_physics.cpp:201), and the one-entry cache
    cached_checkpoint_cycle_ / cached_checkpoint_states_ (base_physics.hpp:612-615). *)
Record dledger := {
  d_cycle : Z;
  d_fields : fields;
  d_files : Z -> option fields;
  d_cache : option (Z * fields);
}.

(** advanceTimestep with checkpoint_to_disk_ (solid_mechanics.hpp:1268-1271,
    heat_transfer.hpp:358-361): the cycle number grows and the state is written to disk. *)
Definition d_advance (fnew : fields) (s : dledger) : dledger :=
  {| d_cycle := d_cycle s + 1;
     d_fields := fnew;
     d_files := fun k => if (k =? d_cycle s + 1)%Z then Some fnew else d_files s k;
     d_cache := d_cache s |}.

(** getCheckpointedStates, disk branch (base_physics.cpp:364-370).  The returned map is filled with
    *copies of the current states* (FiniteElementState's copy constructor copies the values,
    finite_element_vector.hpp:87-90), then StateManager::loadCheckpointedStates
    (state_manager.cpp:94-115) reads the file into the *current* states.  A missing file makes the
    Sidre load fail. *)
Definition d_get_states (ns : list string) (k : Z) (s : dledger) : outcome (fields * dledger) :=
  match d_files s k with
  | None => Refused
  | Some f =>
    Ok (d_fields s,
        {| d_cycle := d_cycle s;
           d_fields := fun m => if existsb (String.eqb m) ns then f m else d_fields s m;
           d_files := d_files s;
           d_cache := d_cache s |})
  end.

(** loadCheckpointedState, disk branch (base_physics.cpp:336-349). *)
Definition d_load (ns : list string) (n : string) (k : Z) (s : dledger) : outcome (V * dledger) :=
  let hit := match d_cache s with Some (c, _) => (c =? k)%Z | None => false end in
  bindO (if hit then Ok s
         else bindO (d_get_states ns k s) (fun p =>
              Ok {| d_cycle := d_cycle (snd p); d_fields := d_fields (snd p);
                    d_files := d_files (snd p); d_cache := Some (k, fst p) |}))
    (fun s' =>
       if existsb (String.eqb n) ns then
         match d_cache s' with Some (_, m) => Ok (m n, s') | None => UB end
       else Refused).

(** resetStates of SolidMechanics with checkpoint_to_disk_ (solid_mechanics.hpp:393-395): the zero
    state is written at the reset cycle; the cache is left alone. *)
Definition d_reset (c : Z) (f : fields) (s : dledger) : dledger :=
  {| d_cycle := c; d_fields := f;
     d_files := fun k => if (k =? c)%Z then Some f else d_files s k;
     d_cache := d_cache s |}.

Definition d_init (f : fields) : dledger :=
  {| d_cycle := 0; d_fields := f; d_files := fun k => if (k =? 0)%Z then Some f else None; d_cache := None |}.

(** The displacement/velocity/acceleration that reverseAdjointTimestep linearises about
    (solid_mechanics.hpp:1357-1359): the entry of the returned map is assigned to the field. *)
Definition d_reverse_fields (ns : list string) (s : dledger) : outcome dledger :=
  bindO (d_get_states ns (d_cycle s) s) (fun p =>
  Ok {| d_cycle := d_cycle s - 1;
        d_fields := fun m => if existsb (String.eqb m) ns then fst p m else d_fields (snd p) m;
        d_files := d_files (snd p); d_cache := d_cache (snd p) |}).

(** Histories of forward steps and checkpoint queries. *)
Inductive qop := QStep (dt : R) (f : fields) | QLoad (n : string) (k : Z).

Fixpoint answers_disk (ns : list string) (ops : list qop) (s : dledger) : list (outcome V) :=
  match ops with
  | [] => []
  | QStep _ f :: r => answers_disk ns r (d_advance f s)
  | QLoad n k :: r =>
    match d_load ns n k s with
    | Ok (v, s') => Ok v :: answers_disk ns r s'
    | Refused => [Refused]
    | UB => [UB]
    end
  end.

Fixpoint answers_memory (cfg : config) (ops : list qop) (s : ledger V) : list (outcome V) :=
  match ops with
  | [] => []
  | QStep dt f :: r => answers_memory cfg r (advance V cfg dt f s)
  | QLoad n k :: r =>
    match load_state V s n k with
    | Ok v => Ok v :: answers_memory cfg r s
    | Refused => [Refused]
    | UB => [UB]
    end
  end.

(** Every query asks for the cycle that is current when it is made. *)
Fixpoint current_queries (ns : list string) (c : Z) (ops : list qop) : Prop :=
  match ops with
  | [] => True
  | QStep _ _ :: r => current_queries ns (c + 1) r
  | QLoad n k :: r => k = c /\ In n ns /\ current_queries ns c r
  end.

Definition dsim (cfg : config) (s : ledger V) (d : dledger) : Prop :=
  d_cycle d = l_cycle V s /\ (0 <= l_cycle V s)%Z /\
  (exists f, d_files d (d_cycle d) = Some f /\ forall n, In n (names cfg) -> f n = d_fields d n) /\
  (forall c m, d_cache d = Some (c, m) -> (c < d_cycle d)%Z \/
       (c = d_cycle d /\ forall n, In n (names cfg) -> m n = d_fields d n)) /\
  (forall n, In n (names cfg) -> exists l, l_ckpt V s n = Some l /\
       length l = S (Z.to_nat (l_cycle V s)) /\ nth_error l (Z.to_nat (l_cycle V s)) = Some (d_fields d n)).

Lemma disk_agrees_on_current cfg ops : good_config cfg ->
  forall s d, dsim cfg s d -> current_queries (names cfg) (d_cycle d) ops ->
  answers_disk (names cfg) ops d = answers_memory cfg ops s.
Proof.
  intros [Hnd Hst]. induction ops as [|o ops IH]; intros s d Hs Hq; [reflexivity|].
  destruct Hs as (Hc & Hpos & (ff & Hff & Hfe) & Hcache & Hck).
  destruct o as [dt f|n k]; simpl in Hq |- *.
  - apply IH; [|exact Hq]. unfold dsim, advance, d_advance; simpl.
    split; [lia|]. split; [lia|]. split; [|split].
    + rewrite Z.eqb_refl. exists f. split; auto.
    + intros c m E. left. destruct (Hcache c m E) as [?|[? _]]; lia.
    + intros n Hn. rewrite ckpt_push_all_in by assumption.
      destruct (Hck n Hn) as (l & -> & Hl & Hnth).
      exists (l ++ [f n]). split; auto.
      replace (Z.to_nat (l_cycle V s + 1)) with (S (Z.to_nat (l_cycle V s))) by lia.
      split; [rewrite app_length; simpl; lia|].
      rewrite nth_error_app2 by lia. rewrite Hl. now rewrite Nat.sub_diag.
  - destruct Hq as (-> & Hn & Hq).
    destruct (Hck n Hn) as (l & El & Hl & Hnth).
    assert (Em : load_state V s n (d_cycle d) = Ok (d_fields d n)).
    { unfold load_state. rewrite El. unfold vec_get. rewrite Hc.
      destruct (Z.ltb_spec (l_cycle V s) 0); [lia|]. now rewrite Hnth. }
    rewrite Em. unfold d_load.
    assert (Hx : existsb (String.eqb n) (names cfg) = true) by now apply existsb_eqb_In.
    rewrite Hx.
    destruct (d_cache d) as [[c m]|] eqn:Ec.
    + destruct (Z.eqb_spec c (d_cycle d)) as [->|Hne].
      * simpl. rewrite Ec. destruct (Hcache _ _ eq_refl) as [?|[_ Hm]]; [lia|].
        rewrite (Hm n Hn). f_equal. apply IH; [|exact Hq].
        unfold dsim. rewrite Ec. repeat split; eauto.
      * simpl. unfold d_get_states. rewrite Hff. simpl. f_equal.
        apply IH; [|exact Hq].
        unfold dsim; simpl. split; [exact Hc|]. split; [exact Hpos|].
        assert (HF : forall n0, In n0 (names cfg) ->
          (if existsb (String.eqb n0) (names cfg) then ff n0 else d_fields d n0) = d_fields d n0).
        { intros n0 Hn0. rewrite (proj2 (existsb_eqb_In n0 (names cfg)) Hn0). auto. }
        split; [|split].
        -- exists ff. split; auto. intros n0 Hn0. rewrite HF by auto. auto.
        -- intros c0 m0 E. inversion E; subst. right. split; auto. intros n0 Hn0. now rewrite HF.
        -- intros n0 Hn0. rewrite HF by auto. auto.
    + simpl. unfold d_get_states. rewrite Hff. simpl. f_equal.
      apply IH; [|exact Hq].
      unfold dsim; simpl. split; [exact Hc|]. split; [exact Hpos|].
      assert (HF : forall n0, In n0 (names cfg) ->
        (if existsb (String.eqb n0) (names cfg) then ff n0 else d_fields d n0) = d_fields d n0).
      { intros n0 Hn0. rewrite (proj2 (existsb_eqb_In n0 (names cfg)) Hn0). auto. }
      split; [|split].
      * exists ff. split; auto. intros n0 Hn0. rewrite HF by auto. auto.
      * intros c0 m0 E. inversion E; subst. right. split; auto. intros n0 Hn0. now rewrite HF.
      * intros n0 Hn0. rewrite HF by auto. auto.
Qed.

Lemma disk_memory_current cfg ops t f : good_config cfg ->
  current_queries (names cfg) 0 ops ->
  answers_disk (names cfg) ops (d_init f) = answers_memory cfg ops (reset V cfg 0 t f).
Proof.
  intros Hg Hq. apply disk_agrees_on_current; auto.
  destruct Hg as [Hnd _]. unfold dsim, d_init, reset; simpl.
  repeat split; try lia.
  - exists f. auto.
  - intros c m E; discriminate.
  - intros n Hn. rewrite ckpt_push_all_in by assumption. exists [f n]. auto.
Qed.

(** What getCheckpointedStates really does in disk mode, for every state and cycle: the result does
    not depend on the cycle asked for, and the current fields are overwritten by the file. *)
Lemma disk_get_states_effect ns k s f :
  d_files s k = Some f ->
  exists s', d_get_states ns k s = Ok (d_fields s, s') /\
    (forall n, In n ns -> d_fields s' n = f n) /\ (forall n, ~ In n ns -> d_fields s' n = d_fields s n).
Proof.
  intros H. unfold d_get_states. rewrite H. eexists. split; [reflexivity|]. simpl. split; intros n Hn.
  - now rewrite (proj2 (existsb_eqb_In n ns) Hn).
  - destruct (existsb (String.eqb n) ns) eqn:E; auto. apply existsb_eqb_In in E. contradiction.
Qed.

(** A backward step in disk mode leaves every state field as it was before the step. *)
Lemma disk_reverse_keeps_fields ns s s' :
  d_reverse_fields ns s = Ok s' -> forall n, d_fields s' n = d_fields s n.
Proof.
  unfold d_reverse_fields, d_get_states. destruct (d_files s (d_cycle s)); simpl; intros E; inversion E; subst; simpl.
  intros n. destruct (existsb (String.eqb n) ns) eqn:Ex; auto.
Qed.

(** ** Corollaries in terms of call histories *)
Definition adv (p : R * fields) : op V := OAdvance (fst p) (snd p).

Definition nb0 t (f : fields) : notebook V :=
  {| nb_t0 := t; nb_page0 := f; nb_lines := []; nb_at := O; nb_live := f |}.

Lemma last_cons_default (A : Type) (l : list A) : forall f d, last (f :: l) d = last l f.
Proof.
  induction l as [|a l IH]; intros f d; [reflexivity|].
  change (last (f :: a :: l) d) with (last (a :: l) d). now rewrite !IH.
Qed.

Lemma nb_run_forward cfg steps b e :
  nb_at V b = length (nb_lines V b) ->
  forall rest,
  nb_run V cfg {| nb_t0 := nb_t0 V b; nb_page0 := nb_page0 V b;
                  nb_lines := nb_lines V b ++ steps;
                  nb_at := length (nb_lines V b ++ steps);
                  nb_live := last (map snd steps) (nb_live V b) |} rest e ->
  nb_run V cfg b (map adv steps ++ rest) e.
Proof.
  revert b. induction steps as [|[dt f] steps IH]; intros b Hat rest H.
  - simpl in *. rewrite app_nil_r in H. destruct b; simpl in *. now subst.
  - simpl map. cbn [app]. unfold adv at 1. simpl.
    eapply NBCons; [apply NBAdvance; exact Hat|].
    apply IH; cbn [nb_t0 nb_page0 nb_lines nb_at nb_live].
    { rewrite app_length. simpl. lia. }
    rewrite <- app_assoc. simpl app.
    replace (last (map snd steps) f) with (last (map snd ((dt, f) :: steps)) (nb_live V b)); [exact H|].
    simpl map. apply last_cons_default.
Qed.

Lemma nb_page_some (b : notebook V) k : (k <= length (nb_lines V b))%nat -> exists f, nb_page V b k = Some f.
Proof.
  intros H. unfold nb_page. destruct (nth_error (nb_page0 V b :: map snd (nb_lines V b)) k) eqn:E; eauto.
  apply nth_error_None in E. simpl in E. rewrite map_length in E. lia.
Qed.

Lemma nb_run_backward cfg m : forall b,
  (nb_at V b <= length (nb_lines V b))%nat -> (m <= nb_at V b)%nat ->
  exists live, nb_run V cfg b (repeat OReverse m)
    (Some {| nb_t0 := nb_t0 V b; nb_page0 := nb_page0 V b; nb_lines := nb_lines V b;
             nb_at := nb_at V b - m; nb_live := live |}).
Proof.
  induction m as [|m IH]; intros b Hle Hm.
  - exists (nb_live V b). rewrite Nat.sub_0_r. destruct b; constructor.
  - destruct (nb_at V b) as [|k] eqn:E; [lia|].
    destruct (nb_page_some b (S k)) as [f Hf]; [lia|].
    destruct (IH {| nb_t0 := nb_t0 V b; nb_page0 := nb_page0 V b; nb_lines := nb_lines V b;
                    nb_at := k; nb_live := f |}) as [live Hl]; simpl; try lia.
    exists live. simpl repeat. eapply NBCons; [eapply NBReverse; eauto|]. exact Hl.
Qed.

Lemma forward_backward cfg steps m t f :
  good_config cfg -> (m <= length steps)%nat ->
  exists s, run V cfg (map adv steps ++ repeat OReverse m) (reset V cfg 0 t f) = Ok s /\
    l_cycle V s = Z.of_nat (length steps - m) /\
    l_time V s = t + Rsum (firstn (length steps - m) (map fst steps)) /\
    (forall n k, In n (names cfg) -> (k <= length steps)%nat ->
       load_state V s n (Z.of_nat k) = Ok (nth k (f :: map snd steps) f n)).
Proof.
  intros Hg Hm.
  destruct (nb_run_backward cfg m
    {| nb_t0 := t; nb_page0 := f; nb_lines := steps; nb_at := length steps; nb_live := last (map snd steps) f |})
    as [live Hl]; simpl; try lia.
  assert (Hr := nb_run_forward cfg steps (nb0 t f) _ eq_refl _ Hl).
  destruct (ledger_refines_notebook V cfg t f _ _ Hg Hr) as (s & E & A).
  exists s. split; [exact E|].
  destruct A as (A1 & A2 & _ & _ & _ & _ & _ & _ & A9 & _).
  split; [exact A2|]. split; [exact A1|].
  intros n k Hn Hk.
  apply (A9 n k (nth k (f :: map snd steps) f)); auto. unfold nb_page. cbn [nb_page0 nb_lines].
  apply nth_error_nth'. simpl. rewrite map_length. lia.
Qed.

Lemma too_many_reverses cfg steps t f :
  good_config cfg ->
  run V cfg (map adv steps ++ repeat OReverse (S (length steps))) (reset V cfg 0 t f) = Refused.
Proof.
  intros Hg.
  assert (Hb : forall m b, (nb_at V b <= length (nb_lines V b))%nat -> m = nb_at V b ->
     nb_run V cfg b (repeat OReverse (S m)) None).
  { induction m as [|m IH]; intros b Hle Hm; cbn [repeat].
    - apply NBStop. now apply NBReverseStop.
    - destruct (nb_page_some b (S m)) as [g Hg']; [lia|].
      eapply NBCons; [eapply NBReverse; [symmetry; exact Hm|exact Hg']|].
      apply IH; simpl; auto; lia. }
  assert (Hr := nb_run_forward cfg steps (nb0 t f) None eq_refl (repeat OReverse (S (length steps)))
     (Hb (length steps) {| nb_t0 := t; nb_page0 := f; nb_lines := steps; nb_at := length steps;
                           nb_live := last (map snd steps) f |} (le_n _) eq_refl)).
  exact (ledger_refines_notebook V cfg t f _ _ Hg Hr).
Qed.

(** Reset forgets everything (in-memory mode). *)
Lemma reset_repeatable cfg c t f ops s1 s2 :
  run V cfg (OReset c t f :: ops) s1 = run V cfg (OReset c t f :: ops) s2.
Proof. reflexivity. Qed.

End Disk.
Arguments QStep {V}. Arguments QLoad {V}.
