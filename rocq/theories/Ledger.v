(** * Time, cycle and checkpoint bookkeeping of the physics modules

    Models BasePhysics (/repo/src/serac/physics/base_physics.{hpp,cpp}) together with
    the parts of SolidMechanics and HeatTransfer that drive it.

    Simplifications: [double] is [R]; a field's contents is a value of an arbitrary type [V]
    (the true-dof vector); what the nonlinear/ODE solver computes in a step is an
    arbitrary new value for every field, given with the operation. *)
From Coq Require Import String List ZArith Reals Lra Lia Bool.
From Verif Require Import Prelude.
Import ListNotations.
Open Scope R_scope.

Section Ledger.
Variable V : Type.

Local Notation fields := (string -> V).

(** What distinguishes the modules.
    [names]: stateNames() (solid_mechanics.hpp:685-692, heat_transfer.hpp:640-647).
    [settable]: names that setState accepts (solid_mechanics.hpp:664-683, heat_transfer.hpp:620-634).
    [lookahead]: solid mechanics also asks for the following time step when going backward
    (solid_mechanics.hpp:1355), heat transfer does not (heat_transfer.hpp:855).
    [stage_time]: the value left in time_ by a step (see Timestep.v). *)
Record config := {
  names : list string;
  settable : list string;
  lookahead : bool;
  stage_time : R -> R -> R;
}.

(** base_physics.hpp:603-665 (checkpoint_states_, time_, max_time_, min_time_, timesteps_, cycle_,
    max_cycle_, min_cycle_), time_end_step_ (solid_mechanics.hpp, heat_transfer.hpp), and
    the current values of the fields. *)
Record ledger := {
  l_time : R; l_max_time : R; l_min_time : R;
  l_cycle : Z; l_max_cycle : Z; l_min_cycle : Z;
  l_steps : list R;
  l_end_step : R;
  l_fields : fields;
  l_ckpt : string -> option (list V);
}.

(** unordered_map::operator[] followed by push_back. *)
Definition ckpt_push (c : string -> option (list V)) (n : string) (v : V) : string -> option (list V) :=
  fun m => if String.eqb m n
           then Some (match c n with Some l => l ++ [v] | None => [v] end)
           else c m.

(** The loop over stateNames() that appends one checkpoint per name
    (solid_mechanics.hpp:1273-1275, heat_transfer.hpp:364-366). *)
Definition ckpt_push_all (ns : list string) (f : fields) (c : string -> option (list V)) :=
  fold_left (fun acc n => ckpt_push acc n (f n)) ns c.

(** initializeBasePhysicsStates (base_physics.cpp:62-79) followed by the state reset and the
    first checkpoint (solid_mechanics.hpp:368-404, heat_transfer.hpp:276-297), in-memory mode.
    [f] is the value of the fields afterwards (all zero in the code). *)
Definition reset (cfg : config) (cyc : Z) (t : R) (f : fields) : ledger :=
  {| l_time := t; l_max_time := t; l_min_time := t;
     l_cycle := cyc; l_max_cycle := cyc; l_min_cycle := cyc;
     l_steps := [];
     l_end_step := 0;
     l_fields := f;
     l_ckpt := ckpt_push_all (names cfg) f (fun _ => None) |}.

(** advanceTimestep (solid_mechanics.hpp:1243-1295, heat_transfer.hpp:333-374), in-memory
    mode; [fnew] is what the solver computed. *)
Definition advance (cfg : config) (dt : R) (fnew : fields) (s : ledger) : ledger :=
  let time' := stage_time cfg (l_time s) dt in
  let cycle' := (l_cycle s + 1)%Z in
  let further := (l_max_cycle s <? cycle')%Z in
  {| l_time := time';
     l_max_time := if further then time' else l_max_time s;
     l_min_time := l_min_time s;
     l_cycle := cycle';
     l_max_cycle := if further then cycle' else l_max_cycle s;
     l_min_cycle := l_min_cycle s;
     l_steps := if further then l_steps s ++ [dt] else l_steps s;
     l_end_step := l_end_step s;
     l_fields := fnew;
     l_ckpt := ckpt_push_all (names cfg) fnew (l_ckpt s) |}.

(** getCheckpointedTimestep (base_physics.cpp:380-387). *)
Definition get_timestep (s : ledger) (k : Z) : outcome R :=
  if (k <? 0)%Z then Refused
  else if (Z.of_nat (length (l_steps s)) <? k)%Z then Refused
  else if (k <? Z.of_nat (length (l_steps s)))%Z then vec_get (l_steps s) k
  else Ok 0.

(** loadCheckpointedState, in-memory branch (base_physics.cpp:351-356): a missing name is
    refused; the cycle is not checked. *)
Definition load_state (s : ledger) (n : string) (k : Z) : outcome V :=
  match l_ckpt s n with
  | None => Refused
  | Some l => vec_get l k
  end.

(** checkpoint_states_.at(name)[cycle] of getCheckpointedStates, in-memory branch
    (base_physics.cpp:371-375); a missing name makes [at] throw, which nobody catches. *)
Fixpoint load_all (s : ledger) (ns : list string) (k : Z) (f : fields) : outcome fields :=
  match ns with
  | [] => Ok f
  | n :: r => bindO (load_state s n k) (fun v =>
              bindO (load_all s r k f) (fun g =>
              Ok (fun m => if String.eqb m n then v else g m)))
  end.

(** reverseAdjointTimestep (solid_mechanics.hpp:1340-1404, heat_transfer.hpp:840-921): only the
    bookkeeping; the adjoint solve itself is in Adjoint.v. *)
Definition reverse (cfg : config) (s : ledger) : outcome ledger :=
  if (l_cycle s <=? l_min_cycle s)%Z then Refused
  else
    let c := (l_cycle s - 1)%Z in
    bindO (if lookahead cfg then get_timestep s (c + 1) else Ok 0) (fun _ =>
    bindO (get_timestep s c) (fun dt =>
    bindO (load_all s (names cfg) (c + 1) (l_fields s)) (fun f =>
    Ok {| l_time := l_time s - dt;
          l_max_time := l_max_time s; l_min_time := l_min_time s;
          l_cycle := c; l_max_cycle := l_max_cycle s; l_min_cycle := l_min_cycle s;
          l_steps := l_steps s;
          l_end_step := l_time s;
          l_fields := f;
          l_ckpt := l_ckpt s |}))).

(** resetAdjointStates (base_physics.hpp:141-145). *)
Definition reset_adjoint (s : ledger) : ledger :=
  {| l_time := l_max_time s; l_max_time := l_max_time s; l_min_time := l_min_time s;
     l_cycle := l_max_cycle s; l_max_cycle := l_max_cycle s; l_min_cycle := l_min_cycle s;
     l_steps := l_steps s; l_end_step := l_end_step s;
     l_fields := l_fields s; l_ckpt := l_ckpt s |}.

Definition set_field (f : fields) (n : string) (v : V) : fields :=
  fun m => if String.eqb m n then v else f m.

(** setState (solid_mechanics.hpp:664-683, heat_transfer.hpp:620-634), in-memory mode:
    checkpoint_states_[name][cycle_] = value, where operator[] creates an empty vector for a
    name that has never been checkpointed. *)
Definition set_state (cfg : config) (n : string) (v : V) (s : ledger) : outcome ledger :=
  if existsb (String.eqb n) (settable cfg) then
    let l := match l_ckpt s n with Some l => l | None => [] end in
    bindO (vec_set l (l_cycle s) v) (fun l' =>
    Ok {| l_time := l_time s; l_max_time := l_max_time s; l_min_time := l_min_time s;
          l_cycle := l_cycle s; l_max_cycle := l_max_cycle s; l_min_cycle := l_min_cycle s;
          l_steps := l_steps s; l_end_step := l_end_step s;
          l_fields := set_field (l_fields s) n v;
          l_ckpt := fun m => if String.eqb m n then Some l' else l_ckpt s m |})
  else Refused.

Inductive op :=
| OAdvance (dt : R) (fnew : fields)
| OReverse
| OResetAdjoint
| OSetState (n : string) (v : V)
| OReset (cyc : Z) (t : R) (f : fields).

Definition exec (cfg : config) (o : op) (s : ledger) : outcome ledger :=
  match o with
  | OAdvance dt f => Ok (advance cfg dt f s)
  | OReverse => reverse cfg s
  | OResetAdjoint => Ok (reset_adjoint s)
  | OSetState n v => set_state cfg n v s
  | OReset c t f => Ok (reset cfg c t f)
  end.

Fixpoint run (cfg : config) (ops : list op) (s : ledger) : outcome ledger :=
  match ops with
  | [] => Ok s
  | o :: r => bindO (exec cfg o s) (run cfg r)
  end.

(** ** Specification

    Someone's notebook: the initial time, one line per forward step (its dt and the fields
    at its end), the page the reader is on, and the current fields. *)
Record notebook := {
  nb_t0 : R;
  nb_page0 : fields;
  nb_lines : list (R * fields);
  nb_at : nat;
  nb_live : fields;
}.

Definition nb_page (b : notebook) (k : nat) : option fields :=
  nth_error (nb_page0 b :: map snd (nb_lines b)) k.

Definition Rsum (l : list R) : R := fold_right Rplus 0 l.

Definition nb_time (b : notebook) : R := nb_t0 b + Rsum (firstn (nb_at b) (map fst (nb_lines b))).

Definition nb_edit (b : notebook) (n : string) (v : V) : notebook :=
  match nb_at b with
  | O => {| nb_t0 := nb_t0 b; nb_page0 := set_field (nb_page0 b) n v; nb_lines := nb_lines b;
            nb_at := O; nb_live := set_field (nb_live b) n v |}
  | S k => {| nb_t0 := nb_t0 b; nb_page0 := nb_page0 b;
              nb_lines := match nth_error (nb_lines b) k with
                          | Some (dt, f) => upd (nb_lines b) k (dt, set_field f n v)
                          | None => nb_lines b
                          end;
              nb_at := S k; nb_live := set_field (nb_live b) n v |}
  end.

(** One step of the notebook.  [None]: the request must be refused. A forward step is only
    taken on the last page ("frontier discipline"). *)
Inductive nb_step (cfg : config) : notebook -> op -> option notebook -> Prop :=
| NBAdvance b dt f :
    nb_at b = length (nb_lines b) ->
    nb_step cfg b (OAdvance dt f)
      (Some {| nb_t0 := nb_t0 b; nb_page0 := nb_page0 b; nb_lines := nb_lines b ++ [(dt, f)];
               nb_at := S (nb_at b); nb_live := f |})
| NBReverse b k f :
    nb_at b = S k -> nb_page b (S k) = Some f ->
    nb_step cfg b OReverse
      (Some {| nb_t0 := nb_t0 b; nb_page0 := nb_page0 b; nb_lines := nb_lines b;
               nb_at := k; nb_live := f |})
| NBReverseStop b : nb_at b = O -> nb_step cfg b OReverse None
| NBResetAdjoint b :
    nb_step cfg b OResetAdjoint
      (Some {| nb_t0 := nb_t0 b; nb_page0 := nb_page0 b; nb_lines := nb_lines b;
               nb_at := length (nb_lines b); nb_live := nb_live b |})
| NBSetState b n v : In n (settable cfg) -> In n (names cfg) ->
    nb_step cfg b (OSetState n v) (Some (nb_edit b n v))
| NBSetStateBad b n v : ~ In n (settable cfg) -> nb_step cfg b (OSetState n v) None
| NBReset b t f :
    nb_step cfg b (OReset 0 t f)
      (Some {| nb_t0 := t; nb_page0 := f; nb_lines := []; nb_at := O; nb_live := f |}).

Inductive nb_run (cfg : config) : notebook -> list op -> option notebook -> Prop :=
| NBNil b : nb_run cfg b [] (Some b)
| NBCons b o b' r e : nb_step cfg b o (Some b') -> nb_run cfg b' r e -> nb_run cfg b (o :: r) e
| NBStop b o r : nb_step cfg b o None -> nb_run cfg b (o :: r) None.

(** Everything a caller can see: time(), cycle(), timesteps(), maxCycle(), maxTime(),
    getCheckpointedTimestep(k) for 0 <= k <= cycles taken, and loadCheckpointedState(n,k). *)
Definition agrees (cfg : config) (s : ledger) (b : notebook) : Prop :=
  l_time s = nb_time b /\
  l_cycle s = Z.of_nat (nb_at b) /\
  l_steps s = map fst (nb_lines b) /\
  l_max_cycle s = Z.of_nat (length (nb_lines b)) /\
  l_max_time s = nb_t0 b + Rsum (map fst (nb_lines b)) /\
  l_min_cycle s = 0%Z /\
  l_min_time s = nb_t0 b /\
  (forall n, In n (names cfg) -> l_fields s n = nb_live b n) /\
  (forall n k f, In n (names cfg) -> nb_page b k = Some f -> load_state s n (Z.of_nat k) = Ok (f n)) /\
  (forall n, ~ In n (names cfg) -> forall k, load_state s n k = Refused).

(** Full simulation relation. *)
Definition sim (cfg : config) (s : ledger) (b : notebook) : Prop :=
  l_time s = nb_time b /\
  l_cycle s = Z.of_nat (nb_at b) /\
  (nb_at b <= length (nb_lines b))%nat /\
  l_steps s = map fst (nb_lines b) /\
  l_max_cycle s = Z.of_nat (length (nb_lines b)) /\
  l_max_time s = nb_t0 b + Rsum (map fst (nb_lines b)) /\
  l_min_cycle s = 0%Z /\
  l_min_time s = nb_t0 b /\
  (forall n, In n (names cfg) -> l_fields s n = nb_live b n) /\
  (forall n, In n (names cfg) ->
     l_ckpt s n = Some (map (fun f => f n) (nb_page0 b :: map snd (nb_lines b)))) /\
  (forall n, ~ In n (names cfg) -> l_ckpt s n = None).

(** *** Lemmas *)
Lemma ckpt_push_all_notin ns f c n :
  ~ In n ns -> ckpt_push_all ns f c n = c n.
Proof.
  unfold ckpt_push_all. revert c. induction ns as [|a ns IH]; intros c H; simpl; auto.
  rewrite IH by (intro; apply H; now right).
  unfold ckpt_push. destruct (String.eqb_spec n a) as [->|]; auto.
  exfalso; apply H; now left.
Qed.

Lemma ckpt_push_all_in ns f c n :
  NoDup ns -> In n ns ->
  ckpt_push_all ns f c n = Some (match c n with Some l => l ++ [f n] | None => [f n] end).
Proof.
  unfold ckpt_push_all. revert c. induction ns as [|a ns IH]; intros c Hnd Hin; simpl; [easy|].
  inversion Hnd as [|? ? Hna Hnd']; subst.
  destruct Hin as [->|Hin].
  - fold (ckpt_push_all ns f (ckpt_push c n (f n))).
    rewrite ckpt_push_all_notin by assumption.
    unfold ckpt_push. now rewrite String.eqb_refl.
  - rewrite IH by assumption. unfold ckpt_push.
    destruct (String.eqb_spec n a) as [->|]; [easy|reflexivity].
Qed.

Lemma Rsum_app l1 l2 : Rsum (l1 ++ l2) = Rsum l1 + Rsum l2.
Proof. unfold Rsum. induction l1 as [|a l IH]; simpl; lra. Qed.

Lemma firstn_S_nth A (l : list A) k a :
  nth_error l k = Some a -> firstn (S k) l = firstn k l ++ [a].
Proof.
  revert k; induction l as [|h t IH]; intros [|k] H; simpl in *; try discriminate.
  - now inversion H.
  - f_equal. now apply IH.
Qed.

Definition good_config (cfg : config) : Prop :=
  NoDup (names cfg) /\ (forall t dt, stage_time cfg t dt = t + dt).

Lemma sim_reset cfg t f :
  good_config cfg ->
  sim cfg (reset cfg 0 t f) {| nb_t0 := t; nb_page0 := f; nb_lines := []; nb_at := O; nb_live := f |}.
Proof.
  intros [Hnd _]. unfold sim, reset, nb_time; simpl.
  repeat split; auto; try lra.
  - intros n Hin. rewrite ckpt_push_all_in by assumption. reflexivity.
  - intros n Hin. now rewrite ckpt_push_all_notin.
Qed.

Lemma sim_advance cfg s b dt f :
  good_config cfg -> sim cfg s b -> nb_at b = length (nb_lines b) ->
  sim cfg (advance cfg dt f s)
    {| nb_t0 := nb_t0 b; nb_page0 := nb_page0 b; nb_lines := nb_lines b ++ [(dt, f)];
       nb_at := S (nb_at b); nb_live := f |}.
Proof.
  intros [Hnd Hst] (Ht & Hc & Hle & Hs & Hmc & Hmt & Hmin & Hmint & Hf & Hk & Hk') Hat.
  assert (E : (l_max_cycle s <? l_cycle s + 1)%Z = true).
  { apply Z.ltb_lt. rewrite Hmc, Hc, Hat. lia. }
  assert (Etime : nb_time b = nb_t0 b + Rsum (map fst (nb_lines b))).
  { unfold nb_time. rewrite Hat. rewrite <- (map_length fst). now rewrite firstn_all. }
  assert (Hfs : Rsum (firstn (S (nb_at b)) (map fst (nb_lines b ++ [(dt, f)]))) =
                Rsum (map fst (nb_lines b)) + dt).
  { rewrite firstn_all2 by (rewrite map_length, app_length; simpl; lia).
    rewrite map_app, Rsum_app. simpl; lra. }
  unfold sim, nb_time, advance.
  cbn [l_time l_cycle l_steps l_max_cycle l_max_time l_min_cycle l_min_time l_fields l_ckpt
       nb_t0 nb_page0 nb_lines nb_at nb_live].
  rewrite E, Hst, Hfs, app_length. cbn [length].
  repeat split; auto; try lia.
  - rewrite Ht, Etime. lra.
  - rewrite Hs, map_app. reflexivity.
  - rewrite Ht, Etime, map_app, Rsum_app. simpl; lra.
  - intros n Hin. rewrite ckpt_push_all_in by assumption. rewrite (Hk n Hin).
    simpl. rewrite !map_app. reflexivity.
  - intros n Hin. rewrite ckpt_push_all_notin by assumption. auto.
Qed.

Lemma load_all_ok cfg s b k f0 f :
  sim cfg s b -> nb_page b k = Some f ->
  forall ns, incl ns (names cfg) ->
  exists g, load_all s ns (Z.of_nat k) f0 = Ok g /\
    (forall n, In n ns -> g n = f n) /\ (forall n, ~ In n ns -> g n = f0 n).
Proof.
  intros (_ & _ & _ & _ & _ & _ & _ & _ & _ & Hk & _) Hp ns. unfold nb_page in Hp.
  induction ns as [|n ns IH]; intros Hincl.
  - simpl. exists f0. repeat split; auto; intros ? [].
  - destruct IH as (g & Hg & H1 & H2). { intros x Hx; apply Hincl; now right. }
    assert (Hl : load_state s n (Z.of_nat k) = Ok (f n)).
    { unfold load_state. rewrite Hk by (apply Hincl; now left). unfold vec_get.
      destruct (Z.ltb_spec (Z.of_nat k) 0); [lia|]. rewrite Nat2Z.id.
      erewrite map_nth_error by exact Hp. reflexivity. }
    cbn [load_all]. rewrite Hl. simpl. rewrite Hg. simpl.
    eexists; split; [reflexivity|]. split.
    + intros m [->|Hm]. * now rewrite String.eqb_refl.
      * destruct (String.eqb_spec m n) as [->|]; auto.
    + intros m Hm. destruct (String.eqb_spec m n) as [->|].
      * exfalso; apply Hm; now left.
      * apply H2. intro; apply Hm; now right.
Qed.

Lemma get_timestep_ok cfg s b k dt :
  sim cfg s b -> nth_error (map fst (nb_lines b)) k = Some dt ->
  get_timestep s (Z.of_nat k) = Ok dt.
Proof.
  intros (_ & _ & _ & Hs & _) H. unfold get_timestep. rewrite Hs.
  assert (k < length (map fst (nb_lines b)))%nat by (apply nth_error_Some; congruence).
  destruct (Z.ltb_spec (Z.of_nat k) 0); [lia|].
  destruct (Z.ltb_spec (Z.of_nat (length (map fst (nb_lines b)))) (Z.of_nat k)); [lia|].
  destruct (Z.ltb_spec (Z.of_nat k) (Z.of_nat (length (map fst (nb_lines b))))); [|lia].
  unfold vec_get. destruct (Z.ltb_spec (Z.of_nat k) 0); [lia|]. rewrite Nat2Z.id. now rewrite H.
Qed.

Lemma get_timestep_last cfg s b :
  sim cfg s b -> get_timestep s (Z.of_nat (length (nb_lines b))) = Ok 0.
Proof.
  intros (_ & _ & _ & Hs & _). unfold get_timestep. rewrite Hs, map_length.
  destruct (Z.ltb_spec (Z.of_nat (length (nb_lines b))) 0); [lia|].
  destruct (Z.ltb_spec (Z.of_nat (length (nb_lines b))) (Z.of_nat (length (nb_lines b)))); [lia|].
  reflexivity.
Qed.

Lemma sim_reverse cfg s b k f :
  good_config cfg -> sim cfg s b -> nb_at b = S k -> nb_page b (S k) = Some f ->
  exists s', reverse cfg s = Ok s' /\
  sim cfg s' {| nb_t0 := nb_t0 b; nb_page0 := nb_page0 b; nb_lines := nb_lines b;
                nb_at := k; nb_live := f |}.
Proof.
  intros Hg Hsim Hat Hp. pose proof Hsim as (Ht & Hc & Hle & Hs & Hmc & Hmt & Hmin & Hmint & Hf & Hk & Hk').
  assert (Hlt : (k < length (map fst (nb_lines b)))%nat) by (rewrite map_length; lia).
  destruct (nth_error (map fst (nb_lines b)) k) as [dt|] eqn:Hdt;
    [|apply nth_error_None in Hdt; lia].
  pose proof (get_timestep_ok cfg s b k dt Hsim Hdt) as Hgt.
  assert (Hla : exists x, (if lookahead cfg then get_timestep s (l_cycle s - 1 + 1) else Ok 0) = Ok x).
  { destruct (lookahead cfg); [|eauto].
    replace (l_cycle s - 1 + 1)%Z with (Z.of_nat (S k)) by lia.
    destruct (Nat.eq_dec (S k) (length (nb_lines b))) as [E|E].
    - rewrite E. exists 0. eapply get_timestep_last; eauto.
    - assert (S k < length (map fst (nb_lines b)))%nat as HS by (rewrite map_length; lia).
      destruct (nth_error (map fst (nb_lines b)) (S k)) as [d|] eqn:Hd;
        [|apply nth_error_None in Hd; lia].
      exists d. eapply get_timestep_ok; eauto. }
  destruct Hla as [x Hx].
  destruct (load_all_ok cfg s b (S k) (l_fields s) f Hsim Hp (names cfg) (fun a H => H))
    as (g & Hgl & Hg1 & Hg2).
  unfold reverse. destruct (Z.leb_spec (l_cycle s) (l_min_cycle s)); [lia|].
  rewrite Hx. simpl.
  replace (l_cycle s - 1)%Z with (Z.of_nat k) by lia. rewrite Hgt. simpl.
  replace (Z.of_nat k + 1)%Z with (Z.of_nat (S k)) by lia. rewrite Hgl. simpl.
  eexists; split; [reflexivity|].
  unfold sim; simpl. repeat split; auto; try lia.
  unfold nb_time in *; simpl. rewrite Ht, Hat.
  rewrite (firstn_S_nth _ _ _ _ Hdt), Rsum_app. simpl; lra.
Qed.

Lemma map_upd_same A B (g : A -> B) l k a :
  nth_error (map g l) k = Some (g a) -> map g (upd l k a) = map g l.
Proof.
  revert k; induction l as [|h t IH]; intros [|k] H; simpl in *; auto; try discriminate.
  - now inversion H.
  - f_equal; auto.
Qed.

Lemma existsb_eqb_In n l : existsb (String.eqb n) l = true <-> In n l.
Proof.
  rewrite existsb_exists. split.
  - intros (x & Hx & E). apply String.eqb_eq in E. now subst.
  - intros H. exists n. split; auto. apply String.eqb_refl.
Qed.

Lemma sim_set_state cfg s b n v :
  good_config cfg -> sim cfg s b -> In n (settable cfg) -> In n (names cfg) ->
  exists s', set_state cfg n v s = Ok s' /\ sim cfg s' (nb_edit b n v).
Proof.
  intros Hg (Ht & Hc & Hle & Hs & Hmc & Hmt & Hmin & Hmint & Hf & Hk & Hk') Hset Hin.
  unfold set_state. apply existsb_eqb_In in Hset. rewrite Hset.
  rewrite (Hk n Hin).
  set (L := map (fun f : fields => f n) (nb_page0 b :: map snd (nb_lines b))).
  assert (HL : length L = S (length (nb_lines b))).
  { unfold L. simpl. now rewrite !map_length. }
  unfold vec_set.
  assert (E : ((l_cycle s <? 0) || (Z.of_nat (length L) <=? l_cycle s))%Z = false).
  { apply orb_false_iff. split; [apply Z.ltb_ge; lia|apply Z.leb_gt; lia]. }
  rewrite E. cbn [bindO]. eexists; split; [reflexivity|].
  rewrite Hc, Nat2Z.id.
  unfold sim; cbn [l_time l_cycle l_steps l_max_cycle l_max_time l_min_cycle l_min_time l_fields l_ckpt].
  unfold nb_edit. destruct (nb_at b) as [|k] eqn:Hat.
  - unfold nb_time in *. cbn [nb_at nb_lines nb_page0 nb_live nb_t0]. rewrite Hat in Ht.
    repeat (split; [solve [auto; lia]|]). split; [|split].
    + intros m Hm. unfold set_field. destruct (String.eqb_spec m n); auto.
    + intros m Hm. destruct (String.eqb_spec m n) as [->|Hne].
      * simpl. unfold set_field. now rewrite String.eqb_refl.
      * rewrite (Hk m Hm). simpl. unfold set_field. destruct (String.eqb_spec m n); [contradiction|reflexivity].
    + intros m Hm. destruct (String.eqb_spec m n) as [->|Hne]; [contradiction|auto].
  - destruct (nth_error (nb_lines b) k) as [[dt f]|] eqn:Hn;
      [|apply nth_error_None in Hn; lia].
    assert (Hfst : map fst (upd (nb_lines b) k (dt, set_field f n v)) = map fst (nb_lines b)).
    { apply map_upd_same. rewrite nth_error_map, Hn. reflexivity. }
    unfold nb_time in *. cbn [nb_at nb_lines nb_page0 nb_live nb_t0]. rewrite Hfst, upd_length.
    rewrite Hat in Ht.
    repeat (split; [solve [auto; lia]|]). split; [|split].
    + intros m Hm. unfold set_field. destruct (String.eqb_spec m n); auto.
    + intros m Hm. destruct (String.eqb_spec m n) as [->|Hne].
      * f_equal. unfold L. cbn [map upd]. f_equal. rewrite !upd_map. f_equal.
        cbn [snd]. unfold set_field. now rewrite String.eqb_refl.
      * rewrite (Hk m Hm). f_equal. cbn [map]. f_equal. rewrite !map_map. symmetry.
        apply (map_upd_same _ _ (fun x => snd x m)).
        rewrite nth_error_map, Hn. simpl. unfold set_field.
        destruct (String.eqb_spec m n); [contradiction|reflexivity].
    + intros m Hm. destruct (String.eqb_spec m n) as [->|Hne]; [contradiction|auto].
Qed.

Lemma sim_step cfg s b o e :
  good_config cfg -> sim cfg s b -> nb_step cfg b o e ->
  match e with
  | Some b' => exists s', exec cfg o s = Ok s' /\ sim cfg s' b'
  | None => exec cfg o s = Refused
  end.
Proof.
  intros Hg Hsim Hstep.
  destruct Hstep as [b dt f Hat|b k f Hat Hp|b Hat|b|b n v Hs Hn|b n v Hs|b t f].
  - eexists; split; [reflexivity|]. now apply sim_advance.
  - now apply sim_reverse.
  - destruct Hsim as (_ & Hc & _ & _ & _ & _ & Hmin & _). simpl. unfold reverse.
    rewrite Hc, Hmin, Hat. reflexivity.
  - eexists; split; [reflexivity|].
    destruct Hsim as (Ht & Hc & Hle & Hs & Hmc & Hmt & Hmin & Hmint & Hf & Hk & Hk').
    unfold sim, nb_time; simpl. repeat split; auto.
    replace (length (nb_lines b)) with (length (map fst (nb_lines b))) by apply map_length.
    rewrite firstn_all. exact Hmt.
  - now apply sim_set_state.
  - simpl. unfold set_state. destruct (existsb (String.eqb n) (settable cfg)) eqn:E; auto.
    apply existsb_eqb_In in E. contradiction.
  - eexists; split; [reflexivity|]. now apply sim_reset.
Qed.

Lemma sim_run cfg ops b s e :
  good_config cfg -> sim cfg s b -> nb_run cfg b ops e ->
  match e with
  | Some b' => exists s', run cfg ops s = Ok s' /\ sim cfg s' b'
  | None => run cfg ops s = Refused
  end.
Proof.
  intros Hg Hsim Hrun. revert s Hsim.
  induction Hrun as [b|b o b' r e Hst Hr IH|b o r Hst]; intros s Hsim.
  - eexists; split; [reflexivity|auto].
  - pose proof (sim_step cfg s b o _ Hg Hsim Hst) as (s1 & E & Hs1). simpl. rewrite E. simpl. apply IH; exact Hs1.
  - pose proof (sim_step cfg s b o _ Hg Hsim Hst) as E. simpl in *. now rewrite E.
Qed.

Lemma sim_agrees cfg s b : sim cfg s b -> agrees cfg s b.
Proof.
  intros (Ht & Hc & Hle & Hs & Hmc & Hmt & Hmin & Hmint & Hf & Hk & Hk').
  unfold agrees. repeat split; auto.
  - intros n k f Hin Hp. unfold load_state. rewrite (Hk n Hin). unfold vec_get.
    destruct (Z.ltb_spec (Z.of_nat k) 0); [lia|]. rewrite Nat2Z.id.
    unfold nb_page in Hp. erewrite map_nth_error by exact Hp. reflexivity.
  - intros n Hn k. unfold load_state. now rewrite Hk'.
Qed.

Lemma ledger_refines_notebook cfg t f ops e :
  good_config cfg ->
  nb_run cfg {| nb_t0 := t; nb_page0 := f; nb_lines := []; nb_at := O; nb_live := f |} ops e ->
  match e with
  | Some b => exists s, run cfg ops (reset cfg 0 t f) = Ok s /\ agrees cfg s b
  | None => run cfg ops (reset cfg 0 t f) = Refused
  end.
Proof.
  intros Hg Hr. pose proof (sim_run cfg ops _ _ _ Hg (sim_reset cfg t f Hg) Hr) as H.
  destruct e as [b|]; auto. destruct H as (s & E & Hs). exists s. split; auto. now apply sim_agrees.
Qed.

(** Forward-only runs have the right clock for every start cycle. *)
Lemma forward_clock cfg (steps : list (R * fields)) c t f :
  good_config cfg ->
  exists s, run cfg (map (fun p => OAdvance (fst p) (snd p)) steps) (reset cfg c t f) = Ok s /\
    l_cycle s = (c + Z.of_nat (length steps))%Z /\ l_time s = t + Rsum (map fst steps) /\
    l_steps s = map fst steps /\ l_max_cycle s = l_cycle s /\ l_max_time s = l_time s /\
    l_min_cycle s = c /\ l_min_time s = t.
Proof.
  intros [Hnd Hst].
  set (P := fun (pre : list (R * fields)) s =>
    l_cycle s = (c + Z.of_nat (length pre))%Z /\ l_time s = t + Rsum (map fst pre) /\
    l_steps s = map fst pre /\ l_max_cycle s = l_cycle s /\ l_max_time s = l_time s /\
    l_min_cycle s = c /\ l_min_time s = t).
  assert (G : forall suf pre s, P pre s ->
    exists s', run cfg (map (fun p => OAdvance (fst p) (snd p)) suf) s = Ok s' /\ P (pre ++ suf) s').
  { induction suf as [|[dt g] suf IH]; intros pre s HP.
    - exists s. rewrite app_nil_r. now split.
    - simpl. destruct (IH (pre ++ [(dt, g)]) (advance cfg dt g s)) as (s' & E & HP').
      + destruct HP as (H1 & H2 & H3 & H4 & H5 & H6 & H7). unfold P, advance; simpl.
        rewrite H4. destruct (Z.ltb_spec (l_cycle s) (l_cycle s + 1)); [|lia].
        rewrite Hst, map_app, Rsum_app, app_length, H3, H1, H2. simpl.
        repeat split; auto; try lia; lra.
      + exists s'. split; auto. now rewrite <- app_assoc in HP'. }
  destruct (G steps [] (reset cfg c t f)) as (s & E & HP).
  - unfold P, reset; simpl. repeat split; auto; try lia; lra.
  - exists s. split; auto.
Qed.

End Ledger.
Arguments OAdvance {V}. Arguments OReverse {V}. Arguments OResetAdjoint {V}.
Arguments OSetState {V}. Arguments OReset {V}.
