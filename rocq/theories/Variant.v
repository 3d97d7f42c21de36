(** * The two-type variant (C38): infrastructure/variant.hpp *)
From Coq Require Import List Bool Arith Lia.
Import ListNotations.
From Verif Require Import StateMgr.

(** What an alternative does when destroyed: nothing, or release one reference (unique_ptr deletes, shared_ptr decrements).
    A value is one word, the address it refers to (None: null). Simplification: shared_ptr's two words are one. *)
Inductive kind := Plain | Owning.
Definition alts := bool -> kind.   (* false: T0, true: T1 *)
Record var := { idx : bool; bits : option nat }.
Definition drop (k : kind) (w : option nat) : list nat := match k, w with Owning, Some p => [p] | _, _ => [] end.
(** variant.hpp:149-152, 229-241 which alternative an argument type goes to; None: does not compile *)
Definition select (same0 assignable0 same1 assignable1 : bool) : option bool :=
  if same0 || assignable0 then Some false else if same1 || assignable1 then Some true else None.
(** variant.hpp:99-101 and 226-241: the default T0 is null; placement new over it loses nothing *)
Definition default_var : var := {| idx := false; bits := None |}.
Definition construct (i : bool) (w : option nat) : var := {| idx := i; bits := w |}.
(** variant.hpp:40-74 copy and move constructors: result, what is left of the source, references acquired *)
Definition copy_var (K : alts) (v : var) : var * list nat := (v, drop (K (idx v)) (bits v)).
Definition move_var (K : alts) (v : var) : var * var := (v, {| idx := idx v; bits := match K (idx v) with Owning => None | Plain => bits v end |}).
(** variant.hpp:80-93, 105 clear and destructor: references released *)
Definition clear (K : alts) (v : var) : list nat := drop (K (idx v)) (bits v).
(** variant.hpp:266-284 assignment at the level of memory: the destructor leaves the bytes, the member assignment releases what the target's bytes refer to *)
Definition assign_mem (K : alts) (v : var) (i : bool) (w : option nat) : var * list nat :=
  ({| idx := i; bits := w |}, (if Bool.eqb (idx v) i then [] else clear K v) ++ drop (K i) (bits v)).
(** ... and in the language: assigning to a class-type member that is not alive is undefined *)
Definition assign (K : alts) (v : var) (i : bool) (w : option nat) : outcome (var * list nat) :=
  if negb (Bool.eqb (idx v) i) && match K i with Owning => true | Plain => false end then Undef else Done (assign_mem K v i w).
(** variant.hpp:294-315 get, 375-407 holds_alternative, get_if, 360-368 visit, 428-437 retrieve *)
Definition get (v : var) (i : bool) : outcome (option nat) := if Bool.eqb (idx v) i then Done (bits v) else Undef.
Definition holds (v : var) (i : bool) : bool := Bool.eqb (idx v) i.
Definition get_if (v : var) (i : bool) : outcome (option (option nat)) := if holds v i then match get v i with Done x => Done (Some x) | Refused => Refused | Undef => Undef end else Done None.
Definition visit {A} (f : bool -> option nat -> A) (v : var) : outcome A := match get v (if negb (idx v) then false else true) with Done x => Done (f (if negb (idx v) then false else true) x) | Refused => Refused | Undef => Undef end.
Definition retrieve (v : var) : outcome nat := match visit (fun _ x => x) v with Done (Some p) => Done p | Done None => Undef | Refused => Refused | Undef => Undef end.

(** a history: assignments (alternative, value) one after another *)
Fixpoint run (K : alts) (v : var) (ops : list (bool * option nat)) : outcome (var * list nat) :=
  match ops with
  | [] => Done (v, [])
  | (i, w) :: ops' => match assign K v i w with
    | Done (v', out) => match run K v' ops' with Done (z, out') => Done (z, out ++ out') | Refused => Refused | Undef => Undef end
    | Refused => Refused | Undef => Undef end
  end.
(** ** specification: the references handed to the variant, and the last value *)
Definition given (K : alts) (ops : list (bool * option nat)) : list nat := flat_map (fun o => drop (K (fst o)) (snd o)) ops.
(** the history never turns the other alternative into an owning one *)
Fixpoint no_switch (K : alts) (cur : bool) (ops : list (bool * option nat)) : Prop :=
  match ops with [] => True | (i, _) :: ops' => (K i = Owning -> i = cur) /\ no_switch K i ops' end.
Lemma assign_ok K v i w : (K i = Owning -> i = idx v) -> assign K v i w = Done ({| idx := i; bits := w |}, drop (K (idx v)) (bits v)).
Proof.
  intros H. unfold assign, assign_mem, clear. destruct (Bool.eqb (idx v) i) eqn:E.
  - apply Bool.eqb_prop in E. rewrite <- E. reflexivity.
  - destruct (K i) eqn:Ki; cbn [negb andb]; [cbn [drop]; now rewrite app_nil_r|]. rewrite (H eq_refl), Bool.eqb_reflx in E. discriminate.
Qed.
Lemma run_ok K : forall ops v, no_switch K (idx v) ops -> exists z out, run K v ops = Done (z, out) /\ out ++ clear K z = clear K v ++ given K ops /\
  z = last (map (fun o => construct (fst o) (snd o)) ops) v.
Proof.
  induction ops as [|[i w] ops IH]; intros v H.
  - exists v, []. cbn. rewrite app_nil_r. auto.
  - destruct H as [H1 H2]. cbn [run]. rewrite (assign_ok K v i w H1). destruct (IH {| idx := i; bits := w |} H2) as [z [out [E1 [E2 E3]]]]. rewrite E1. eexists. eexists. split; [reflexivity|]. split.
    + rewrite <- app_assoc, E2. reflexivity.
    + rewrite E3. destruct ops as [|o ops]; [reflexivity|]. cbn [map]. change (last (map (fun o0 => construct (fst o0) (snd o0)) (o :: ops)) {| idx := i; bits := w |} = last (map (fun o0 => construct (fst o0) (snd o0)) (o :: ops)) v).
      clear. remember (map (fun o0 => construct (fst o0) (snd o0)) (o :: ops)) as l eqn:E. assert (Hl : l <> []) by (subst; discriminate). clear E. induction l as [|a l IHl]; [congruence|]. destruct l; [reflexivity|]. cbn [last]. apply IHl. discriminate.
Qed.
(** life of a variant: built from a value, assigned to, destroyed *)
Lemma life K i w ops : no_switch K i ops -> exists z out, run K (construct i w) ops = Done (z, out) /\ out ++ clear K z = given K ((i, w) :: ops) /\ z = last (map (fun o => construct (fst o) (snd o)) ops) (construct i w).
Proof. intros H. exact (run_ok K ops (construct i w) H). Qed.
Lemma plain_no_switch K ops : (forall i, K i = Plain) -> forall cur, no_switch K cur ops.
Proof. intros H. induction ops as [|[i w] ops IH]; intros cur; cbn; [exact Logic.I|]. split; [rewrite H; discriminate|apply IH]. Qed.
Lemma plain_life K i w ops : (forall i, K i = Plain) -> exists z, run K (construct i w) ops = Done (z, []) /\ clear K z = [] /\ z = last (map (fun o => construct (fst o) (snd o)) ops) (construct i w).
Proof.
  intros H. destruct (life K i w ops (plain_no_switch K ops H i)) as [z [out [E1 [E2 E3]]]]. exists z.
  assert (G : given K ((i, w) :: ops) = []). { clear - H. generalize ((i, w) :: ops). intros l. induction l as [|[j x] l IH]; [reflexivity|]. cbn. rewrite H. cbn. exact IH. }
  rewrite G in E2. apply app_eq_nil in E2. destruct E2 as [-> E2]. auto.
Qed.
Lemma switch_undef K v i w : K i = Owning -> i <> idx v -> assign K v i w = Undef.
Proof. intros H N. unfold assign. rewrite H. destruct (Bool.eqb (idx v) i) eqn:E; [apply Bool.eqb_prop in E; congruence|reflexivity]. Qed.
Lemma switch_memory K v i w p : K i = Owning -> i <> idx v -> bits v = Some p -> snd (assign_mem K v i w) = drop (K (idx v)) (Some p) ++ [p].
Proof. intros H N E. unfold assign_mem, clear. cbn [snd]. rewrite E, H. destruct (Bool.eqb (idx v) i) eqn:B; [apply Bool.eqb_prop in B; congruence|reflexivity]. Qed.
Lemma access_ok K v i w : idx v = i -> bits v = w -> get v i = Done w /\ get v (negb i) = Undef /\ holds v i = true /\ holds v (negb i) = false /\ get_if v i = Done (Some w) /\ get_if v (negb i) = Done None /\
  (forall A (f : bool -> option nat -> A), visit f v = Done (f i w)) /\ (forall p, w = Some p -> retrieve v = Done p) /\ fst (copy_var K v) = v /\ snd (copy_var K v) = clear K v /\ fst (move_var K v) = v /\ clear K (snd (move_var K v)) = [].
Proof. intros <- <-. destruct v as [[] b]; cbn; unfold get_if, retrieve, visit, clear, move_var, drop; cbn; repeat split; try (intros; reflexivity); try (intros p ->; reflexivity); destruct (K _); reflexivity. Qed.

(** MaybeOwningPointer<T> (variant.hpp:424) and GeneralCoefficient (finite_element_vector.hpp:29) *)
Definition maybe_owning : alts := fun i => if i then Owning else Plain.
Definition general_coefficient : alts := fun _ => Owning.
Lemma frees_foreign : snd (assign_mem maybe_owning (construct false (Some 7)) true (Some 8)) = [7] /\ ~ In 7 (given maybe_owning [(false, Some 7); (true, Some 8)]).
Proof. cbn. split; [reflexivity|]. intros [E|[]]; discriminate. Qed.
Lemma releases_twice : snd (assign_mem general_coefficient (construct false (Some 7)) true (Some 8)) = [7; 7] /\ given general_coefficient [(false, Some 7); (true, Some 8)] = [7; 8].
Proof. split; reflexivity. Qed.
(** ** the alternative an argument goes to: [fits i] says that its type is, or is assignable to, alternative i *)
Lemma select_fits s0 a0 s1 a1 : let fits := fun i : bool => (if i then s1 || a1 else s0 || a0) = true in
  (fits false -> select s0 a0 s1 a1 = Some false) /\ (~ fits false -> fits true -> select s0 a0 s1 a1 = Some true) /\ (select s0 a0 s1 a1 = None <-> ~ fits false /\ ~ fits true).
Proof. destruct s0, a0, s1, a1; cbn; repeat split; try congruence; intros; try tauto; try (destruct H; congruence). Qed.
