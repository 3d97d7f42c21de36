(** * The state manager (C36): physics/state/state_manager.cpp and state_manager.hpp *)
From Coq Require Import String List Bool Arith ZArith Reals Lia.
Import ListNotations.
Local Open Scope string_scope.

(** a call succeeds, stops with the documented error (SLIC_ERROR_ROOT), or has no defined behaviour *)
Inductive outcome (A : Type) := Done (a : A) | Refused | Undef.
Arguments Done {A} _. Arguments Refused {A}. Arguments Undef {A}.

Fixpoint assoc {A} (k : string) (l : list (string * A)) : option A := match l with [] => None | (k', a) :: r => if String.eqb k k' then Some a else assoc k r end.
Fixpoint put {A} (k : string) (a : A) (l : list (string * A)) : list (string * A) :=
  match l with [] => [(k, a)] | (k', b) :: r => if String.eqb k k' then (k, a) :: r else (k', b) :: put k a r end.
Lemma assoc_put_same {A} k (a : A) l : assoc k (put k a l) = Some a.
Proof. induction l as [|[k' b] l IH]; cbn [put assoc]; [now rewrite String.eqb_refl|]. destruct (String.eqb k k') eqn:E; cbn [assoc]; [now rewrite String.eqb_refl|now rewrite E]. Qed.
Lemma assoc_put_other {A} k j (a : A) l : j <> k -> assoc j (put k a l) = assoc j l.
Proof.
  intros N. induction l as [|[k' b] l IH]; cbn [put assoc]; [now rewrite (proj2 (String.eqb_neq j k) N)|].
  destruct (String.eqb_spec k k') as [->|E]; cbn [assoc]; [now rewrite (proj2 (String.eqb_neq j k') N)|]. destruct (String.eqb j k'); [reflexivity|exact IH].
Qed.

Section Manager.
(** V: true-dof vectors; G: grid functions. prolong = fillGridFunction (finite_element_state.hpp:113-117), restrict_ = GetTrueDofs
    (finite_element_state.hpp:124-131), scatter = transposed restriction used for duals (state_manager.hpp:204-210) *)
Variables V G : Type.
Variables (prolong scatter : V -> G) (restrict_ : G -> V) (zero : V).

(** one MFEMSidreDataCollection: its registered fields, time, cycle, and the address of its mesh *)
Record coll := { fields : list (string * G); ctime : R; ccycle : Z; mesh_at : nat }.
(** static members, state_manager.cpp:15-21; a named grid function pointer is (collection, field name) *)
Record mgr := { started : bool; colls : list (string * coll); shapes : list (string * V); restart : bool;
                named_states : list (string * (string * string)); named_duals : list (string * (string * string)); next_mesh : nat }.
(** files written so far: collection name and cycle *)
Notation disk := (string -> Z -> option coll).
Definition cleared : mgr := {| started := false; colls := []; shapes := []; restart := false; named_states := []; named_duals := []; next_mesh := 0 |}.
(** state_manager.cpp:117-130 initialize with a fresh data store; state_manager.hpp:248-257 reset.
    Mesh addresses are never reused while a collection holds them, so the counter may go on *)
Definition initialize (m : mgr) (dir : string) : outcome mgr :=
  if String.eqb dir "" then Refused
  else Done {| started := true; colls := []; shapes := []; restart := false; named_states := []; named_duals := []; next_mesh := next_mesh m |}.
Definition has_mesh (m : mgr) (tag : string) : bool := match assoc tag (colls m) with Some _ => true | None => false end.
Definition has_state (m : mgr) (n : string) : bool := match assoc n (named_states m) with Some _ => true | None => false end.
Definition has_dual (m : mgr) (n : string) : bool := match assoc n (named_duals m) with Some _ => true | None => false end.
(** state_manager.cpp:299-309 collectionID, a comparison of mesh addresses *)
Fixpoint find_mesh (a : nat) (l : list (string * coll)) : option string := match l with [] => None | (t, c) :: r => if Nat.eqb (mesh_at c) a then Some t else find_mesh a r end.
Definition collection_id (m : mgr) (a : nat) : outcome string := match find_mesh a (colls m) with Some t => Done t | None => Refused end.
Definition set_fields (m : mgr) (tag : string) (c : coll) (f : list (string * G)) (s d : list (string * (string * string))) : mgr :=
  {| started := started m; colls := put tag {| fields := f; ctime := ctime c; ccycle := ccycle c; mesh_at := mesh_at c |} (colls m); shapes := shapes m; restart := restart m;
     named_states := s; named_duals := d; next_mesh := next_mesh m |}.
(** state_manager.cpp:137-158 storeState on the mesh at address [a]; [junk] is what the newly allocated buffer happens to hold;
    returns the values the caller's state ends with *)
Definition store_state (m : mgr) (a : nat) (name : string) (junk : G) : outcome (mgr * V) :=
  if negb (started m) then Refused
  else match collection_id m a with
  | Done tag =>
    if has_state m name then Refused
    else match assoc tag (colls m) with
    | None => Undef
    | Some c =>
      if restart m then
        match assoc name (fields c) with
        | Some g => Done (set_fields m tag c (fields c) (put name (tag, name) (named_states m)) (named_duals m), restrict_ g)
        | None => Undef
        end
      else match assoc name (fields c) with
        | Some _ => Refused
        | None => Done (set_fields m tag c (fields c ++ [(name, junk)]) (put name (tag, name) (named_states m)) (named_duals m), restrict_ junk)
        end
    end
  | Refused => Refused | Undef => Undef
  end.
(** state_manager.cpp:174-200 storeDual *)
Definition store_dual (m : mgr) (a : nat) (name : string) (junk : G) : outcome (mgr * V) :=
  if negb (started m) then Refused
  else match collection_id m a with
  | Done tag =>
    if has_dual m name then Refused
    else match assoc tag (colls m) with
    | None => Undef
    | Some c =>
      if restart m then
        match assoc name (fields c) with
        | Some g => Done (set_fields m tag c (fields c) (named_states m) (put name (tag, name) (named_duals m)), restrict_ g)
        | None => Undef
        end
      else match assoc name (fields c) with
        | Some _ => Refused
        | None => Done (set_fields m tag c (fields c ++ [(name, junk)]) (named_states m) (put name (tag, name) (named_duals m)), restrict_ junk)
        end
    end
  | Refused => Refused | Undef => Undef
  end.
(** state_manager.hpp:66-78, 129-141 newState and newDual by tag *)
Definition mesh (m : mgr) (tag : string) : outcome nat := match assoc tag (colls m) with Some c => Done (mesh_at c) | None => Refused end.
Definition new_state (m : mgr) (name tag : string) (junk : G) : outcome (mgr * V) :=
  if negb (started m) then Refused else match mesh m tag with Done a => if has_state m name then Refused else store_state m a name junk | Refused => Refused | Undef => Undef end.
Definition new_dual (m : mgr) (name tag : string) (junk : G) : outcome (mgr * V) :=
  if negb (started m) then Refused else match mesh m tag with Done a => if has_dual m name then Refused else store_dual m a name junk | Refused => Refused | Undef => Undef end.
(** state_manager.hpp:188-194, 204-210 updateState and updateDual: write through the stored pointer *)
Definition write_field (m : mgr) (p : string * string) (g : G) : outcome mgr :=
  match assoc (fst p) (colls m) with
  | Some c => Done (set_fields m (fst p) c (put (snd p) g (fields c)) (named_states m) (named_duals m))
  | None => Undef
  end.
Definition update_state (m : mgr) (name : string) (v : V) : outcome mgr := match assoc name (named_states m) with Some p => write_field m p (prolong v) | None => Refused end.
Definition update_dual (m : mgr) (name : string) (v : V) : outcome mgr := match assoc name (named_duals m) with Some p => write_field m p (scatter v) | None => Refused end.
(** state_manager.cpp:217-230 save: the collection as it stands, with the given time and cycle *)
Definition save (m : mgr) (d : disk) (t : R) (cyc : Z) (tag : string) : outcome (mgr * disk) :=
  if negb (started m) then Refused
  else match assoc tag (colls m) with
  | None => Refused
  | Some c =>
    let c' := {| fields := fields c; ctime := t; ccycle := cyc; mesh_at := mesh_at c |} in
    Done ({| started := started m; colls := put tag c' (colls m); shapes := shapes m; restart := restart m; named_states := named_states m; named_duals := named_duals m; next_mesh := next_mesh m |},
          fun tag' cyc' => if (String.eqb tag' tag && Z.eqb cyc' cyc)%bool then Some c' else d tag' cyc')
  end.
(** state_manager.cpp:271-291 constructShapeFields: stored, then the field object is set to zero *)
Definition shape_name (tag : string) : string := tag ++ "_shape_displacement".
Definition construct_shape (m : mgr) (tag : string) (junk : G) : outcome mgr :=
  match mesh m tag with
  | Done a => match store_state m a (shape_name tag) junk with
              | Done (m', _) => Done {| started := started m'; colls := colls m'; shapes := put tag zero (shapes m'); restart := restart m'; named_states := named_states m'; named_duals := named_duals m'; next_mesh := next_mesh m' |}
              | Refused => Refused | Undef => Undef
              end
  | Refused => Refused | Undef => Undef
  end.
Definition with_coll (m : mgr) (tag : string) (c : coll) (rst : bool) : mgr :=
  {| started := started m; colls := colls m ++ [(tag, c)]; shapes := shapes m; restart := rst; named_states := named_states m; named_duals := named_duals m; next_mesh := S (next_mesh m) |}.
(** state_manager.cpp:23-92, 232-269 setMesh; creating the groups of a tag in use gives a null group *)
Definition set_mesh (m : mgr) (tag : string) (junk : G) : outcome mgr :=
  if negb (started m) then Refused
  else if has_mesh m tag then Undef
  else construct_shape (with_coll m tag {| fields := []; ctime := 0; ccycle := 0; mesh_at := next_mesh m |} (restart m)) tag junk.
(** state_manager.hpp:230-236 load; the mesh is rebuilt at a new address. Refused: Sidre cannot find the file *)
Definition load (m : mgr) (d : disk) (cyc : Z) (tag : string) (junk : G) : outcome (mgr * R) :=
  if negb (started m) then Refused
  else if has_mesh m tag then Undef
  else match d tag cyc with
  | None => Refused
  | Some c => match construct_shape (with_coll m tag {| fields := fields c; ctime := ctime c; ccycle := ccycle c; mesh_at := next_mesh m |} true) tag junk with
              | Done m' => Done (m', ctime c)
              | Refused => Refused | Undef => Undef
              end
  end.
(** state_manager.cpp:94-115 loadCheckpointedStates for the fields [names] on collection [tag] *)
Fixpoint read_all (f : list (string * G)) (names : list string) : outcome (list V) :=
  match names with
  | [] => Done []
  | n :: r => match assoc n f with Some g => match read_all f r with Done l => Done (restrict_ g :: l) | Refused => Refused | Undef => Undef end | None => Undef end
  end.
Definition load_checkpointed (d : disk) (cyc : Z) (tag : string) (names : list string) : outcome (list V) := match d tag cyc with None => Refused | Some c => read_all (fields c) names end.

(** ** histories: any sequence of successful calls; the junk of every allocation is arbitrary *)
Inductive op := OInit (dir : string) | OMesh (tag : string) (j : G) | OLoad (cyc : Z) (tag : string) (j : G) | OStore (a : nat) (n : string) (j : G) | ODual (a : nat) (n : string) (j : G)
  | OUpdate (n : string) (v : V) | OUpdateDual (n : string) (v : V) | OSave (t : R) (cyc : Z) (tag : string).
Definition keep {A} (d : disk) (x : outcome A) (f : A -> mgr) : outcome (mgr * disk) := match x with Done a => Done (f a, d) | Refused => Refused | Undef => Undef end.
Definition exec (s : mgr * disk) (o : op) : outcome (mgr * disk) :=
  let (m, d) := s in
  match o with
  | OInit dir => keep d (initialize m dir) (fun m' => m')
  | OMesh tag j => keep d (set_mesh m tag j) (fun m' => m')
  | OLoad cyc tag j => keep d (load m d cyc tag j) fst
  | OStore a n j => keep d (store_state m a n j) fst
  | ODual a n j => keep d (store_dual m a n j) fst
  | OUpdate n v => keep d (update_state m n v) (fun m' => m')
  | OUpdateDual n v => keep d (update_dual m n v) (fun m' => m')
  | OSave t cyc tag => save m d t cyc tag
  end.
Fixpoint run (s : mgr * disk) (ops : list op) : outcome (mgr * disk) :=
  match ops with [] => Done s | o :: r => match exec s o with Done s' => run s' r | Refused => Refused | Undef => Undef end end.

(** field of a collection, if any *)
Definition field (m : mgr) (tag name : string) : option G := match assoc tag (colls m) with Some c => assoc name (fields c) | None => None end.

(** ** invariant *)
Record inv (m : mgr) : Prop := {
  v_in : forall tag c, In (tag, c) (colls m) -> (mesh_at c < next_mesh m)%nat;
  v_addr : forall tag c, assoc tag (colls m) = Some c -> find_mesh (mesh_at c) (colls m) = Some tag;
  v_state : forall n t f, assoc n (named_states m) = Some (t, f) -> f = n /\ exists g, field m t n = Some g;
  v_dual : forall n t f, assoc n (named_duals m) = Some (t, f) -> f = n /\ exists g, field m t n = Some g
}.
Lemma find_mesh_in a l t : find_mesh a l = Some t -> exists c, In (t, c) l /\ mesh_at c = a.
Proof. induction l as [|[t' c'] l IH]; cbn [find_mesh]; [discriminate|]. destruct (Nat.eqb_spec (mesh_at c') a); intros E; [injection E as <-; exists c'; split; [now left|assumption]|]. destruct (IH E) as [c [H1 H2]]. exists c. split; [now right|exact H2]. Qed.
Lemma find_put a t c l : (forall c0, assoc t l = Some c0 -> mesh_at c0 = mesh_at c) -> assoc t l <> None -> find_mesh a (put t c l) = find_mesh a l.
Proof.
  induction l as [|[t' c'] l IH]; cbn [assoc put find_mesh]; intros H N; [contradiction|]. destruct (String.eqb_spec t t') as [->|E]; cbn [find_mesh]; [now rewrite (H c' eq_refl)|].
  now rewrite (IH H N).
Qed.
Lemma find_app a l t c : find_mesh a (l ++ [(t, c)]) = match find_mesh a l with Some x => Some x | None => if Nat.eqb (mesh_at c) a then Some t else None end.
Proof. induction l as [|[t' c'] l IH]; cbn [app find_mesh]; [reflexivity|]. destruct (Nat.eqb (mesh_at c') a); [reflexivity|exact IH]. Qed.
Lemma assoc_app {A} k (l : list (string * A)) x a : assoc k (l ++ [(x, a)]) = match assoc k l with Some b => Some b | None => if String.eqb k x then Some a else None end.
Proof. induction l as [|[k' b] l IH]; cbn [app assoc]; [reflexivity|]. destruct (String.eqb k k'); [reflexivity|exact IH]. Qed.
Lemma field_set m tag c f s d t n : assoc tag (colls m) = Some c -> field (set_fields m tag c f s d) t n = if String.eqb t tag then assoc n f else field m t n.
Proof.
  intros E. unfold field. cbn [set_fields colls]. destruct (String.eqb_spec t tag) as [->|N]; [now rewrite assoc_put_same|now rewrite assoc_put_other].
Qed.
Lemma in_put {A} t (c : A) l t' c' : In (t', c') (put t c l) -> In (t', c') l \/ c' = c.
Proof.
  induction l as [|[t1 c1] l IH]; cbn [put]; intros H; [destruct H as [H|[]]; injection H as <- <-; now right|]. destruct (String.eqb t t1); destruct H as [H|H].
  - injection H as <- <-. now right.
  - left. now right.
  - left. now left.
  - destruct (IH H) as [H1|H1]; [left; now right|now right].
Qed.
Lemma assoc_in {A} k (l : list (string * A)) a : assoc k l = Some a -> In (k, a) l.
Proof. induction l as [|[k' b] l IH]; cbn [assoc]; [discriminate|]. destruct (String.eqb_spec k k') as [->|N]; intros E; [injection E as ->; now left|right; auto]. Qed.
Lemma addr_set m tag c f s d : inv m -> assoc tag (colls m) = Some c ->
  forall t c0, assoc t (colls (set_fields m tag c f s d)) = Some c0 -> find_mesh (mesh_at c0) (colls (set_fields m tag c f s d)) = Some t.
Proof.
  intros I E t c0 H. cbn [set_fields colls] in *. rewrite find_put; [|intros c1 H1; rewrite E in H1; injection H1 as <-; reflexivity|congruence].
  destruct (string_dec t tag) as [->|N].
  - rewrite assoc_put_same in H. injection H as <-. cbn [mesh_at]. exact (v_addr m I tag c E).
  - rewrite assoc_put_other in H by exact N. exact (v_addr m I t c0 H).
Qed.
Lemma inv_set m tag c f s d : inv m -> assoc tag (colls m) = Some c -> (forall n g, assoc n (fields c) = Some g -> exists g', assoc n f = Some g') ->
  (forall n p, assoc n s = Some p -> assoc n (named_states m) = Some p \/ (p = (tag, n) /\ exists g, assoc n f = Some g)) ->
  (forall n p, assoc n d = Some p -> assoc n (named_duals m) = Some p \/ (p = (tag, n) /\ exists g, assoc n f = Some g)) -> inv (set_fields m tag c f s d).
Proof.
  intros I E Hf Hs Hd.
  assert (K : forall t n g, field m t n = Some g -> exists g', field (set_fields m tag c f s d) t n = Some g').
  { intros t n g H. rewrite (field_set m tag c f s d t n E). destruct (String.eqb_spec t tag) as [->|N]; [|eauto]. unfold field in H. rewrite E in H. eauto. }
  constructor.
  - intros t c0 H. cbn [set_fields colls] in H. apply in_put in H. cbn [set_fields next_mesh]. destruct H as [H| ->]; [exact (v_in m I t c0 H)|]. cbn [mesh_at]. exact (v_in m I tag c (assoc_in _ _ _ E)).
  - exact (addr_set m tag c f s d I E).
  - intros n t f0 H. cbn [set_fields named_states] in H. destruct (Hs n _ H) as [H1|[H1 H2]].
    + destruct (v_state m I n t f0 H1) as [A [g B]]. split; [exact A|exact (K _ _ _ B)].
    + injection H1 as -> ->. split; [reflexivity|]. rewrite (field_set m tag c f s d _ _ E), String.eqb_refl. exact H2.
  - intros n t f0 H. cbn [set_fields named_duals] in H. destruct (Hd n _ H) as [H1|[H1 H2]].
    + destruct (v_dual m I n t f0 H1) as [A [g B]]. split; [exact A|exact (K _ _ _ B)].
    + injection H1 as -> ->. split; [reflexivity|]. rewrite (field_set m tag c f s d _ _ E), String.eqb_refl. exact H2.
Qed.
Lemma put_cases {A} n (p q : A) k l : assoc n (put k q l) = Some p -> assoc n l = Some p \/ (n = k /\ p = q).
Proof. destruct (string_dec n k) as [->|N]; [rewrite assoc_put_same; intros E; injection E as <-; now right|rewrite assoc_put_other by exact N; now left]. Qed.
(** both stores: what success means *)
Definition entered (m m' : mgr) (tag name : string) (junk : G) (v : V) (s d : list (string * (string * string))) : Prop :=
  exists c, assoc tag (colls m) = Some c /\ started m = true /\
   ((restart m = true /\ exists g, assoc name (fields c) = Some g /\ v = restrict_ g /\ m' = set_fields m tag c (fields c) s d) \/
    (restart m = false /\ assoc name (fields c) = None /\ v = restrict_ junk /\ m' = set_fields m tag c (fields c ++ [(name, junk)]) s d)).
Lemma store_state_inv m a name junk m' v : store_state m a name junk = Done (m', v) -> exists tag, find_mesh a (colls m) = Some tag /\ has_state m name = false /\
  entered m m' tag name junk v (put name (tag, name) (named_states m)) (named_duals m).
Proof.
  unfold store_state, collection_id. destruct (started m) eqn:St; cbn [negb]; [|discriminate]. destruct (find_mesh a (colls m)) as [tag|]; [|discriminate]. destruct (has_state m name) eqn:Hs; [discriminate|].
  destruct (assoc tag (colls m)) as [c|] eqn:E; [|discriminate]. intros H. exists tag. split; [reflexivity|]. split; [reflexivity|]. exists c. split; [exact E|]. split; [exact St|]. destruct (restart m).
  - left. split; [reflexivity|]. destruct (assoc name (fields c)) as [g|] eqn:Ef; [|discriminate]. injection H as <- <-. exists g. auto.
  - right. split; [reflexivity|]. destruct (assoc name (fields c)) as [g|] eqn:Ef; [discriminate|]. injection H as <- <-. auto.
Qed.
Lemma store_dual_inv m a name junk m' v : store_dual m a name junk = Done (m', v) -> exists tag, find_mesh a (colls m) = Some tag /\ has_dual m name = false /\
  entered m m' tag name junk v (named_states m) (put name (tag, name) (named_duals m)).
Proof.
  unfold store_dual, collection_id. destruct (started m) eqn:St; cbn [negb]; [|discriminate]. destruct (find_mesh a (colls m)) as [tag|]; [|discriminate]. destruct (has_dual m name) eqn:Hs; [discriminate|].
  destruct (assoc tag (colls m)) as [c|] eqn:E; [|discriminate]. intros H. exists tag. split; [reflexivity|]. split; [reflexivity|]. exists c. split; [exact E|]. split; [exact St|]. destruct (restart m).
  - left. split; [reflexivity|]. destruct (assoc name (fields c)) as [g|] eqn:Ef; [|discriminate]. injection H as <- <-. exists g. auto.
  - right. split; [reflexivity|]. destruct (assoc name (fields c)) as [g|] eqn:Ef; [discriminate|]. injection H as <- <-. auto.
Qed.
Lemma entered_inv m m' tag name junk v s d : inv m -> entered m m' tag name junk v s d ->
  ((s = put name (tag, name) (named_states m) /\ d = named_duals m) \/ (s = named_states m /\ d = put name (tag, name) (named_duals m))) -> inv m'.
Proof.
  intros I [c [E [St [[Rs [g [Ef [Ev ->]]]]|[Rs [Ef [Ev ->]]]]]]] Hsd; apply inv_set; auto.
  - eauto.
  - destruct Hsd as [[-> ->]|[-> ->]]; [|auto]. intros n p H. apply put_cases in H. destruct H as [H|[-> ->]]; [now left|right; split; [reflexivity|eauto]].
  - destruct Hsd as [[-> ->]|[-> ->]]; [auto|]. intros n p H. apply put_cases in H. destruct H as [H|[-> ->]]; [now left|right; split; [reflexivity|eauto]].
  - intros n g H. rewrite assoc_app, H. eauto.
  - destruct Hsd as [[-> ->]|[-> ->]]; [|auto]. intros n p H. apply put_cases in H. destruct H as [H|[-> ->]]; [now left|right; split; [reflexivity|]]. rewrite assoc_app, Ef, String.eqb_refl. eauto.
  - destruct Hsd as [[-> ->]|[-> ->]]; [auto|]. intros n p H. apply put_cases in H. destruct H as [H|[-> ->]]; [now left|right; split; [reflexivity|]]. rewrite assoc_app, Ef, String.eqb_refl. eauto.
Qed.
Lemma inv_cleared : inv cleared.
Proof. constructor; cbn; intros; [contradiction|discriminate..]. Qed.
Lemma has_mesh_none m tag : has_mesh m tag = false -> assoc tag (colls m) = None.
Proof. unfold has_mesh. destruct (assoc tag (colls m)); [discriminate|reflexivity]. Qed.
Lemma find_bound a l : (forall t c, In (t, c) l -> (mesh_at c < a)%nat) -> find_mesh a l = None.
Proof. induction l as [|[t' c'] l IH]; intros H; cbn [find_mesh]; [reflexivity|]. pose proof (H t' c' (or_introl eq_refl)). rewrite (proj2 (Nat.eqb_neq _ _)) by lia. apply IH. intros; eapply H; right; eassumption. Qed.
Lemma field_with m tag c b t n : assoc tag (colls m) = None -> field (with_coll m tag c b) t n = if String.eqb t tag then assoc n (fields c) else field m t n.
Proof.
  intros N. unfold field. cbn [with_coll colls]. rewrite assoc_app. destruct (String.eqb_spec t tag) as [->|E]; [now rewrite N|]. destruct (assoc t (colls m)); reflexivity.
Qed.
Lemma inv_with m tag c b : inv m -> assoc tag (colls m) = None -> mesh_at c = next_mesh m -> inv (with_coll m tag c b).
Proof.
  intros I N A. pose proof (find_bound (next_mesh m) (colls m) (v_in m I)) as Fr.
  assert (F : forall t n g, field m t n = Some g -> field (with_coll m tag c b) t n = Some g).
  { intros t n g H. rewrite (field_with m tag c b t n N). destruct (String.eqb_spec t tag) as [->|]; [unfold field in H; rewrite N in H; discriminate|exact H]. }
  constructor; cbn [with_coll next_mesh named_states named_duals colls].
  - intros t c0 H. apply in_app_or in H. destruct H as [H|[H|[]]]; [pose proof (v_in m I t c0 H); lia|]. injection H as <- <-. lia.
  - intros t c0 H. rewrite assoc_app in H. rewrite find_app. destruct (assoc t (colls m)) as [c1|] eqn:E.
    + injection H as <-. now rewrite (v_addr m I t c1 E).
    + destruct (String.eqb_spec t tag) as [->|]; [|discriminate]. injection H as <-. rewrite A, Fr, Nat.eqb_refl. reflexivity.
  - intros n t f H. destruct (v_state m I n t f H) as [E [g Hg]]. split; [exact E|]. exists g. apply F. exact Hg.
  - intros n t f H. destruct (v_dual m I n t f H) as [E [g Hg]]. split; [exact E|]. exists g. apply F. exact Hg.
Qed.
Lemma inv_shapes m sh : inv m -> inv {| started := started m; colls := colls m; shapes := sh; restart := restart m; named_states := named_states m; named_duals := named_duals m; next_mesh := next_mesh m |}.
Proof. intros [A B C D]. constructor; assumption. Qed.
Lemma construct_inv m tag junk m' : construct_shape m tag junk = Done m' -> exists a m1 v, mesh m tag = Done a /\ store_state m a (shape_name tag) junk = Done (m1, v) /\
  m' = {| started := started m1; colls := colls m1; shapes := put tag zero (shapes m1); restart := restart m1; named_states := named_states m1; named_duals := named_duals m1; next_mesh := next_mesh m1 |}.
Proof.
  unfold construct_shape. destruct (mesh m tag) as [a| |] eqn:E; try discriminate. destruct (store_state m a (shape_name tag) junk) as [[m1 v]| |] eqn:Es; try discriminate. intros H. injection H as <-. exists a, m1, v. auto.
Qed.
Lemma store_ok m a name junk m' v : inv m -> store_state m a name junk = Done (m', v) -> inv m'.
Proof. intros I H. destruct (store_state_inv _ _ _ _ _ _ H) as [tag [_ [_ En]]]. apply (entered_inv _ _ _ _ _ _ _ _ I En). now left. Qed.
Lemma dual_ok m a name junk m' v : inv m -> store_dual m a name junk = Done (m', v) -> inv m'.
Proof. intros I H. destruct (store_dual_inv _ _ _ _ _ _ H) as [tag [_ [_ En]]]. apply (entered_inv _ _ _ _ _ _ _ _ I En). now right. Qed.
Lemma construct_ok m tag junk m' : inv m -> construct_shape m tag junk = Done m' -> inv m'.
Proof. intros I H. destruct (construct_inv _ _ _ _ H) as [a [m1 [v [_ [Es ->]]]]]. apply inv_shapes. exact (store_ok _ _ _ _ _ _ I Es). Qed.
Lemma set_mesh_inv m tag junk m' : set_mesh m tag junk = Done m' -> started m = true /\ assoc tag (colls m) = None /\
  construct_shape (with_coll m tag {| fields := []; ctime := 0; ccycle := 0; mesh_at := next_mesh m |} (restart m)) tag junk = Done m'.
Proof. unfold set_mesh. destruct (started m); cbn [negb]; [|discriminate]. destruct (has_mesh m tag) eqn:E; [discriminate|]. intros H. split; [reflexivity|]. split; [exact (has_mesh_none _ _ E)|exact H]. Qed.
Lemma load_inv m d cyc tag junk m' t : load m d cyc tag junk = Done (m', t) -> started m = true /\ assoc tag (colls m) = None /\ exists c, d tag cyc = Some c /\ t = ctime c /\
  construct_shape (with_coll m tag {| fields := fields c; ctime := ctime c; ccycle := ccycle c; mesh_at := next_mesh m |} true) tag junk = Done m'.
Proof.
  unfold load. destruct (started m); cbn [negb]; [|discriminate]. destruct (has_mesh m tag) eqn:E; [discriminate|]. destruct (d tag cyc) as [c|]; [|discriminate].
  destruct (construct_shape _ tag junk) as [m1| |] eqn:Ec; try discriminate. intros H. injection H as <- <-. split; [reflexivity|]. split; [exact (has_mesh_none _ _ E)|]. exists c. auto.
Qed.
Lemma write_inv m p g m' : write_field m p g = Done m' -> exists c, assoc (fst p) (colls m) = Some c /\ m' = set_fields m (fst p) c (put (snd p) g (fields c)) (named_states m) (named_duals m).
Proof. unfold write_field. destruct (assoc (fst p) (colls m)) as [c|]; [|discriminate]. intros H. injection H as <-. eauto. Qed.
Lemma write_ok m p g m' : inv m -> write_field m p g = Done m' -> inv m'.
Proof.
  intros I H. destruct (write_inv _ _ _ _ H) as [c [E ->]]. apply inv_set; auto. intros n g0 Hg. destruct (string_dec n (snd p)) as [->|N]; [rewrite assoc_put_same; eauto|rewrite assoc_put_other by exact N; eauto].
Qed.
Lemma save_inv m d t cyc tag m' d' : save m d t cyc tag = Done (m', d') -> exists c, assoc tag (colls m) = Some c /\
  let c' := {| fields := fields c; ctime := t; ccycle := cyc; mesh_at := mesh_at c |} in
  m' = {| started := started m; colls := put tag c' (colls m); shapes := shapes m; restart := restart m; named_states := named_states m; named_duals := named_duals m; next_mesh := next_mesh m |} /\
  d' = (fun tag' cyc' => if (String.eqb tag' tag && Z.eqb cyc' cyc)%bool then Some c' else d tag' cyc').
Proof. unfold save. destruct (negb (started m)); [discriminate|]. destruct (assoc tag (colls m)) as [c|]; [|discriminate]. intros H. injection H as <- <-. exists c. auto. Qed.
Lemma field_save m d t cyc tag m' d' : save m d t cyc tag = Done (m', d') -> forall tg n, field m' tg n = field m tg n.
Proof.
  intros H tg n. destruct (save_inv _ _ _ _ _ _ _ H) as [c [E [-> _]]]. unfold field. cbn [colls]. destruct (string_dec tg tag) as [->|N]; [rewrite assoc_put_same, E; reflexivity|now rewrite assoc_put_other].
Qed.
Lemma save_ok m d t cyc tag m' d' : inv m -> save m d t cyc tag = Done (m', d') -> inv m'.
Proof.
  intros I H. pose proof (field_save _ _ _ _ _ _ _ H) as F. destruct (save_inv _ _ _ _ _ _ _ H) as [c [E [Em _]]]. constructor.
  - rewrite Em. cbn [colls next_mesh]. intros tg c0 Hc. apply in_put in Hc. destruct Hc as [Hc| ->]; [exact (v_in m I tg c0 Hc)|]. cbn [mesh_at]. exact (v_in m I tag c (assoc_in _ _ _ E)).
  - rewrite Em. cbn [colls]. intros tg c0 Hc. rewrite find_put; [|intros c1 H1; rewrite E in H1; injection H1 as <-; reflexivity|congruence].
    destruct (string_dec tg tag) as [->|N]; [rewrite assoc_put_same in Hc; injection Hc as <-; exact (v_addr m I tag c E)|rewrite assoc_put_other in Hc by exact N; exact (v_addr m I tg c0 Hc)].
  - intros n tg f Hn. rewrite F. apply (v_state m I n tg f). subst m'. exact Hn.
  - intros n tg f Hn. rewrite F. apply (v_dual m I n tg f). subst m'. exact Hn.
Qed.
Lemma init_ok m dir m' : initialize m dir = Done m' -> inv m' /\ started m' = true /\ restart m' = false /\ colls m' = [] /\ named_states m' = [] /\ named_duals m' = [].
Proof. unfold initialize. destruct (String.eqb dir ""); [discriminate|]. intros H. injection H as <-. cbn. repeat split; auto; cbn; intros; try discriminate. destruct H. Qed.
Lemma keep_done {A} d (x : outcome A) f m' d' : keep d x f = Done (m', d') -> exists a, x = Done a /\ m' = f a /\ d' = d.
Proof. unfold keep. destruct x as [a| |]; try discriminate. intros H. injection H as <- <-. eauto. Qed.
Lemma update_inv m n v m' : update_state m n v = Done m' -> exists p, assoc n (named_states m) = Some p /\ write_field m p (prolong v) = Done m'.
Proof. unfold update_state. destruct (assoc n (named_states m)); [eauto|discriminate]. Qed.
Lemma updated_inv m n v m' : update_dual m n v = Done m' -> exists p, assoc n (named_duals m) = Some p /\ write_field m p (scatter v) = Done m'.
Proof. unfold update_dual. destruct (assoc n (named_duals m)); [eauto|discriminate]. Qed.
Lemma exec_ok m d o m' d' : exec (m, d) o = Done (m', d') -> inv m -> inv m'.
Proof.
  intros S I. destruct o as [dir|tag j|cyc tag j|a n j|a n j|n v|n v|t cyc tag]; cbn [exec] in S; try (destruct (keep_done _ _ _ _ _ S) as [x [H [-> _]]]).
  - apply (init_ok _ _ _ H).
  - destruct (set_mesh_inv _ _ _ _ H) as [_ [N C]]. refine (construct_ok _ _ _ _ (inv_with _ _ _ _ I N _) C). reflexivity.
  - destruct x as [m1 t]. destruct (load_inv _ _ _ _ _ _ _ H) as [_ [N [c [_ [_ C]]]]]. refine (construct_ok _ _ _ _ (inv_with _ _ _ _ I N _) C). reflexivity.
  - destruct x as [m1 v]. exact (store_ok _ _ _ _ _ _ I H).
  - destruct x as [m1 v]. exact (dual_ok _ _ _ _ _ _ I H).
  - destruct (update_inv _ _ _ _ H) as [p [_ W]]. exact (write_ok _ _ _ _ I W).
  - destruct (updated_inv _ _ _ _ H) as [p [_ W]]. exact (write_ok _ _ _ _ I W).
  - exact (save_ok _ _ _ _ _ _ _ I S).
Qed.
Lemma run_ok : forall ops m d m' d', run (m, d) ops = Done (m', d') -> inv m -> inv m'.
Proof.
  induction ops as [|o ops IH]; intros m d m' d' H I; cbn [run] in H; [injection H as <- <-; exact I|]. destruct (exec (m, d) o) as [[m1 d1]| |] eqn:E; try discriminate. exact (IH _ _ _ _ H (exec_ok _ _ _ _ _ E I)).
Qed.
Definition reached (m : mgr) (d : disk) : Prop := exists d0 ops, run (cleared, d0) ops = Done (m, d).
Lemma reached_inv m d : reached m d -> inv m.
Proof. intros [d0 [ops H]]. exact (run_ok _ _ _ _ _ H inv_cleared). Qed.
Lemma run_app : forall a b s, run s (a ++ b)%list = match run s a with Done s' => run s' b | Refused => Refused | Undef => Undef end.
Proof. induction a as [|o a IH]; intros b s; [reflexivity|]. cbn [app run]. destruct (exec s o); auto. Qed.
Lemma reached_run m d ops m' d' : reached m d -> run (m, d) ops = Done (m', d') -> reached m' d'.
Proof. intros [d0 [o H]] R. exists d0, (o ++ ops)%list. now rewrite run_app, H. Qed.

(** ** lookup by mesh and by name *)
Lemma lookup_ok m d : reached m d -> (forall tag a, mesh m tag = Done a -> collection_id m a = Done tag) /\
  (forall n t f, assoc n (named_states m) = Some (t, f) -> f = n /\ exists g, field m t n = Some g) /\
  (forall n t f, assoc n (named_duals m) = Some (t, f) -> f = n /\ exists g, field m t n = Some g).
Proof.
  intros Rm. pose proof (reached_inv m d Rm) as I. split; [|split; [apply (v_state m I)|apply (v_dual m I)]]. intros tag a H. unfold mesh in H. destruct (assoc tag (colls m)) as [c|] eqn:E; [|discriminate]. injection H as <-.
  unfold collection_id. now rewrite (v_addr m I tag c E).
Qed.
(** a used name is refused *)
Lemma used_name m a n j tag : (has_state m n = true -> store_state m a n j = Refused /\ new_state m n tag j = Refused) /\ (has_dual m n = true -> store_dual m a n j = Refused /\ new_dual m n tag j = Refused).
Proof.
  split; intros H; unfold store_state, new_state, store_dual, new_dual, collection_id, mesh; rewrite H; destruct (started m); cbn [negb]; split; auto.
  - destruct (find_mesh a (colls m)); reflexivity.
  - destruct (assoc tag (colls m)); reflexivity.
  - destruct (find_mesh a (colls m)); reflexivity.
  - destruct (assoc tag (colls m)); reflexivity.
Qed.
(** what a successful store does; nothing else moves *)
Lemma store_effect m d a n j m' v : reached m d -> store_state m a n j = Done (m', v) -> exists tag, collection_id m a = Done tag /\ has_state m n = false /\ assoc n (named_states m') = Some (tag, n) /\
  (forall k, k <> n -> assoc k (named_states m') = assoc k (named_states m)) /\ named_duals m' = named_duals m /\ (exists g, field m' tag n = Some g /\ v = restrict_ g) /\
  (forall t k, (t, k) <> (tag, n) -> field m' t k = field m t k) /\ (restart m = true -> field m' tag n = field m tag n).
Proof.
  intros Rm H. destruct (store_state_inv _ _ _ _ _ _ H) as [tag [F [Hs [c [E [St D]]]]]]. exists tag. unfold collection_id. rewrite F. split; [reflexivity|]. split; [exact Hs|].
  assert (X : exists f, m' = set_fields m tag c f (put n (tag, n) (named_states m)) (named_duals m) /\ (forall k, k <> n -> assoc k f = assoc k (fields c)) /\ (exists g, assoc n f = Some g /\ v = restrict_ g) /\ (restart m = true -> f = fields c)).
  { destruct D as [[Rs [g [Ef [Ev ->]]]]|[Rs [Ef [Ev ->]]]].
    - exists (fields c). split; [reflexivity|]. split; [auto|]. split; [eauto|auto].
    - exists (fields c ++ [(n, j)])%list. split; [reflexivity|]. split; [|split; [|congruence]].
      + intros k Hk. rewrite assoc_app. destruct (assoc k (fields c)); [reflexivity|]. now rewrite (proj2 (String.eqb_neq k n)).
      + exists j. rewrite assoc_app, Ef, String.eqb_refl. auto. }
  destruct X as [f [-> [Fo [[g [Fg Ev]] Fr]]]]. cbn [set_fields named_states named_duals].
  split; [apply assoc_put_same|]. split; [intros k Hk; apply assoc_put_other; exact Hk|]. split; [reflexivity|]. split; [|split].
  - exists g. rewrite (field_set m tag c f _ _ _ _ E), String.eqb_refl. auto.
  - intros t k Hk. rewrite (field_set m tag c f _ _ _ _ E). destruct (String.eqb_spec t tag) as [->|]; [|reflexivity]. unfold field. rewrite E. apply Fo. congruence.
  - intros Rs. rewrite (field_set m tag c f _ _ _ _ E), String.eqb_refl. unfold field. rewrite E, (Fr Rs). reflexivity.
Qed.
Lemma dual_effect m d a n j m' v : reached m d -> store_dual m a n j = Done (m', v) -> exists tag, collection_id m a = Done tag /\ has_dual m n = false /\ assoc n (named_duals m') = Some (tag, n) /\
  (forall k, k <> n -> assoc k (named_duals m') = assoc k (named_duals m)) /\ named_states m' = named_states m /\ (exists g, field m' tag n = Some g /\ v = restrict_ g) /\
  (forall t k, (t, k) <> (tag, n) -> field m' t k = field m t k) /\ (restart m = true -> field m' tag n = field m tag n).
Proof.
  intros Rm H. destruct (store_dual_inv _ _ _ _ _ _ H) as [tag [F [Hs [c [E [St D]]]]]]. exists tag. unfold collection_id. rewrite F. split; [reflexivity|]. split; [exact Hs|].
  assert (X : exists f, m' = set_fields m tag c f (named_states m) (put n (tag, n) (named_duals m)) /\ (forall k, k <> n -> assoc k f = assoc k (fields c)) /\ (exists g, assoc n f = Some g /\ v = restrict_ g) /\ (restart m = true -> f = fields c)).
  { destruct D as [[Rs [g [Ef [Ev ->]]]]|[Rs [Ef [Ev ->]]]].
    - exists (fields c). split; [reflexivity|]. split; [auto|]. split; [eauto|auto].
    - exists (fields c ++ [(n, j)])%list. split; [reflexivity|]. split; [|split; [|congruence]].
      + intros k Hk. rewrite assoc_app. destruct (assoc k (fields c)); [reflexivity|]. now rewrite (proj2 (String.eqb_neq k n)).
      + exists j. rewrite assoc_app, Ef, String.eqb_refl. auto. }
  destruct X as [f [-> [Fo [[g [Fg Ev]] Fr]]]]. cbn [set_fields named_states named_duals].
  split; [apply assoc_put_same|]. split; [intros k Hk; apply assoc_put_other; exact Hk|]. split; [reflexivity|]. split; [|split].
  - exists g. rewrite (field_set m tag c f _ _ _ _ E), String.eqb_refl. auto.
  - intros t k Hk. rewrite (field_set m tag c f _ _ _ _ E). destruct (String.eqb_spec t tag) as [->|]; [|reflexivity]. unfold field. rewrite E. apply Fo. congruence.
  - intros Rs. rewrite (field_set m tag c f _ _ _ _ E), String.eqb_refl. unfold field. rewrite E, (Fr Rs). reflexivity.
Qed.
Lemma write_field_effect m t n g m' : write_field m (t, n) g = Done m' -> field m' t n = Some g /\ (forall t' k, (t', k) <> (t, n) -> field m' t' k = field m t' k).
Proof.
  intros W. destruct (write_inv _ _ _ _ W) as [c [E ->]]. cbn [fst snd] in *. split.
  - rewrite (field_set m t c _ _ _ _ _ E), String.eqb_refl. apply assoc_put_same.
  - intros t' k Hk. rewrite (field_set m t c _ _ _ _ _ E). destruct (String.eqb_spec t' t) as [->|]; [|reflexivity]. unfold field. rewrite E. apply assoc_put_other. congruence.
Qed.
Lemma update_effect m d n v : reached m d ->
  (forall m', update_state m n v = Done m' -> exists tag, assoc n (named_states m) = Some (tag, n) /\ field m' tag n = Some (prolong v) /\ (forall t k, (t, k) <> (tag, n) -> field m' t k = field m t k)) /\
  (forall m', update_dual m n v = Done m' -> exists tag, assoc n (named_duals m) = Some (tag, n) /\ field m' tag n = Some (scatter v) /\ (forall t k, (t, k) <> (tag, n) -> field m' t k = field m t k)).
Proof.
  intros Rm. pose proof (reached_inv m d Rm) as I. split; intros m' H.
  - destruct (update_inv _ _ _ _ H) as [[t f] [E W]]. destruct (v_state m I n t f E) as [-> _]. exists t. split; [exact E|]. apply (write_field_effect _ _ _ _ _ W).
  - destruct (updated_inv _ _ _ _ H) as [[t f] [E W]]. destruct (v_dual m I n t f E) as [-> _]. exists t. split; [exact E|]. apply (write_field_effect _ _ _ _ _ W).
Qed.

(** ** frame: which calls can change the data of a field *)
Definition touches (n : string) (o : op) : Prop := match o with OInit _ => True | OUpdate k _ => k = n | OUpdateDual k _ => k = n | _ => False end.
Definition overwrites (tag : string) (cyc : Z) (o : op) : Prop := match o with OSave _ c t => c = cyc /\ t = tag | _ => False end.
Lemma store_keeps m a n j m' v t k g : store_state m a n j = Done (m', v) -> field m t k = Some g -> field m' t k = Some g.
Proof.
  intros H Hf. destruct (store_state_inv _ _ _ _ _ _ H) as [tag [F [Hs [c [E [St D]]]]]].
  destruct D as [[Rs [g' [Ef [Ev ->]]]]|[Rs [Ef [Ev ->]]]]; rewrite (field_set m tag c _ _ _ _ _ E); destruct (String.eqb_spec t tag) as [->|]; auto; unfold field in Hf; rewrite E in Hf; auto. rewrite assoc_app, Hf. reflexivity.
Qed.
Lemma dual_keeps m a n j m' v t k g : store_dual m a n j = Done (m', v) -> field m t k = Some g -> field m' t k = Some g.
Proof.
  intros H Hf. destruct (store_dual_inv _ _ _ _ _ _ H) as [tag [F [Hs [c [E [St D]]]]]].
  destruct D as [[Rs [g' [Ef [Ev ->]]]]|[Rs [Ef [Ev ->]]]]; rewrite (field_set m tag c _ _ _ _ _ E); destruct (String.eqb_spec t tag) as [->|]; auto; unfold field in Hf; rewrite E in Hf; auto. rewrite assoc_app, Hf. reflexivity.
Qed.
Lemma construct_keeps m tag j m' t k g : construct_shape m tag j = Done m' -> field m t k = Some g -> field m' t k = Some g.
Proof. intros H Hf. destruct (construct_inv _ _ _ _ H) as [a [m1 [v [_ [Es ->]]]]]. unfold field at 1. cbn [colls]. exact (store_keeps _ _ _ _ _ _ _ _ _ Es Hf). Qed.
Lemma with_keeps m tag c b t k g : assoc tag (colls m) = None -> field m t k = Some g -> field (with_coll m tag c b) t k = Some g.
Proof. intros N H. rewrite (field_with m tag c b t k N). destruct (String.eqb_spec t tag) as [->|]; [unfold field in H; rewrite N in H; discriminate|exact H]. Qed.
Lemma exec_keeps m d o m' d' t n g : inv m -> exec (m, d) o = Done (m', d') -> ~ touches n o -> field m t n = Some g -> field m' t n = Some g.
Proof.
  intros I S T Hf. destruct o as [dir|tag j|cyc tag j|a k j|a k j|k v|k v|tt cyc tag]; cbn [exec touches] in *; try (destruct (keep_done _ _ _ _ _ S) as [x [H [-> _]]]).
  - exfalso. apply T. exact Logic.I.
  - destruct (set_mesh_inv _ _ _ _ H) as [_ [N C]]. apply (construct_keeps _ _ _ _ _ _ _ C). apply with_keeps; assumption.
  - destruct x as [m1 tm]. destruct (load_inv _ _ _ _ _ _ _ H) as [_ [N [c [_ [_ C]]]]]. apply (construct_keeps _ _ _ _ _ _ _ C). apply with_keeps; assumption.
  - destruct x as [m1 v]. exact (store_keeps _ _ _ _ _ _ _ _ _ H Hf).
  - destruct x as [m1 v]. exact (dual_keeps _ _ _ _ _ _ _ _ _ H Hf).
  - destruct (update_inv _ _ _ _ H) as [[t0 f] [E W]]. destruct (v_state m I k t0 f E) as [-> _]. destruct (write_field_effect _ _ _ _ _ W) as [_ O]. rewrite O; [exact Hf|congruence].
  - destruct (updated_inv _ _ _ _ H) as [[t0 f] [E W]]. destruct (v_dual m I k t0 f E) as [-> _]. destruct (write_field_effect _ _ _ _ _ W) as [_ O]. rewrite O; [exact Hf|congruence].
  - rewrite (field_save _ _ _ _ _ _ _ S). exact Hf.
Qed.
Lemma run_keeps t n g : forall ops m d m' d', inv m -> run (m, d) ops = Done (m', d') -> Forall (fun o => ~ touches n o) ops -> field m t n = Some g -> field m' t n = Some g.
Proof.
  induction ops as [|o ops IH]; intros m d m' d' I H T Hf; cbn [run] in H; [injection H as <- <-; exact Hf|]. inversion T as [|? ? T1 T2]; subst. destruct (exec (m, d) o) as [[m1 d1]| |] eqn:E; try discriminate.
  apply (IH m1 d1 m' d' (exec_ok _ _ _ _ _ E I) H); [assumption|]. exact (exec_keeps _ _ _ _ _ _ _ _ I E T1 Hf).
Qed.
Lemma exec_disk m d o m' d' tag cyc : exec (m, d) o = Done (m', d') -> ~ overwrites tag cyc o -> d' tag cyc = d tag cyc.
Proof.
  intros S T. destruct o as [dir|tg j|c tg j|a k j|a k j|k v|k v|tt c tg]; cbn [exec overwrites] in *; try (destruct (keep_done _ _ _ _ _ S) as [x [H [_ ->]]]; reflexivity).
  destruct (save_inv _ _ _ _ _ _ _ S) as [cl [_ [_ ->]]]. destruct (String.eqb_spec tag tg) as [->|]; cbn [andb]; [|reflexivity]. destruct (Z.eqb_spec cyc c) as [->|]; [|reflexivity]. exfalso. apply T. auto.
Qed.
Lemma run_disk tag cyc : forall ops m d m' d', run (m, d) ops = Done (m', d') -> Forall (fun o => ~ overwrites tag cyc o) ops -> d' tag cyc = d tag cyc.
Proof.
  induction ops as [|o ops IH]; intros m d m' d' H T; cbn [run] in H; [injection H as <- <-; reflexivity|]. inversion T as [|? ? T1 T2]; subst. destruct (exec (m, d) o) as [[m1 d1]| |] eqn:E; try discriminate.
  rewrite (IH _ _ _ _ H) by assumption. exact (exec_disk _ _ _ _ _ _ _ E T1).
Qed.
Lemma save_file m d t cyc tag m' d' : save m d t cyc tag = Done (m', d') -> exists c, d' tag cyc = Some c /\ ctime c = t /\ ccycle c = cyc /\ forall n, assoc n (fields c) = field m tag n.
Proof.
  intros H. destruct (save_inv _ _ _ _ _ _ _ H) as [c [E [_ ->]]]. eexists. rewrite String.eqb_refl, Z.eqb_refl. cbn [andb]. split; [reflexivity|]. cbn [ctime ccycle fields]. split; [reflexivity|]. split; [reflexivity|]. intros n. unfold field. now rewrite E.
Qed.
Lemma load_fields m d cyc tag j m' t c n g : load m d cyc tag j = Done (m', t) -> d tag cyc = Some c -> t = ctime c /\ (assoc n (fields c) = Some g -> field m' tag n = Some g).
Proof.
  intros H E. destruct (load_inv _ _ _ _ _ _ _ H) as [_ [N [c' [E' [-> C]]]]]. rewrite E in E'. injection E' as <-. split; [reflexivity|]. intros Hg. apply (construct_keeps _ _ _ _ _ _ _ C). rewrite (field_with _ _ _ _ _ _ N), String.eqb_refl. exact Hg.
Qed.
Lemma construct_restart m tag j m' : construct_shape m tag j = Done m' -> restart m' = restart m.
Proof. intros H. destruct (construct_inv _ _ _ _ H) as [a [m1 [v [_ [Es ->]]]]]. cbn [restart]. destruct (store_state_inv _ _ _ _ _ _ Es) as [tg [_ [_ [c [_ [_ [[_ [g [_ [_ ->]]]]|[_ [_ [_ ->]]]]]]]]]]; reflexivity. Qed.
Lemma exec_restart m d o m' d' : exec (m, d) o = Done (m', d') -> (forall dir, o <> OInit dir) -> restart m = true -> restart m' = true.
Proof.
  intros S T Rs. destruct o as [dir|tg j|c tg j|a k j|a k j|k v|k v|tt c tg]; cbn [exec] in *; try (destruct (keep_done _ _ _ _ _ S) as [x [H [-> _]]]).
  - exfalso. exact (T dir eq_refl).
  - destruct (set_mesh_inv _ _ _ _ H) as [_ [N C]]. rewrite (construct_restart _ _ _ _ C). exact Rs.
  - destruct x as [m1 tm]. destruct (load_inv _ _ _ _ _ _ _ H) as [_ [N [c0 [_ [_ C]]]]]. cbn [fst]. rewrite (construct_restart _ _ _ _ C). reflexivity.
  - destruct x as [m1 v]. destruct (store_state_inv _ _ _ _ _ _ H) as [tg [_ [_ [c [_ [_ [[_ [g [_ [_ ->]]]]|[_ [_ [_ ->]]]]]]]]]]; exact Rs.
  - destruct x as [m1 v]. destruct (store_dual_inv _ _ _ _ _ _ H) as [tg [_ [_ [c [_ [_ [[_ [g [_ [_ ->]]]]|[_ [_ [_ ->]]]]]]]]]]; exact Rs.
  - destruct (update_inv _ _ _ _ H) as [p [_ W]]. destruct (write_inv _ _ _ _ W) as [c [_ ->]]. exact Rs.
  - destruct (updated_inv _ _ _ _ H) as [p [_ W]]. destruct (write_inv _ _ _ _ W) as [c [_ ->]]. exact Rs.
  - destruct (save_inv _ _ _ _ _ _ _ S) as [c0 [_ [-> _]]]. exact Rs.
Qed.
Lemma run_restart n : forall ops m d m' d', run (m, d) ops = Done (m', d') -> Forall (fun o => ~ touches n o) ops -> restart m = true -> restart m' = true.
Proof.
  induction ops as [|o ops IH]; intros m d m' d' H T Rs; cbn [run] in H; [injection H as <- <-; exact Rs|]. inversion T as [|? ? T1 T2]; subst. destruct (exec (m, d) o) as [[m1 d1]| |] eqn:E; try discriminate.
  apply (IH _ _ _ _ H T2). apply (exec_restart _ _ _ _ _ E); [|exact Rs]. intros dir ->. apply T1. exact Logic.I.
Qed.
Lemma new_state_value m d n tag j m' v g : reached m d -> restart m = true -> field m tag n = Some g -> new_state m n tag j = Done (m', v) -> v = restrict_ g.
Proof.
  intros Rm Rs Hf H. unfold new_state in H. destruct (negb (started m)); [discriminate|]. destruct (mesh m tag) as [a| |] eqn:Em; try discriminate. destruct (has_state m n); [discriminate|].
  destruct (store_effect m d a n j m' v Rm H) as [tg [Ec [_ [_ [_ [_ [[g' [G1 G2]] [_ Fr]]]]]]]]. rewrite (proj1 (lookup_ok m d Rm) tag a Em) in Ec. injection Ec as <-. rewrite (Fr Rs), Hf in G1. injection G1 as <-. exact G2.
Qed.
Lemma new_dual_value m d n tag j m' v g : reached m d -> restart m = true -> field m tag n = Some g -> new_dual m n tag j = Done (m', v) -> v = restrict_ g.
Proof.
  intros Rm Rs Hf H. unfold new_dual in H. destruct (negb (started m)); [discriminate|]. destruct (mesh m tag) as [a| |] eqn:Em; try discriminate. destruct (has_dual m n); [discriminate|].
  destruct (dual_effect m d a n j m' v Rm H) as [tg [Ec [_ [_ [_ [_ [[g' [G1 G2]] [_ Fr]]]]]]]]. rewrite (proj1 (lookup_ok m d Rm) tag a Em) in Ec. injection Ec as <-. rewrite (Fr Rs), Hf in G1. injection G1 as <-. exact G2.
Qed.
Lemma reached_exec m d o m' d' : reached m d -> exec (m, d) o = Done (m', d') -> reached m' d'.
Proof. intros Rm E. apply (reached_run m d [o]); [exact Rm|]. cbn [run]. now rewrite E. Qed.
(** last value written before a save, read back after any later history, in this run or another *)
Lemma restore_field m1 d1 n tag g ops1 m2 d2 t cyc m3 d3 ops2 m4 d4 j m5 t5 ops3 m6 d6 : reached m1 d1 -> field m1 tag n = Some g ->
  run (m1, d1) ops1 = Done (m2, d2) -> Forall (fun o => ~ touches n o) ops1 -> save m2 d2 t cyc tag = Done (m3, d3) ->
  run (m3, d3) ops2 = Done (m4, d4) -> Forall (fun o => ~ overwrites tag cyc o) ops2 -> load m4 d4 cyc tag j = Done (m5, t5) ->
  run (m5, d4) ops3 = Done (m6, d6) -> Forall (fun o => ~ touches n o) ops3 -> reached m6 d6 /\ restart m6 = true /\ field m6 tag n = Some g /\ t5 = t.
Proof.
  intros R1 F1 H1 T1 S H2 T2 L H3 T3. pose proof (run_keeps tag n g _ _ _ _ _ (reached_inv _ _ R1) H1 T1 F1) as F2.
  pose proof (reached_run _ _ _ _ _ R1 H1) as R2. assert (R3 : reached m3 d3) by (apply (reached_exec m2 d2 (OSave t cyc tag)); assumption). pose proof (reached_run _ _ _ _ _ R3 H2) as R4.
  assert (R5 : reached m5 d4) by (apply (reached_exec m4 d4 (OLoad cyc tag j)); [exact R4|cbn [exec]; now rewrite L]).
  destruct (save_file _ _ _ _ _ _ _ S) as [c [Ec [Et [_ Hf]]]]. rewrite <- (run_disk tag cyc _ _ _ _ _ H2 T2) in Ec.
  destruct (load_fields _ _ _ _ _ _ _ _ n g L Ec) as [Tt Fl]. rewrite Hf in Fl. specialize (Fl F2).
  assert (Rs5 : restart m5 = true) by (destruct (load_inv _ _ _ _ _ _ _ L) as [_ [_ [c0 [_ [_ C]]]]]; rewrite (construct_restart _ _ _ _ C); reflexivity).
  split; [exact (reached_run _ _ _ _ _ R5 H3)|]. split; [exact (run_restart n _ _ _ _ _ H3 T3 Rs5)|]. split; [exact (run_keeps tag n g _ _ _ _ _ (reached_inv _ _ R5) H3 T3 Fl)|congruence].
Qed.

(** ** progress: every collection carries its shape field, so what was saved can be loaded in a fresh manager *)
Definition shaped (m : mgr) : Prop := forall tag c, assoc tag (colls m) = Some c -> exists g, assoc (shape_name tag) (fields c) = Some g.
Lemma shaped_set m tag c f s d : shaped m -> assoc tag (colls m) = Some c -> (forall n g, assoc n (fields c) = Some g -> exists g', assoc n f = Some g') -> shaped (set_fields m tag c f s d).
Proof.
  intros Sh E Hf t c0 H. cbn [set_fields colls] in H. destruct (string_dec t tag) as [->|N].
  - rewrite assoc_put_same in H. injection H as <-. cbn [fields]. destruct (Sh tag c E) as [g Hg]. exact (Hf _ _ Hg).
  - rewrite assoc_put_other in H by exact N. exact (Sh t c0 H).
Qed.
Lemma entered_fields m m' tag name junk v s d : entered m m' tag name junk v s d -> exists c f, assoc tag (colls m) = Some c /\ m' = set_fields m tag c f s d /\ (forall n g, assoc n (fields c) = Some g -> exists g', assoc n f = Some g') /\ exists g, assoc name f = Some g.
Proof.
  intros [c [E [St [[Rs [g [Ef [Ev ->]]]]|[Rs [Ef [Ev ->]]]]]]].
  - exists c, (fields c). split; [exact E|]. split; [reflexivity|]. eauto.
  - exists c, (fields c ++ [(name, junk)])%list. split; [exact E|]. split; [reflexivity|]. split; [intros n g H; rewrite assoc_app, H; eauto|]. rewrite assoc_app, Ef, String.eqb_refl. eauto.
Qed.
Lemma construct_shaped m tag c b j m' : inv m -> shaped m -> assoc tag (colls m) = None -> mesh_at c = next_mesh m -> construct_shape (with_coll m tag c b) tag j = Done m' -> shaped m'.
Proof.
  intros I Sh N A H. destruct (construct_inv _ _ _ _ H) as [a [m1 [v [Em [Es ->]]]]]. destruct (store_state_inv _ _ _ _ _ _ Es) as [tg [F [_ En]]].
  assert (tg = tag).
  { pose proof (inv_with m tag c b I N A) as I'. unfold mesh in Em. destruct (assoc tag (colls (with_coll m tag c b))) as [c1|] eqn:E1; [|discriminate]. injection Em as <-. rewrite (v_addr _ I' tag c1 E1) in F. congruence. }
  subst tg. destruct (entered_fields _ _ _ _ _ _ _ _ En) as [c1 [f [E1 [-> [Hf [g Hg]]]]]]. intros t c0 Hc. cbn [set_fields colls] in Hc. destruct (string_dec t tag) as [->|Nt].
  - rewrite assoc_put_same in Hc. injection Hc as <-. cbn [fields]. eauto.
  - rewrite assoc_put_other in Hc by exact Nt. cbn [with_coll colls] in Hc. rewrite assoc_app in Hc. destruct (assoc t (colls m)) as [c2|] eqn:E2; [injection Hc as <-; exact (Sh t c2 E2)|]. now rewrite (proj2 (String.eqb_neq t tag) Nt) in Hc.
Qed.
Lemma write_shaped m p g m' : shaped m -> write_field m p g = Done m' -> shaped m'.
Proof.
  intros Sh H. destruct (write_inv _ _ _ _ H) as [c [E ->]]. apply shaped_set; auto. intros n g0 Hg. destruct (string_dec n (snd p)) as [->|N]; [rewrite assoc_put_same; eauto|rewrite assoc_put_other by exact N; eauto].
Qed.
Lemma exec_shaped m d o m' d' : exec (m, d) o = Done (m', d') -> inv m -> shaped m -> shaped m'.
Proof.
  intros S I Sh. destruct o as [dir|tag j|cyc tag j|a n j|a n j|n v|n v|t cyc tag]; cbn [exec] in S; try (destruct (keep_done _ _ _ _ _ S) as [x [H [-> _]]]).
  - destruct (init_ok _ _ _ H) as [_ [_ [_ [E _]]]]. intros t c Hc. rewrite E in Hc. discriminate.
  - destruct (set_mesh_inv _ _ _ _ H) as [_ [N C]]. refine (construct_shaped _ _ _ _ _ _ I Sh N _ C). reflexivity.
  - destruct x as [m1 t]. destruct (load_inv _ _ _ _ _ _ _ H) as [_ [N [c [_ [_ C]]]]]. refine (construct_shaped _ _ _ _ _ _ I Sh N _ C). reflexivity.
  - destruct x as [m1 v]. destruct (store_state_inv _ _ _ _ _ _ H) as [tg [_ [_ En]]]. destruct (entered_fields _ _ _ _ _ _ _ _ En) as [c [f [E [-> [Hf _]]]]]. now apply shaped_set.
  - destruct x as [m1 v]. destruct (store_dual_inv _ _ _ _ _ _ H) as [tg [_ [_ En]]]. destruct (entered_fields _ _ _ _ _ _ _ _ En) as [c [f [E [-> [Hf _]]]]]. now apply shaped_set.
  - destruct (update_inv _ _ _ _ H) as [p [_ W]]. exact (write_shaped _ _ _ _ Sh W).
  - destruct (updated_inv _ _ _ _ H) as [p [_ W]]. exact (write_shaped _ _ _ _ Sh W).
  - destruct (save_inv _ _ _ _ _ _ _ S) as [c [E [-> _]]]. intros tg c0 Hc. cbn [colls] in Hc. destruct (string_dec tg tag) as [->|N]; [rewrite assoc_put_same in Hc; injection Hc as <-; exact (Sh tag c E)|rewrite assoc_put_other in Hc by exact N; exact (Sh tg c0 Hc)].
Qed.
Lemma run_shaped : forall ops m d m' d', run (m, d) ops = Done (m', d') -> inv m -> shaped m -> shaped m'.
Proof.
  induction ops as [|o ops IH]; intros m d m' d' H I Sh; cbn [run] in H; [injection H as <- <-; exact Sh|]. destruct (exec (m, d) o) as [[m1 d1]| |] eqn:E; try discriminate.
  exact (IH _ _ _ _ H (exec_ok _ _ _ _ _ E I) (exec_shaped _ _ _ _ _ E I Sh)).
Qed.
Lemma reached_shaped m d : reached m d -> shaped m.
Proof. intros [d0 [ops H]]. apply (run_shaped _ _ _ _ _ H inv_cleared). intros t c E. discriminate. Qed.
Lemma load_progress m d t cyc tag m' d' f dir m0 j : reached m d -> save m d t cyc tag = Done (m', d') -> initialize f dir = Done m0 ->
  exists m1, load m0 d' cyc tag j = Done (m1, t) /\ forall n j', n <> shape_name tag -> field m tag n <> None -> exists m2 v, new_state m1 n tag j' = Done (m2, v).
Proof.
  intros Rm S H0. destruct (init_ok _ _ _ H0) as [I0 [St0 [Rs0 [C0 [N0 D0]]]]]. destruct (save_inv _ _ _ _ _ _ _ S) as [c [E [_ Ed]]]. destruct (reached_shaped m d Rm tag c E) as [g Hg].
  assert (Es : d' tag cyc = Some {| fields := fields c; ctime := t; ccycle := cyc; mesh_at := mesh_at c |}) by (rewrite Ed, String.eqb_refl, Z.eqb_refl; reflexivity).
  unfold load. rewrite St0. cbn [negb]. unfold has_mesh. rewrite C0. cbn [assoc]. rewrite Es. cbn [fields ctime ccycle]. set (c1 := {| fields := fields c; ctime := t; ccycle := cyc; mesh_at := next_mesh m0 |}).
  unfold construct_shape, mesh. cbn [with_coll colls]. rewrite C0. cbn [app assoc]. rewrite String.eqb_refl.
  unfold store_state, collection_id, has_state. cbn [with_coll started colls named_states restart]. rewrite St0, N0, C0. cbn [negb app find_mesh assoc mesh_at]. rewrite Nat.eqb_refl. cbn [assoc fields]. rewrite String.eqb_refl. cbn [fields]. change (fields c1) with (fields c). rewrite Hg.
  eexists. split; [reflexivity|]. intros n j' Hn Hf. unfold field in Hf. rewrite E in Hf. destruct (assoc n (fields c)) as [gn|] eqn:Egn; [|contradiction].
  subst c1. unfold new_state, mesh, store_state, collection_id, has_state, set_fields, with_coll.
  repeat (cbn -[String.eqb Nat.eqb shape_name append]; rewrite ?C0, ?St0, ?String.eqb_refl, ?Nat.eqb_refl, ?(proj2 (String.eqb_neq n (shape_name tag)) Hn), ?Egn). eauto.
Qed.
End Manager.
Arguments fields {G} _. Arguments ctime {G} _. Arguments ccycle {G} _. Arguments mesh_at {G} _.
Arguments started {V G} _. Arguments colls {V G} _. Arguments shapes {V G} _. Arguments restart {V G} _. Arguments named_states {V G} _. Arguments named_duals {V G} _.
Arguments cleared {V G}. Arguments initialize {V G} _ _. Arguments has_state {V G} _ _. Arguments has_dual {V G} _ _. Arguments collection_id {V G} _ _. Arguments mesh {V G} _ _.
Arguments store_state {V G} _ _ _ _ _. Arguments store_dual {V G} _ _ _ _ _. Arguments new_state {V G} _ _ _ _ _. Arguments new_dual {V G} _ _ _ _ _.
Arguments update_state {V G} _ _ _ _. Arguments update_dual {V G} _ _ _ _. Arguments save {V G} _ _ _ _ _. Arguments load {V G} _ _ _ _ _ _ _. Arguments set_mesh {V G} _ _ _ _ _. Arguments load_checkpointed {V G} _ _ _ _ _.
Arguments run {V G} _ _ _ _ _ _. Arguments exec {V G} _ _ _ _ _ _. Arguments reached {V G} _ _ _ _ _ _. Arguments field {V G} _ _ _. Arguments touches {V G} _ _. Arguments overwrites {V G} _ _ _.
Arguments OInit {V G} _. Arguments OMesh {V G} _ _. Arguments OLoad {V G} _ _ _. Arguments OStore {V G} _ _ _. Arguments ODual {V G} _ _ _. Arguments OUpdate {V G} _ _. Arguments OUpdateDual {V G} _ _. Arguments OSave {V G} _ _ _.
