(** * Physics modules on a shared mesh (C67): what constructing a module, setting a parameter or the shape displacement, and
    writing to disk do to the module, to the other modules and to the files.
    physics/base_physics.{hpp,cpp}, the constructors of physics/heat_transfer.hpp and physics/solid_mechanics.hpp *)
From Coq Require Import String List Bool Arith ZArith Reals Lia.
From Verif Require Import Names FEVector StateMgr.
Import ListNotations.
Local Open Scope string_scope.

Definition bind {A B} (x : StateMgr.outcome A) (f : A -> StateMgr.outcome B) : StateMgr.outcome B :=
  match x with StateMgr.Done a => f a | StateMgr.Refused => StateMgr.Refused | StateMgr.Undef => StateMgr.Undef end.
Lemma bind_done {A B} (x : StateMgr.outcome A) (f : A -> StateMgr.outcome B) b : bind x f = StateMgr.Done b -> exists a, x = StateMgr.Done a /\ f a = StateMgr.Done b.
Proof. destruct x; cbn [bind]; intros H; try discriminate. now exists a. Qed.

Inductive kind := Heat | Solid.
(** the primal fields a module owns, in the order they are created (heat_transfer.hpp:145-147, solid_mechanics.hpp:172-176) *)
Definition primal (k : kind) : list string := match k with Heat => ["temperature"; "temperature_rate"] | Solid => ["displacement"; "velocity"; "acceleration"] end.
(** the adjoint field (heat_transfer.hpp:148-149, solid_mechanics.hpp:177-178) *)
Definition adjoint (k : kind) : string := match k with Heat => "adjoint_temperature" | Solid => "adjoint_displacement" end.
(** the duals (solid_mechanics.hpp:184) *)
Definition dual_fields (k : kind) : list string := match k with Heat => [] | Solid => ["reactions"] end.
(** the members of states_: the rates are listed only for dynamics (heat_transfer.hpp:178-181, solid_mechanics.hpp:213-217) *)
Definition listed (k : kind) (quasi : bool) : list string := if quasi then firstn 1 (primal k) else primal k.

Section Modules.
Variables V G : Type.
Variables (prolong scatter : V -> G) (restrict_ : G -> V) (zero : V).
Notation mgr := (mgr V G). Notation disk := (string -> Z -> option (coll G)).
Notation out := StateMgr.outcome.

(** one module. [sval] and [dval] are the values of its states (parameters included) and of its duals (sensitivities included) under
    their full names; the shape displacement is not here: the module holds a reference to the manager's (base_physics.hpp:594).
    Not modelled: the in-memory checkpoints (C02), the residual and the solvers *)
Record module := { m_kind : kind; m_quasi : bool; m_name : string; m_tag : string; m_mesh : nat; m_params : list (string * space); m_to_disk : bool;
                   m_cycle : Z; m_time : R; sval : string -> V; dval : string -> V }.
Definition full (d : module) (f : string) : string := addPrefix (m_name d) f.
Definition shape_sens (name : string) : string := name ++ "_shape_displacement_sensitivity".
Definition sens (p : string) : string := p ++ "_sensitivity".
(** all the states and duals of the module known to the state manager *)
Definition own_states (d : module) : list string := map (full d) (primal (m_kind d)) ++ [full d (adjoint (m_kind d))] ++ map (fun p => full d (fst p)) (m_params d).
Definition own_duals (d : module) : list string := shape_sens (m_name d) :: map (full d) (dual_fields (m_kind d)) ++ map (fun p => sens (full d (fst p))) (m_params d).
Definition upd (f : string -> V) (n : string) (v : V) : string -> V := fun k => if String.eqb k n then v else f k.
Lemma upd_same f n v : upd f n v n = v.
Proof. unfold upd. now rewrite String.eqb_refl. Qed.
Lemma upd_other f n v k : k <> n -> upd f n v k = f k.
Proof. unfold upd. intros N. now rewrite (proj2 (String.eqb_neq k n) N). Qed.

(** StateManager::newState for a list of fields; the values are returned *)
Fixpoint make_states (m : mgr) (tag : string) (names : list string) (junk : string -> G) : out mgr :=
  match names with [] => StateMgr.Done m | n :: r => bind (new_state restrict_ m n tag (junk n)) (fun x => make_states (fst x) tag r junk) end.
Fixpoint make_duals (m : mgr) (tag : string) (names : list string) (junk : string -> G) : out mgr :=
  match names with [] => StateMgr.Done m | n :: r => bind (new_dual restrict_ m n tag (junk n)) (fun x => make_duals (fst x) tag r junk) end.
(** ParameterInfo (base_physics.hpp:566-573) for every parameter: the state and the sensitivity keep what storing gives them *)
Fixpoint make_params (m : mgr) (a : nat) (names : list string) (junk : string -> G) (sv dv : string -> V) : out (mgr * (string -> V) * (string -> V)) :=
  match names with
  | [] => StateMgr.Done (m, sv, dv)
  | n :: r => bind (store_state restrict_ m a n (junk n)) (fun x => bind (store_dual restrict_ (fst x) a (sens n) (junk (sens n))) (fun y =>
      make_params (fst y) a r junk (upd sv n (snd x)) (upd dv (sens n) (snd y))))
  end.
Definition set_shape_value (m : mgr) (tag : string) (v : V) : mgr :=
  {| started := started m; colls := colls m; shapes := put tag v (shapes m); restart := restart m; named_states := named_states m; named_duals := named_duals m; next_mesh := next_mesh V G m |}.
(** StateManager::shapeDisplacement (state_manager.cpp:132-135): a null pointer is dereferenced when there is none *)
Definition shape_value (m : mgr) (tag : string) : out V := match assoc tag (shapes m) with Some v => StateMgr.Done v | None => StateMgr.Undef end.

(** BasePhysics::outputStateToDisk (base_physics.cpp:181-206) without ParaView *)
Fixpoint push_states (m : mgr) (val : string -> V) (names : list string) : out mgr :=
  match names with [] => StateMgr.Done m | n :: r => bind (update_state prolong m n (val n)) (fun m' => push_states m' val r) end.
Fixpoint push_duals (m : mgr) (val : string -> V) (names : list string) : out mgr :=
  match names with [] => StateMgr.Done m | n :: r => bind (update_dual scatter m n (val n)) (fun m' => push_duals m' val r) end.
Fixpoint push_params (m : mgr) (sv dv : string -> V) (names : list string) : out mgr :=
  match names with [] => StateMgr.Done m | n :: r => bind (update_state prolong m n (sv n)) (fun m1 => bind (update_dual scatter m1 (sens n) (dv (sens n))) (fun m2 => push_params m2 sv dv r)) end.
Definition output_to_disk (m : mgr) (k : disk) (d : module) : out (mgr * disk) :=
  bind (push_states m (sval d) (map (full d) (listed (m_kind d) (m_quasi d)))) (fun m1 =>
  bind (push_duals m1 (dval d) (map (full d) (dual_fields (m_kind d)))) (fun m2 =>
  bind (push_params m2 (sval d) (dval d) (map (fun p => full d (fst p)) (m_params d))) (fun m3 =>
  bind (shape_value m3 (m_tag d)) (fun v =>
  bind (update_state prolong m3 (shape_name (m_tag d)) v) (fun m4 =>
  bind (update_dual scatter m4 (shape_sens (m_name d)) (dval d (shape_sens (m_name d)))) (fun m5 =>
  save m5 k (m_time d) (m_cycle d) (m_tag d))))))).

(** the constructors: BasePhysics (base_physics.cpp:20-46), then heat_transfer.hpp:141-220 or solid_mechanics.hpp:167-269. The mesh must
    exist; the sensitivity of the shape is stored; the fields are created, and set to zero at the end whatever they were given
    (heat_transfer.hpp:276-288, solid_mechanics.hpp:369-393); the shape displacement of the mesh is set to zero (heat_transfer.hpp:218,
    solid_mechanics.hpp:267); a solid module that checkpoints to disk writes itself (solid_mechanics.hpp:395-396).
    Not modelled: the checks of dimension and solver *)
Definition construct (m : mgr) (k : disk) (kd : kind) (quasi : bool) (name tag : string) (params : list (string * space)) (cyc : Z) (t : R) (to_disk : bool) (junk : string -> G) : out (mgr * disk * module) :=
  bind (mesh m tag) (fun a =>
  bind (shape_value m tag) (fun _ =>
  bind (store_dual restrict_ m a (shape_sens name) (junk (shape_sens name))) (fun x0 =>
  bind (make_states (fst x0) tag (map (addPrefix name) (primal kd ++ [adjoint kd])) junk) (fun m1 =>
  bind (make_duals m1 tag (map (addPrefix name) (dual_fields kd)) junk) (fun m2 =>
  bind (make_params m2 a (map (fun p => addPrefix name (fst p)) params) junk (fun _ => zero) (fun _ => zero)) (fun x3 =>
  let m4 := set_shape_value (fst (fst x3)) tag zero in
  let d := {| m_kind := kd; m_quasi := quasi; m_name := name; m_tag := tag; m_mesh := a; m_params := params; m_to_disk := to_disk; m_cycle := cyc; m_time := t;
              sval := snd (fst x3); dval := snd x3 |} in
  match kd with
  | Solid => if to_disk then bind (output_to_disk m4 k d) (fun y => StateMgr.Done (fst y, snd y, d)) else StateMgr.Done (m4, k, d)
  | Heat => StateMgr.Done (m4, k, d)
  end)))))).

(** BasePhysics::setParameter (base_physics.cpp:81-99) followed by FiniteElementVector's assignment (finite_element_vector.cpp:76-87) *)
Definition with_sval (d : module) (sv : string -> V) : module :=
  {| m_kind := m_kind d; m_quasi := m_quasi d; m_name := m_name d; m_tag := m_tag d; m_mesh := m_mesh d; m_params := m_params d; m_to_disk := m_to_disk d;
     m_cycle := m_cycle d; m_time := m_time d; sval := sv; dval := dval d |}.
Definition set_parameter (d : module) (i : nat) (s : space) (v : V) : out module :=
  match nth_error (m_params d) i with
  | None => StateMgr.Refused
  | Some (p, sp) =>
    if negb (Nat.eqb (on_mesh s) (m_mesh d)) then StateMgr.Refused
    else if negb (Nat.eqb (tsize s) (tsize sp)) then StateMgr.Refused
    else if negb (same_space sp s) then StateMgr.Refused
    else StateMgr.Done (with_sval d (upd (sval d) (full d p) v))
  end.
(** BasePhysics::setShapeDisplacement (base_physics.cpp:101-115); [sp] is the space of the mesh's shape displacement *)
Definition set_shape (m : mgr) (d : module) (sp s : space) (v : V) : out mgr :=
  if negb (Nat.eqb (on_mesh s) (m_mesh d)) then StateMgr.Refused
  else if negb (Nat.eqb (tsize s) (tsize sp)) then StateMgr.Refused
  else if negb (same_space sp s) then StateMgr.Refused
  else bind (shape_value m (m_tag d)) (fun _ => StateMgr.Done (set_shape_value m (m_tag d) v)).

(** ** histories of a program: manager calls, and modules created, stepped (any new values and clock), given parameters and shapes, and
    written to disk. Initialising the manager again leaves no module usable *)
Record world := { w_mgr : mgr; w_disk : disk; w_mods : list module }.
Inductive call := CManager (o : op V G) | CConstruct (kd : kind) (quasi : bool) (name tag : string) (params : list (string * space)) (cyc : Z) (t : R) (to_disk : bool) (junk : string -> G)
  | CStep (i : nat) (sv dv : string -> V) (cyc : Z) (t : R) | CParameter (i j : nat) (s : space) (v : V) | CShape (i : nat) (sp s : space) (v : V) | COutput (i : nat).
Definition stepped (d : module) (sv dv : string -> V) (cyc : Z) (t : R) : module :=
  {| m_kind := m_kind d; m_quasi := m_quasi d; m_name := m_name d; m_tag := m_tag d; m_mesh := m_mesh d; m_params := m_params d; m_to_disk := m_to_disk d;
     m_cycle := cyc; m_time := t; sval := sv; dval := dv |}.
Fixpoint replace (i : nat) (d : module) (l : list module) : list module :=
  match l, i with [], _ => [] | _ :: r, O => d :: r | x :: r, S j => x :: replace j d r end.
Definition pick (w : world) (i : nat) : out module := match nth_error (w_mods w) i with Some d => StateMgr.Done d | None => StateMgr.Refused end.
Definition is_init (o : op V G) : bool := match o with OInit _ => true | _ => false end.
Definition perform (w : world) (c : call) : out world :=
  match c with
  | CManager o => bind (exec prolong scatter restrict_ zero (w_mgr w, w_disk w) o) (fun x => StateMgr.Done {| w_mgr := fst x; w_disk := snd x; w_mods := if is_init o then [] else w_mods w |})
  | CConstruct kd quasi name tag params cyc t td junk => bind (construct (w_mgr w) (w_disk w) kd quasi name tag params cyc t td junk)
      (fun x => StateMgr.Done {| w_mgr := fst (fst x); w_disk := snd (fst x); w_mods := w_mods w ++ [snd x] |})
  | CStep i sv dv cyc t => bind (pick w i) (fun d => StateMgr.Done {| w_mgr := w_mgr w; w_disk := w_disk w; w_mods := replace i (stepped d sv dv cyc t) (w_mods w) |})
  | CParameter i j s v => bind (pick w i) (fun d => bind (set_parameter d j s v) (fun d' => StateMgr.Done {| w_mgr := w_mgr w; w_disk := w_disk w; w_mods := replace i d' (w_mods w) |}))
  | CShape i sp s v => bind (pick w i) (fun d => bind (set_shape (w_mgr w) d sp s v) (fun m => StateMgr.Done {| w_mgr := m; w_disk := w_disk w; w_mods := w_mods w |}))
  | COutput i => bind (pick w i) (fun d => bind (output_to_disk (w_mgr w) (w_disk w) d) (fun x => StateMgr.Done {| w_mgr := fst x; w_disk := snd x; w_mods := w_mods w |}))
  end.
Fixpoint program (w : world) (cs : list call) : out world := match cs with [] => StateMgr.Done w | c :: r => bind (perform w c) (fun w' => program w' r) end.
End Modules.
