(** * State manager (C36): every history of initialise, set mesh, load, store, update and save calls; the content of every
      newly allocated buffer is arbitrary. V are true-dof vectors, G grid functions. *)
From Coq Require Import String List ZArith Reals.
Import ListNotations.
From Verif Require Import StateMgr StateMgrEx.
Local Open Scope string_scope.

Section C36.
Variables V G : Type.
Variables (prolong scatter : V -> G) (restrict_ : G -> V) (zero : V).
Notation disk := (string -> Z -> option (coll G)).
Notation reach := (reached prolong scatter restrict_ zero).
Notation go := (run prolong scatter restrict_ zero).

(** a mesh obtained by tag leads back to that tag; a stored name points at the field of that name in its collection *)
Theorem C36_lookup : forall (m : mgr V G) d, reach m d ->
  (forall tag a, mesh m tag = Done a -> collection_id m a = Done tag) /\
  (forall n t f, assoc n (named_states m) = Some (t, f) -> f = n /\ exists g, field m t n = Some g) /\
  (forall n t f, assoc n (named_duals m) = Some (t, f) -> f = n /\ exists g, field m t n = Some g).
Proof. exact (lookup_ok V G prolong scatter restrict_ zero). Qed.

(** storing under a used name is refused *)
Theorem C36_used_name : forall (m : mgr V G) a n j tag,
  (has_state m n = true -> store_state restrict_ m a n j = Refused /\ new_state restrict_ m n tag j = Refused) /\
  (has_dual m n = true -> store_dual restrict_ m a n j = Refused /\ new_dual restrict_ m n tag j = Refused).
Proof. exact (used_name V G restrict_). Qed.

(** a successful store enters exactly one name, on the mesh of the field, and moves no other field *)
Theorem C36_store : forall (m : mgr V G) d a n j m' v, reach m d -> store_state restrict_ m a n j = Done (m', v) ->
  exists tag, collection_id m a = Done tag /\ has_state m n = false /\ assoc n (named_states m') = Some (tag, n) /\
  (forall k, k <> n -> assoc k (named_states m') = assoc k (named_states m)) /\ named_duals m' = named_duals m /\
  (exists g, field m' tag n = Some g /\ v = restrict_ g) /\
  (forall t k, (t, k) <> (tag, n) -> field m' t k = field m t k) /\ (restart m = true -> field m' tag n = field m tag n).
Proof. exact (store_effect V G prolong scatter restrict_ zero). Qed.

(** an update writes exactly the named field *)
Theorem C36_update : forall (m : mgr V G) d n v, reach m d ->
  (forall m', update_state prolong m n v = Done m' -> exists tag, assoc n (named_states m) = Some (tag, n) /\ field m' tag n = Some (prolong v) /\ (forall t k, (t, k) <> (tag, n) -> field m' t k = field m t k)) /\
  (forall m', update_dual scatter m n v = Done m' -> exists tag, assoc n (named_duals m) = Some (tag, n) /\ field m' tag n = Some (scatter v) /\ (forall t k, (t, k) <> (tag, n) -> field m' t k = field m t k)).
Proof. exact (update_effect V G prolong scatter restrict_ zero). Qed.

(** no call but a re-initialisation or an update of that name changes a stored field *)
Theorem C36_frame : forall (m : mgr V G) d ops m' d' tag n g, reach m d -> go (m, d) ops = Done (m', d') ->
  Forall (fun o => ~ touches n o) ops -> field m tag n = Some g -> field m' tag n = Some g.
Proof. exact (frame_field V G prolong scatter restrict_ zero). Qed.

(** save then reload: the last value written to a state before the save comes back, whatever happened between (including a new
    process), as long as the file was not overwritten; the saved time comes back too *)
Theorem C36_restore_state : (forall v, restrict_ (prolong v) = v) ->
  forall (m0 : mgr V G) (d0 : disk) n v tag m1, reach m0 d0 -> assoc n (named_states m0) = Some (tag, n) -> update_state prolong m0 n v = Done m1 ->
  forall ops1 m2 d2 t cyc m3 d3 ops2 m4 d4 j m5 t5 ops3 m6 d6 j' m7 w,
  go (m1, d0) ops1 = Done (m2, d2) -> Forall (fun o => ~ touches n o) ops1 -> save m2 d2 t cyc tag = Done (m3, d3) ->
  go (m3, d3) ops2 = Done (m4, d4) -> Forall (fun o => ~ overwrites tag cyc o) ops2 -> load restrict_ zero m4 d4 cyc tag j = Done (m5, t5) ->
  go (m5, d4) ops3 = Done (m6, d6) -> Forall (fun o => ~ touches n o) ops3 -> new_state restrict_ m6 n tag j' = Done (m7, w) -> w = v /\ t5 = t.
Proof. exact (restore_state V G prolong scatter restrict_ zero). Qed.
Theorem C36_restore_dual : (forall v, restrict_ (scatter v) = v) ->
  forall (m0 : mgr V G) (d0 : disk) n v tag m1, reach m0 d0 -> assoc n (named_duals m0) = Some (tag, n) -> update_dual scatter m0 n v = Done m1 ->
  forall ops1 m2 d2 t cyc m3 d3 ops2 m4 d4 j m5 t5 ops3 m6 d6 j' m7 w,
  go (m1, d0) ops1 = Done (m2, d2) -> Forall (fun o => ~ touches n o) ops1 -> save m2 d2 t cyc tag = Done (m3, d3) ->
  go (m3, d3) ops2 = Done (m4, d4) -> Forall (fun o => ~ overwrites tag cyc o) ops2 -> load restrict_ zero m4 d4 cyc tag j = Done (m5, t5) ->
  go (m5, d4) ops3 = Done (m6, d6) -> Forall (fun o => ~ touches n o) ops3 -> new_dual restrict_ m6 n tag j' = Done (m7, w) -> w = v /\ t5 = t.
Proof. exact (restore_dual V G prolong scatter restrict_ zero). Qed.

(** what was saved can be loaded by a freshly initialised manager, and every saved field but the shape displacement can then be stored *)
Theorem C36_progress : forall (m : mgr V G) d t cyc tag m' d' f dir m0 j, reach m d -> save m d t cyc tag = Done (m', d') -> initialize f dir = Done m0 ->
  exists m1, load restrict_ zero m0 d' cyc tag j = Done (m1, t) /\
  forall n j', n <> (tag ++ "_shape_displacement")%string -> field m tag n <> None -> exists m2 v, new_state restrict_ m1 n tag j' = Done (m2, v).
Proof. exact (load_progress V G prolong scatter restrict_ zero). Qed.

(** reading checkpointed fields returns the saved values *)
Theorem C36_checkpointed : forall (m : mgr V G) (d : disk) t cyc tag m' d', save m d t cyc tag = Done (m', d') ->
  forall names, (forall n, In n names -> exists g, field m tag n = Some g) ->
  exists l, load_checkpointed restrict_ d' cyc tag names = Done l /\ Forall2 (fun n v => exists g, field m tag n = Some g /\ v = restrict_ g) names l.
Proof. exact (checkpoint_read V G restrict_). Qed.
End C36.
Print Assumptions C36_lookup.
Print Assumptions C36_used_name.
Print Assumptions C36_store.
Print Assumptions C36_update.
Print Assumptions C36_frame.
Print Assumptions C36_restore_state.
Print Assumptions C36_restore_dual.
Print Assumptions C36_progress.
Print Assumptions C36_checkpointed.

(** a concrete history: store, update to 3, save, start again, load, and "u" comes back as 3 *)
Example C36_nonvacuous : reached idz idz idz 0%Z (fst (after boot)) (snd (after boot)) /\ run idz idz idz 0%Z (cleared, empty_disk) reboot = Done (after reboot) /\
  exists m', new_state idz (fst (after reboot)) "u" "m" 99%Z = Done (m', 3%Z).
Proof. split; [exact (reached_after boot _ boot_runs)|]. split; [exact reboot_runs|exact u_restored]. Qed.

(** the shape displacement is zeroed on reload although its saved value was not zero *)
Theorem C36_shape_displacement_refuted : exists (m m' : mgr Z Z) d d' t, reached idz idz idz 0%Z m d /\ field m "m" "m_shape_displacement" = Some 4%Z /\ reached idz idz idz 0%Z m' d' /\
  (exists m0 m1 d1 j, save m d t 10%Z "m" = Done (m1, d1) /\ initialize m1 "out" = Done m0 /\ load idz 0%Z m0 d1 10%Z "m" j = Done (m', t) /\ d' = d1) /\ assoc "m" (shapes m') = Some 0%Z.
Proof. exact shape_lost. Qed.
Print Assumptions C36_shape_displacement_refuted.
(** after a load a state and a dual may be stored under one name and share one field *)
Theorem C36_state_dual_alias_refuted : exists (m m1 m2 m3 : mgr Z Z) d a v w, reached idz idz idz 0%Z m d /\ store_state idz m a "u" 0%Z = Done (m1, v) /\ store_dual idz m1 a "u" 0%Z = Done (m2, w) /\
  update_dual idz m2 "u" 8%Z = Done m3 /\ field m2 "m" "u" = Some 3%Z /\ field m3 "m" "u" = Some 8%Z.
Proof. exact dual_alias. Qed.
Print Assumptions C36_state_dual_alias_refuted.
(** after a load, adding another mesh, or a field that was not saved, follows a null pointer *)
Theorem C36_mesh_after_load_refuted : exists (m : mgr Z Z) d, reached idz idz idz 0%Z m d /\ set_mesh idz 0%Z m "other" 0%Z = Undef.
Proof. exact mesh_after_load. Qed.
Print Assumptions C36_mesh_after_load_refuted.
Theorem C36_new_name_after_load_refuted : exists (m : mgr Z Z) d, reached idz idz idz 0%Z m d /\ has_state m "fresh" = false /\ new_state idz m "fresh" "m" 0%Z = Undef.
Proof. exact new_name_after_load. Qed.
Print Assumptions C36_new_name_after_load_refuted.
(** a used mesh tag is not refused *)
Theorem C36_mesh_twice_refuted : exists (m : mgr Z Z) d, reached idz idz idz 0%Z m d /\ set_mesh idz 0%Z m "m" 0%Z = Undef.
Proof. exact mesh_twice. Qed.
Print Assumptions C36_mesh_twice_refuted.
(** storing a state that already holds values replaces them by the content of the new buffer *)
Theorem C36_store_keeps_values_refuted : forall v0 : Z, exists (m m' : mgr Z Z) d a j v, reached idz idz idz 0%Z m d /\ store_state idz m a "w" j = Done (m', v) /\ v <> v0.
Proof. exact stored_values_lost. Qed.
Print Assumptions C36_store_keeps_values_refuted.
