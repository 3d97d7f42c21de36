(** * State manager: closing lemmas and concrete histories (C36) *)
From Coq Require Import String List Bool Arith ZArith Reals Lia.
Import ListNotations.
From Verif Require Import StateMgr.
Local Open Scope string_scope.

Section Restore.
Variables V G : Type.
Variables (prolong scatter : V -> G) (restrict_ : G -> V) (zero : V).
Notation disk := (string -> Z -> option (coll G)).
Notation reach := (reached prolong scatter restrict_ zero).
Notation go := (run prolong scatter restrict_ zero).
Lemma restore_state : (forall v, restrict_ (prolong v) = v) -> forall (m0 : mgr V G) (d0 : disk) n v tag m1, reach m0 d0 -> assoc n (named_states m0) = Some (tag, n) -> update_state prolong m0 n v = Done m1 ->
  forall ops1 m2 d2 t cyc m3 d3 ops2 m4 d4 j m5 t5 ops3 m6 d6 j' m7 w,
  go (m1, d0) ops1 = Done (m2, d2) -> Forall (fun o => ~ touches n o) ops1 -> save m2 d2 t cyc tag = Done (m3, d3) ->
  go (m3, d3) ops2 = Done (m4, d4) -> Forall (fun o => ~ overwrites tag cyc o) ops2 -> load restrict_ zero m4 d4 cyc tag j = Done (m5, t5) ->
  go (m5, d4) ops3 = Done (m6, d6) -> Forall (fun o => ~ touches n o) ops3 -> new_state restrict_ m6 n tag j' = Done (m7, w) -> w = v /\ t5 = t.
Proof.
  intros RP m0 d0 n v tag m1 R0 E U ops1 m2 d2 t cyc m3 d3 ops2 m4 d4 j m5 t5 ops3 m6 d6 j' m7 w H1 T1 S H2 T2 L H3 T3 N.
  destruct (proj1 (update_effect V G prolong scatter restrict_ zero m0 d0 n v R0) m1 U) as [tg [E' [F _]]]. rewrite E in E'. injection E' as <-.
  assert (R1 : reach m1 d0) by (apply (reached_exec V G prolong scatter restrict_ zero m0 d0 (OUpdate n v)); [exact R0|cbn [exec]; now rewrite U]).
  destruct (restore_field V G prolong scatter restrict_ zero m1 d0 n tag _ ops1 m2 d2 t cyc m3 d3 ops2 m4 d4 j m5 t5 ops3 m6 d6 R1 F H1 T1 S H2 T2 L H3 T3) as [R6 [Rs [F6 Et]]].
  split; [|exact Et]. rewrite (new_state_value V G prolong scatter restrict_ zero m6 d6 n tag j' m7 w _ R6 Rs F6 N). apply RP.
Qed.
Lemma restore_dual : (forall v, restrict_ (scatter v) = v) -> forall (m0 : mgr V G) (d0 : disk) n v tag m1, reach m0 d0 -> assoc n (named_duals m0) = Some (tag, n) -> update_dual scatter m0 n v = Done m1 ->
  forall ops1 m2 d2 t cyc m3 d3 ops2 m4 d4 j m5 t5 ops3 m6 d6 j' m7 w,
  go (m1, d0) ops1 = Done (m2, d2) -> Forall (fun o => ~ touches n o) ops1 -> save m2 d2 t cyc tag = Done (m3, d3) ->
  go (m3, d3) ops2 = Done (m4, d4) -> Forall (fun o => ~ overwrites tag cyc o) ops2 -> load restrict_ zero m4 d4 cyc tag j = Done (m5, t5) ->
  go (m5, d4) ops3 = Done (m6, d6) -> Forall (fun o => ~ touches n o) ops3 -> new_dual restrict_ m6 n tag j' = Done (m7, w) -> w = v /\ t5 = t.
Proof.
  intros RP m0 d0 n v tag m1 R0 E U ops1 m2 d2 t cyc m3 d3 ops2 m4 d4 j m5 t5 ops3 m6 d6 j' m7 w H1 T1 S H2 T2 L H3 T3 N.
  destruct (proj2 (update_effect V G prolong scatter restrict_ zero m0 d0 n v R0) m1 U) as [tg [E' [F _]]]. rewrite E in E'. injection E' as <-.
  assert (R1 : reach m1 d0) by (apply (reached_exec V G prolong scatter restrict_ zero m0 d0 (OUpdateDual n v)); [exact R0|cbn [exec]; now rewrite U]).
  destruct (restore_field V G prolong scatter restrict_ zero m1 d0 n tag _ ops1 m2 d2 t cyc m3 d3 ops2 m4 d4 j m5 t5 ops3 m6 d6 R1 F H1 T1 S H2 T2 L H3 T3) as [R6 [Rs [F6 Et]]].
  split; [|exact Et]. rewrite (new_dual_value V G prolong scatter restrict_ zero m6 d6 n tag j' m7 w _ R6 Rs F6 N). apply RP.
Qed.
Lemma checkpoint_read (m : mgr V G) (d : disk) t cyc tag m' d' : save m d t cyc tag = Done (m', d') -> forall names, (forall n, In n names -> exists g, field m tag n = Some g) ->
  exists l, load_checkpointed restrict_ d' cyc tag names = Done l /\ Forall2 (fun n v => exists g, field m tag n = Some g /\ v = restrict_ g) names l.
Proof.
  intros S names H. destruct (save_file V G m d t cyc tag m' d' S) as [c [E [_ [_ Hf]]]]. unfold load_checkpointed. rewrite E. induction names as [|n names IH]; [exists []; split; [reflexivity|constructor]|].
  destruct IH as [l [E1 F1]]; [intros k Hk; apply H; now right|]. destruct (H n (or_introl eq_refl)) as [g Hg]. exists (restrict_ g :: l). cbn [read_all]. rewrite Hf, Hg, E1. split; [reflexivity|]. constructor; [eauto|exact F1].
Qed.
Lemma frame_field (m : mgr V G) (d : disk) ops m' d' tag n g : reach m d -> go (m, d) ops = Done (m', d') -> Forall (fun o => ~ touches n o) ops -> field m tag n = Some g -> field m' tag n = Some g.
Proof. intros Rm H T F. exact (run_keeps V G prolong scatter restrict_ zero tag n g ops m d m' d' (reached_inv V G prolong scatter restrict_ zero m d Rm) H T F). Qed.
End Restore.

(** ** concrete histories: integers stand for vectors *)
Notation idz := (fun x : Z => x).
Definition empty_disk : string -> Z -> option (coll Z) := fun _ _ => None.
Definition boot : list (op Z Z) := [OInit "out"; OMesh "m" 5%Z; OStore 0 "u" 77%Z; OUpdate "u" 3%Z; OUpdate "m_shape_displacement" 4%Z; OSave 2 10%Z "m"].
Definition reboot : list (op Z Z) := boot ++ [OInit "out"; OLoad 10%Z "m" 6%Z].
Notation runz := (run idz idz idz 0%Z).
Definition after (ops : list (op Z Z)) : mgr Z Z * (string -> Z -> option (coll Z)) := match runz (cleared, empty_disk) ops with Done s => s | _ => (cleared, empty_disk) end.
Lemma reached_after ops s : runz (cleared, empty_disk) ops = Done s -> reached idz idz idz 0%Z (fst s) (snd s).
Proof. intros H. exists empty_disk, ops. rewrite H. destruct s; reflexivity. Qed.
Definition pre : list (op Z Z) := [OInit "out"; OMesh "m" 5%Z; OStore 0 "u" 77%Z; OUpdate "u" 3%Z; OUpdate "m_shape_displacement" 4%Z].
Ltac compute_it := vm_compute; reflexivity.
Lemma pre_runs : runz (cleared, empty_disk) pre = Done (after pre). Proof. compute_it. Qed.
Lemma boot_runs : runz (cleared, empty_disk) boot = Done (after boot). Proof. compute_it. Qed.
Lemma reboot_runs : runz (cleared, empty_disk) reboot = Done (after reboot). Proof. compute_it. Qed.
(** the managers reached, as literals *)
Definition fst_of {A B} (x : outcome (A * B)) (a : A) : A := match x with Done (y, _) => y | _ => a end.
Definition only {A} (x : outcome A) (a : A) : A := match x with Done y => y | _ => a end.
Definition m_pre : mgr Z Z := Eval vm_compute in fst (after pre).
Definition m_boot : mgr Z Z := Eval vm_compute in fst (after boot).
Definition m_init : mgr Z Z := Eval vm_compute in only (initialize m_boot "out") cleared.
Definition m_reboot : mgr Z Z := Eval vm_compute in fst (after reboot).
Definition m_state : mgr Z Z := Eval vm_compute in fst_of (store_state idz m_reboot 1 "u" 0%Z) cleared.
Definition m_dual : mgr Z Z := Eval vm_compute in fst_of (store_dual idz m_state 1 "u" 0%Z) cleared.
Definition m_updated : mgr Z Z := Eval vm_compute in only (update_dual idz m_dual "u" 8%Z) cleared.
Definition m_u : mgr Z Z := Eval vm_compute in fst_of (new_state idz m_reboot "u" "m" 99%Z) cleared.
Lemma pre_at : fst (after pre) = m_pre. Proof. compute_it. Qed.
Lemma boot_at : fst (after boot) = m_boot. Proof. compute_it. Qed.
Lemma reboot_at : fst (after reboot) = m_reboot. Proof. compute_it. Qed.
Lemma pre_reached : reached idz idz idz 0%Z m_pre (snd (after pre)).
Proof. rewrite <- pre_at. exact (reached_after pre _ pre_runs). Qed.
Lemma boot_reached : reached idz idz idz 0%Z m_boot (snd (after boot)).
Proof. rewrite <- boot_at. exact (reached_after boot _ boot_runs). Qed.
Lemma reboot_reached : reached idz idz idz 0%Z m_reboot (snd (after reboot)).
Proof. rewrite <- reboot_at. exact (reached_after reboot _ reboot_runs). Qed.
Lemma u_restored : exists m', new_state idz (fst (after reboot)) "u" "m" 99%Z = Done (m', 3%Z).
Proof. exists m_u. rewrite reboot_at. compute_it. Qed.
Lemma shape_lost : exists (m m' : mgr Z Z) d d' t, reached idz idz idz 0%Z m d /\ field m "m" "m_shape_displacement" = Some 4%Z /\ reached idz idz idz 0%Z m' d' /\
  (exists m0 m1 d1 j, save m d t 10%Z "m" = Done (m1, d1) /\ initialize m1 "out" = Done m0 /\ load idz 0%Z m0 d1 10%Z "m" j = Done (m', t) /\ d' = d1) /\ assoc "m" (shapes m') = Some 0%Z.
Proof.
  exists m_pre, m_reboot, (snd (after pre)), (snd (after reboot)), 2%R. split; [exact pre_reached|]. split; [compute_it|]. split; [exact reboot_reached|]. split; [|compute_it].
  exists m_init, m_boot, (snd (after boot)), 6%Z. split; [compute_it|]. split; [compute_it|]. split; compute_it.
Qed.
Lemma dual_alias : exists (m m1 m2 m3 : mgr Z Z) d a v w, reached idz idz idz 0%Z m d /\ store_state idz m a "u" 0%Z = Done (m1, v) /\ store_dual idz m1 a "u" 0%Z = Done (m2, w) /\ update_dual idz m2 "u" 8%Z = Done m3 /\
  field m2 "m" "u" = Some 3%Z /\ field m3 "m" "u" = Some 8%Z.
Proof.
  exists m_reboot, m_state, m_dual, m_updated, (snd (after reboot)), 1%nat, 3%Z, 3%Z. split; [exact reboot_reached|]. repeat split; compute_it.
Qed.
Lemma mesh_after_load : exists (m : mgr Z Z) d, reached idz idz idz 0%Z m d /\ set_mesh idz 0%Z m "other" 0%Z = Undef.
Proof. exists m_reboot, (snd (after reboot)). split; [exact reboot_reached|compute_it]. Qed.
Lemma new_name_after_load : exists (m : mgr Z Z) d, reached idz idz idz 0%Z m d /\ has_state m "fresh" = false /\ new_state idz m "fresh" "m" 0%Z = Undef.
Proof. exists m_reboot, (snd (after reboot)). split; [exact reboot_reached|split; compute_it]. Qed.
Lemma mesh_twice : exists (m : mgr Z Z) d, reached idz idz idz 0%Z m d /\ set_mesh idz 0%Z m "m" 0%Z = Undef.
Proof. exists m_boot, (snd (after boot)). split; [exact boot_reached|compute_it]. Qed.
Definition m_w (j : Z) : mgr Z Z := fst_of (store_state idz m_boot 0 "w" j) cleared.
Lemma store_w j : store_state idz m_boot 0 "w" j = Done (m_w j, j).
Proof. compute_it. Qed.
Lemma stored_values_lost : forall v0 : Z, exists (m m' : mgr Z Z) d a j v, reached idz idz idz 0%Z m d /\ store_state idz m a "w" j = Done (m', v) /\ v <> v0.
Proof. intros v0. exists m_boot, (m_w (v0 + 1)), (snd (after boot)), 0%nat, (v0 + 1)%Z, (v0 + 1)%Z. split; [exact boot_reached|]. split; [apply store_w|lia]. Qed.
