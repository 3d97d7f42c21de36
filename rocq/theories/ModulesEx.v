(** * Parameters, shape displacements, and concrete histories of modules (C67) *)
From Coq Require Import String List Bool Arith ZArith Reals Lia.
From Verif Require Import Names FEVector StateMgr Modules ModulesFacts ModulesRun.
Import ListNotations.
Local Open Scope string_scope.

Section Set_.
Variables V G : Type.
Variables (prolong scatter : V -> G) (restrict_ : G -> V) (zero : V).
Lemma parameter_exact (d : module V) j s v :
  (forall p sp, nth_error (m_params V d) j = Some (p, sp) -> on_mesh s = m_mesh V d -> tsize s = tsize sp -> same_space sp s = true ->
     exists d', set_parameter V d j s v = StateMgr.Done d' /\ sval V d' (full V d p) = v /\ (forall n, n <> full V d p -> sval V d' n = sval V d n) /\ dval V d' = dval V d /\
       m_cycle V d' = m_cycle V d /\ m_time V d' = m_time V d /\ m_name V d' = m_name V d /\ m_tag V d' = m_tag V d /\ m_params V d' = m_params V d) /\
  ((nth_error (m_params V d) j = None \/ on_mesh s <> m_mesh V d \/ exists p sp, nth_error (m_params V d) j = Some (p, sp) /\ (tsize s <> tsize sp \/ same_space sp s = false)) -> set_parameter V d j s v = StateMgr.Refused).
Proof.
  unfold set_parameter. split.
  - intros p sp -> -> -> ->. rewrite !Nat.eqb_refl. cbn [negb]. eexists. split; [reflexivity|]. cbn [with_sval sval dval m_cycle m_time m_name m_tag m_params]. split; [apply upd_same|].
    split; [intros n N; now apply upd_other|]. repeat split.
  - destruct (nth_error (m_params V d) j) as [[q sq]|]; [|reflexivity]. intros [H|[H|[p [sp [H1 H2]]]]]; [discriminate| |].
    + now rewrite (proj2 (Nat.eqb_neq _ _) H).
    + injection H1 as -> ->. destruct (negb (Nat.eqb (on_mesh s) (m_mesh V d))); [reflexivity|]. destruct H2 as [H2| ->]; [now rewrite (proj2 (Nat.eqb_neq _ _) H2)|]. now destruct (negb (Nat.eqb (tsize s) (tsize sp))).
Qed.
Lemma shape_exact w i d sp s v : reachable V G prolong scatter restrict_ zero w -> module_of V G w i d ->
  (on_mesh s = m_mesh V d -> tsize s = tsize sp -> same_space sp s = true ->
     exists w', perform V G prolong scatter restrict_ zero w (CShape V G i sp s v) = StateMgr.Done w' /\ w_mods V G w' = w_mods V G w /\ w_disk V G w' = w_disk V G w /\
       shape_value V G (w_mgr V G w') (m_tag V d) = StateMgr.Done v /\ (forall t, t <> m_tag V d -> shape_value V G (w_mgr V G w') t = shape_value V G (w_mgr V G w) t) /\
       (forall t n, field (w_mgr V G w') t n = field (w_mgr V G w) t n)) /\
  ((on_mesh s <> m_mesh V d \/ tsize s <> tsize sp \/ same_space sp s = false) -> perform V G prolong scatter restrict_ zero w (CShape V G i sp s v) = StateMgr.Refused).
Proof.
  intros Rw Hi. cbn [perform]. assert (Pi : pick V G w i = StateMgr.Done d) by (unfold pick; now rewrite Hi). rewrite Pi. cbn [bind]. unfold set_shape. split.
  - intros -> -> ->. rewrite !Nat.eqb_refl. cbn [negb]. pose proof (w_reg _ _ w (reachable_wf _ _ _ _ _ _ w Rw) i d Hi) as [_ [_ [[u Hu] _]]]. assert (Su : shape_value V G (w_mgr V G w) (m_tag V d) = StateMgr.Done u) by (unfold shape_value; now rewrite Hu). rewrite Su. cbn [bind].
    eexists. split; [reflexivity|]. cbn [w_mods w_disk w_mgr]. split; [reflexivity|]. split; [reflexivity|]. unfold shape_value, set_shape_value. cbn [shapes]. split; [now rewrite assoc_put_same|]. split; [intros t N; now rewrite assoc_put_other|]. reflexivity.
  - intros [H|[H|H]]; [now rewrite (proj2 (Nat.eqb_neq _ _) H)| |].
    + rewrite (proj2 (Nat.eqb_neq _ _) H). now destruct (negb (Nat.eqb (on_mesh s) (m_mesh V d))).
    + rewrite H. destruct (negb (Nat.eqb (on_mesh s) (m_mesh V d))); [reflexivity|]. now destruct (negb (Nat.eqb (tsize s) (tsize sp))).
Qed.
(** the module a call changes, if any *)
Definition changes (c : call V G) (j : nat) : Prop := match c with CStep _ _ i _ _ _ _ => i = j | CParameter _ _ i _ _ _ => i = j | CManager _ _ (OInit _) => True | _ => False end.
Lemma others_kept w c w' j d : perform V G prolong scatter restrict_ zero w c = StateMgr.Done w' -> ~ changes c j -> module_of V G w j d -> module_of V G w' j d.
Proof.
  unfold module_of. intros H N Hj. destruct c as [o|kd quasi name tag params cyc t td junk|i sv dv cyc t|i q s v|i sp s v|i]; cbn [perform changes] in *.
  - destruct (bind_done _ _ _ H) as [x [_ K]]. injection K as <-. cbn [w_mods]. destruct o; cbn [is_init]; auto. exfalso. exact (N Logic.I).
  - destruct (bind_done _ _ _ H) as [x [_ K]]. injection K as <-. cbn [w_mods]. rewrite nth_error_app1; [exact Hj|]. apply nth_error_Some. congruence.
  - destruct (bind_done _ _ _ H) as [x [_ K]]. injection K as <-. cbn [w_mods]. rewrite nth_replace. now rewrite (proj2 (Nat.eqb_neq _ _) N).
  - destruct (bind_done _ _ _ H) as [x [_ K]]. destruct (bind_done _ _ _ K) as [y [_ L]]. injection L as <-. cbn [w_mods]. rewrite nth_replace. now rewrite (proj2 (Nat.eqb_neq _ _) N).
  - destruct (bind_done _ _ _ H) as [x [_ K]]. destruct (bind_done _ _ _ K) as [y [_ L]]. injection L as <-. exact Hj.
  - destruct (bind_done _ _ _ H) as [x [_ K]]. destruct (bind_done _ _ _ K) as [y [_ L]]. injection L as <-. exact Hj.
Qed.
End Set_.

(** ** concrete programs: values and grid functions are integers, and the two agree *)
Definition idz (x : Z) : Z := x.
Notation zprogram := (program Z Z idz idz idz 0%Z). Notation zworld := (world Z Z). Notation zreachable := (reachable Z Z idz idz idz 0%Z).
Definition no_files : string -> Z -> option (coll Z) := fun _ _ => None.
Definition after (k : string -> Z -> option (coll Z)) (cs : list (call Z Z)) : zworld := match zprogram (begin_with Z Z k) cs with StateMgr.Done w => w | _ => begin_with Z Z k end.
Definition scalar : space := {| on_mesh := 0; coll_name := "H1_2D_P1"; vdim := 1; ordering := 0; tsize := 4 |}.
Definition vector : space := {| on_mesh := 0; coll_name := "H1_2D_P1"; vdim := 2; ordering := 0; tsize := 8 |}.
Definition buffers : string -> Z := fun _ => 5%Z.
Definition solid (cyc : Z) (t : R) (td : bool) : call Z Z := CConstruct Z Z Solid false "s" "m" [("E", scalar)] cyc t td buffers.
Definition state_of (n : string) : Z := if String.eqb n "s_displacement" then 7%Z else if String.eqb n "s_E" then 3%Z else if String.eqb n "s_adjoint_displacement" then 9%Z else 1%Z.
Definition first_run : list (call Z Z) := [CManager _ _ (OInit "out"); CManager _ _ (OMesh "m" 5%Z); solid 0 0 false; CParameter _ _ 0 0 scalar 3%Z; CStep _ _ 0 state_of (fun _ => 2%Z) 5 2; CShape _ _ 0 vector vector 4%Z; COutput _ _ 0].
Definition saved : string -> Z -> option (coll Z) := w_disk _ _ (after no_files first_run).
Definition second_run (td : bool) : list (call Z Z) := [CManager _ _ (OInit "out"); CManager _ _ (OLoad 5 "m" 6%Z); solid 5 2 td].
Definition file_value (k : string -> Z -> option (coll Z)) (tag : string) (cyc : Z) (n : string) : option Z := match k tag cyc with Some c => assoc n (fields c) | None => None end.
Definition module_value (w : zworld) (i : nat) (n : string) : option Z := match nth_error (w_mods _ _ w) i with Some d => Some (sval _ d n) | None => None end.
Definition shape_in (w : zworld) (tag : string) : option Z := match shape_value _ _ (w_mgr _ _ w) tag with StateMgr.Done v => Some v | _ => None end.
Lemma first_done : zprogram (begin_with Z Z no_files) first_run = StateMgr.Done (after no_files first_run).
Proof. vm_compute. reflexivity. Qed.
Lemma second_done td : zprogram (begin_with Z Z saved) (second_run td) = StateMgr.Done (after saved (second_run td)).
Proof. destruct td; vm_compute; reflexivity. Qed.
Lemma reach_after k cs : zprogram (begin_with Z Z k) cs = StateMgr.Done (after k cs) -> zreachable (after k cs).
Proof. intros H. exists k, cs. exact H. Qed.
(** the second run starts from zero although the file of its cycle holds 7 *)
Lemma restart_lost : exists w w' k, zreachable w /\ w_disk _ _ w = k /\ file_value k "m" 5 "s_displacement" = Some 7%Z /\ module_value w 0 "s_displacement" = Some 7%Z /\
  zprogram (begin_with Z Z k) (second_run false) = StateMgr.Done w' /\ module_value w' 0 "s_displacement" = Some 0%Z /\ module_value w' 0 "s_E" = Some 3%Z.
Proof.
  exists (after no_files first_run), (after saved (second_run false)), saved. split; [exact (reach_after _ _ first_done)|]. split; [unfold saved; reflexivity|]. split; [vm_compute; reflexivity|]. split; [vm_compute; reflexivity|].
  split; [exact (second_done false)|]. split; vm_compute; reflexivity.
Qed.
(** with checkpoints on disk it also writes zero over that file *)
Lemma checkpoint_lost : exists w', zprogram (begin_with Z Z saved) (second_run true) = StateMgr.Done w' /\ file_value saved "m" 5 "s_displacement" = Some 7%Z /\ file_value (w_disk _ _ w') "m" 5 "s_displacement" = Some 0%Z.
Proof. exists (after saved (second_run true)). split; [exact (second_done true)|]. split; vm_compute; reflexivity. Qed.
(** a second module on the mesh undoes the shape displacement set through the first *)
Definition add_heat : list (call Z Z) := (first_run ++ [CConstruct Z Z Heat true "h" "m" [] 0 0 false buffers])%list.
Lemma shape_lost : exists w w', zreachable w /\ shape_in w "m" = Some 4%Z /\ perform Z Z idz idz idz 0%Z w (CConstruct Z Z Heat true "h" "m" [] 0 0 false buffers) = StateMgr.Done w' /\ shape_in w' "m" = Some 0%Z.
Proof.
  exists (after no_files first_run), (after no_files add_heat). split; [exact (reach_after _ _ first_done)|]. split; [vm_compute; reflexivity|]. split; vm_compute; reflexivity.
Qed.
(** the adjoint field is registered with the manager and yet not written *)
Lemma adjoint_stale : exists w d, zreachable w /\ module_of Z Z w 0 d /\ sval _ d (full _ d (adjoint (m_kind _ d))) = 9%Z /\ In (full _ d (adjoint (m_kind _ d))) (own_states _ d) /\
  (exists w', perform Z Z idz idz idz 0%Z w (COutput _ _ 0) = StateMgr.Done w' /\ file_value (w_disk _ _ w') "m" 5 "s_adjoint_displacement" = Some 5%Z).
Proof.
  destruct (nth_error (w_mods _ _ (after no_files first_run)) 0) as [d|] eqn:E; [|vm_compute in E; discriminate].
  exists (after no_files first_run), d. split; [exact (reach_after _ _ first_done)|]. split; [exact E|]. vm_compute in E. injection E as <-. split; [reflexivity|]. split; [cbn; tauto|].
  eexists. split; vm_compute; reflexivity.
Qed.
(** a parameter that was never set holds what the new buffer happened to hold *)
Lemma parameter_unset : forall z : Z, exists w, zprogram (begin_with Z Z no_files) [CManager _ _ (OInit "out"); CManager _ _ (OMesh "m" 5%Z); CConstruct Z Z Solid false "s" "m" [("E", scalar)] 0 0 false (fun _ => z)] = StateMgr.Done w /\ module_value w 0 "s_E" = Some z.
Proof. intros z. eexists. split; vm_compute; reflexivity. Qed.
(** two modules, both alive, with distinct names *)
Lemma two_alive : exists w d e, zreachable w /\ module_of Z Z w 0 d /\ module_of Z Z w 1 e /\ m_tag _ d = m_tag _ e /\ m_name _ d <> m_name _ e /\ restart (w_mgr _ _ w) = false.
Proof.
  assert (D : zprogram (begin_with Z Z no_files) add_heat = StateMgr.Done (after no_files add_heat)) by (vm_compute; reflexivity).
  destruct (nth_error (w_mods _ _ (after no_files add_heat)) 0) as [d|] eqn:E; [|vm_compute in E; discriminate]. destruct (nth_error (w_mods _ _ (after no_files add_heat)) 1) as [e|] eqn:F; [|vm_compute in F; discriminate].
  exists (after no_files add_heat), d, e. split; [exact (reach_after _ _ D)|]. split; [exact E|]. split; [exact F|]. vm_compute in E, F. injection E as <-. injection F as <-. split; [reflexivity|]. split; [discriminate|vm_compute; reflexivity].
Qed.
