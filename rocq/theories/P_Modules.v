(** * Physics modules on a shared mesh (C67): every program that initialises the manager, sets or loads meshes, constructs modules,
    steps them, sets parameters and shape displacements and writes to disk, in any order *)
From Coq Require Import String List Bool Arith ZArith Reals.
From Verif Require Import Names FEVector StateMgr Modules ModulesFacts ModulesRun ModulesEx.
Import ListNotations.
Local Open Scope string_scope.

Section C67.
Variables V G : Type.
Variables (prolong scatter : V -> G) (restrict_ : G -> V) (zero : V).
Notation reach := (reachable V G prolong scatter restrict_ zero). Notation act := (perform V G prolong scatter restrict_ zero).

(** writing a live module to disk never fails. The file of its cycle has its time, the values of its states, duals, parameters,
    sensitivities and of the mesh's shape displacement, and for every other field what the manager held. Other files stay *)
Theorem C67_output : forall w i d, reach w -> module_of V G w i d -> exists v m' k' c, shape_value V G (w_mgr V G w) (m_tag V d) = StateMgr.Done v /\
  output_to_disk V G prolong scatter (w_mgr V G w) (w_disk V G w) d = StateMgr.Done (m', k') /\
  k' (m_tag V d) (m_cycle V d) = Some c /\ ctime c = m_time V d /\ ccycle c = m_cycle V d /\
  (forall t y, ~ (t = m_tag V d /\ y = m_cycle V d) -> k' t y = w_disk V G w t y) /\
  (apart V d -> holds V G prolong scatter d v c) /\
  (forall n, n <> shape_name (m_tag V d) -> ~ In n (own_states V d) -> ~ In n (own_duals V d) -> assoc n (fields c) = field (w_mgr V G w) (m_tag V d) n) /\
  (forall t n, t <> m_tag V d -> field m' t n = field (w_mgr V G w) t n) /\ (forall n, field m' (m_tag V d) n = assoc n (fields c)) /\ shapes m' = shapes (w_mgr V G w) /\ restart m' = restart (w_mgr V G w).
Proof. exact (output_file V G prolong scatter restrict_ zero). Qed.
(** in a run that loaded nothing, no state shares its name with a dual *)
Theorem C67_names_apart : forall w i j d e, reach w -> restart (w_mgr V G w) = false -> module_of V G w i d -> module_of V G w j e -> m_tag V d = m_tag V e -> apart2 V d e.
Proof. exact (apart_live V G prolong scatter restrict_ zero). Qed.
(** two modules on one mesh, written one after the other at the same cycle: the file holds both *)
Theorem C67_two_modules : forall w i j d e, reach w -> module_of V G w i d -> module_of V G w j e -> i <> j -> m_tag V d = m_tag V e -> m_cycle V d = m_cycle V e ->
  (forall x y, (x = d \/ x = e) -> (y = d \/ y = e) -> apart2 V x y) ->
  exists v w1 w2 c, shape_value V G (w_mgr V G w) (m_tag V d) = StateMgr.Done v /\ act w (COutput V G i) = StateMgr.Done w1 /\ act w1 (COutput V G j) = StateMgr.Done w2 /\
    w_disk V G w2 (m_tag V d) (m_cycle V d) = Some c /\ holds V G prolong scatter d v c /\ holds V G prolong scatter e v c.
Proof. exact (two_outputs V G prolong scatter restrict_ zero). Qed.
(** a new module has the requested clock, zero primal and adjoint fields and zero duals; on a reloaded mesh its parameters have the saved values.
    The full statement wants the saved primal fields as well, and the shape displacement left alone; see the refutations below *)
Theorem C67_construct_partial : forall w kd quasi name tag params cyc t td junk w', reach w -> act w (CConstruct V G kd quasi name tag params cyc t td junk) = StateMgr.Done w' ->
  exists d, w_mods V G w' = (w_mods V G w ++ [d])%list /\ m_kind V d = kd /\ m_name V d = name /\ m_tag V d = tag /\ m_params V d = params /\ m_cycle V d = cyc /\ m_time V d = t /\
    (forall f, In f (primal kd) \/ f = adjoint kd -> sval V d (full V d f) = zero) /\
    (forall f, ~ In f (map (fun p => sens (full V d (fst p))) params) -> dval V d f = zero) /\
    shape_value V G (w_mgr V G w') tag = StateMgr.Done zero /\ (forall t', t' <> tag -> shape_value V G (w_mgr V G w') t' = shape_value V G (w_mgr V G w) t') /\
    (restart (w_mgr V G w) = true -> forall p, In p (map fst params) -> exists g, field (w_mgr V G w) tag (full V d p) = Some g /\ sval V d (full V d p) = restrict_ g).
Proof. exact (construct_rest V G prolong scatter restrict_ zero). Qed.
(** a parameter is set exactly when the index exists and mesh, size and space agree; then only that parameter changes *)
Theorem C67_parameter : forall (d : module V) j s v,
  (forall p sp, nth_error (m_params V d) j = Some (p, sp) -> on_mesh s = m_mesh V d -> tsize s = tsize sp -> same_space sp s = true ->
     exists d', set_parameter V d j s v = StateMgr.Done d' /\ sval V d' (full V d p) = v /\ (forall n, n <> full V d p -> sval V d' n = sval V d n) /\ dval V d' = dval V d /\
       m_cycle V d' = m_cycle V d /\ m_time V d' = m_time V d /\ m_name V d' = m_name V d /\ m_tag V d' = m_tag V d /\ m_params V d' = m_params V d) /\
  ((nth_error (m_params V d) j = None \/ on_mesh s <> m_mesh V d \/ exists p sp, nth_error (m_params V d) j = Some (p, sp) /\ (tsize s <> tsize sp \/ same_space sp s = false)) -> set_parameter V d j s v = StateMgr.Refused).
Proof. exact (parameter_exact V). Qed.
(** a shape displacement set through any module of a mesh is the one every module of that mesh sees; nothing else changes *)
Theorem C67_shape : forall w i d sp s v, reach w -> module_of V G w i d ->
  (on_mesh s = m_mesh V d -> tsize s = tsize sp -> same_space sp s = true ->
     exists w', act w (CShape V G i sp s v) = StateMgr.Done w' /\ w_mods V G w' = w_mods V G w /\ w_disk V G w' = w_disk V G w /\
       shape_value V G (w_mgr V G w') (m_tag V d) = StateMgr.Done v /\ (forall t, t <> m_tag V d -> shape_value V G (w_mgr V G w') t = shape_value V G (w_mgr V G w) t) /\
       (forall t n, field (w_mgr V G w') t n = field (w_mgr V G w) t n)) /\
  ((on_mesh s <> m_mesh V d \/ tsize s <> tsize sp \/ same_space sp s = false) -> act w (CShape V G i sp s v) = StateMgr.Refused).
Proof. exact (shape_exact V G prolong scatter restrict_ zero). Qed.
(** no call changes a module it is not made on, other than initialising the manager *)
Theorem C67_others : forall w c w' j d, act w c = StateMgr.Done w' -> ~ changes V G c j -> module_of V G w j d -> module_of V G w' j d.
Proof. exact (others_kept V G prolong scatter restrict_ zero). Qed.
End C67.
Print Assumptions C67_output.
Print Assumptions C67_names_apart.
Print Assumptions C67_two_modules.
Print Assumptions C67_construct_partial.
Print Assumptions C67_parameter.
Print Assumptions C67_shape.
Print Assumptions C67_others.
Example C67_nonvacuous : exists w d e, zreachable w /\ module_of Z Z w 0 d /\ module_of Z Z w 1 e /\ m_tag _ d = m_tag _ e /\ m_name _ d <> m_name _ e /\ restart (w_mgr _ _ w) = false.
Proof. exact two_alive. Qed.

(** restarting: the module constructed at the saved cycle starts from zero although the file holds 7 *)
Theorem C67_restart_refuted : exists w w' k, zreachable w /\ w_disk _ _ w = k /\ file_value k "m" 5 "s_displacement" = Some 7%Z /\ module_value w 0 "s_displacement" = Some 7%Z /\
  zprogram (begin_with Z Z k) (second_run false) = StateMgr.Done w' /\ module_value w' 0 "s_displacement" = Some 0%Z /\ module_value w' 0 "s_E" = Some 3%Z.
Proof. exact restart_lost. Qed.
Print Assumptions C67_restart_refuted.
(** with checkpoints on disk, constructing it also replaces the saved file by zeros *)
Theorem C67_checkpoint_file_refuted : exists w', zprogram (begin_with Z Z saved) (second_run true) = StateMgr.Done w' /\ file_value saved "m" 5 "s_displacement" = Some 7%Z /\ file_value (w_disk _ _ w') "m" 5 "s_displacement" = Some 0%Z.
Proof. exact checkpoint_lost. Qed.
Print Assumptions C67_checkpoint_file_refuted.
(** constructing a second module on a mesh undoes the shape displacement set before *)
Theorem C67_shape_kept_refuted : exists w w', zreachable w /\ shape_in w "m" = Some 4%Z /\ perform Z Z idz idz idz 0%Z w (CConstruct Z Z Heat true "h" "m" [] 0 0 false buffers) = StateMgr.Done w' /\ shape_in w' "m" = Some 0%Z.
Proof. exact shape_lost. Qed.
Print Assumptions C67_shape_kept_refuted.
(** the adjoint field belongs to the module's fields on the mesh and is not written *)
Theorem C67_adjoint_written_refuted : exists w d, zreachable w /\ module_of Z Z w 0 d /\ sval _ d (full _ d (adjoint (m_kind _ d))) = 9%Z /\ In (full _ d (adjoint (m_kind _ d))) (own_states _ d) /\
  (exists w', perform Z Z idz idz idz 0%Z w (COutput _ _ 0) = StateMgr.Done w' /\ file_value (w_disk _ _ w') "m" 5 "s_adjoint_displacement" = Some 5%Z).
Proof. exact adjoint_stale. Qed.
Print Assumptions C67_adjoint_written_refuted.
(** the value of a parameter that was never set is whatever the new buffer held *)
Theorem C67_parameter_default_refuted : forall z : Z, exists w, zprogram (begin_with Z Z no_files) [CManager _ _ (OInit "out"); CManager _ _ (OMesh "m" 5%Z); CConstruct Z Z Solid false "s" "m" [("E", scalar)] 0 0 false (fun _ => z)] = StateMgr.Done w /\ module_value w 0 "s_E" = Some z.
Proof. exact parameter_unset. Qed.
Print Assumptions C67_parameter_default_refuted.
