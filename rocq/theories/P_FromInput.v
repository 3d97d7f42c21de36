(** * C55: physics modules created from input files *)
From Coq Require Import String List ZArith Reals Permutation.
From Coq.Structures Require Import OrdersEx.
Import ListNotations.
From Verif Require Import Prelude Ledger BCManager FromInput.
Local Open Scope R_scope.

(** ** thermal boundary conditions: exactly the entries whose name contains "temperature" are applied, on their attributes *)
Theorem C55_heat_conditions : forall V (l : list (entry V)) rs, heat_bcs V l = Ok rs -> forall r e, In (r, e) rs <->
  In e l /\ has "temperature" (b_name e) = true /\ b_vector e = false /\ exists c, b_component e = Some c /\ r = ByAttrs (b_attrs e) (Some c).
Proof. exact heat_applied. Qed.
Print Assumptions C55_heat_conditions.
(** the result is the same for every iteration order of the dictionary *)
Theorem C55_heat_any_order : forall V (l l' : list (entry V)), NoDup (map b_name l) -> Permutation l l' -> heat_bcs V l = heat_bcs V l'.
Proof. exact heat_order. Qed.
Print Assumptions C55_heat_any_order.
(** where several entries name a boundary attribute, the first by name gives the value of its dofs *)
Theorem C55_heat_first_by_name : forall V dofs_on (l : list (entry V)) rs default, NoDup (map b_name l) -> heat_bcs V l = Ok rs ->
  (forall a a' c c' d, In d (dofs_on a c) -> In d (dofs_on a' c') -> a = a') ->
  forall e a c d, In e l -> has "temperature" (b_name e) = true -> b_component e = Some c -> In a (b_attrs e) -> In d (dofs_on a (Some c)) ->
  (forall e', In e' l -> has "temperature" (b_name e') = true -> In a (b_attrs e') -> e' = e \/ String_as_OT.lt (b_name e) (b_name e')) ->
  prescribed V dofs_on rs default d = b_value e d.
Proof. exact heat_value. Qed.
Print Assumptions C55_heat_first_by_name.
Example C55_heat_example : exists rs, heat_bcs R [hot; cold] = Ok rs /\ map snd rs = [cold; hot] /\
  fixed R (fun a _ => [Z.to_nat a]) rs = [1%nat; 2%nat] /\ prescribed R (fun a _ => [Z.to_nat a]) rs (fun _ => 9) 2%nat = 0 /\
  prescribed R (fun a _ => [Z.to_nat a]) rs (fun _ => 9) 1%nat = 1.
Proof. exact heat_example. Qed.

(** which inputs are accepted *)
Theorem C55_heat_accepted : forall V (l : list (entry V)), (exists rs, heat_bcs V l = Ok rs) <->
  forall e, In e l -> if has "temperature" (b_name e) then b_vector e = false /\ b_component e <> None else has "flux" (b_name e) = false.
Proof. exact heat_accepts. Qed.
Print Assumptions C55_heat_accepted.
(** a temperature entry without a component is undefined behaviour instead of a refusal *)
Theorem C55_heat_component_refuted : exists e : entry R, has "temperature" (b_name e) = true /\ b_vector e = false /\ heat_bcs R [e] = UB.
Proof. exact (ex_intro _ no_component (conj eq_refl (conj eq_refl heat_component_missing))). Qed.
Print Assumptions C55_heat_component_refuted.

(** ** solid boundary conditions: exactly the entries whose name contains "displacement" *)
Theorem C55_solid_conditions : forall V (l : list (entry V)) rs, solid_bcs V l = Ok rs -> forall r e, In (r, e) rs <->
  In e l /\ has "displacement" (b_name e) = true /\
  (b_vector e = true /\ r = ByAttrs (b_attrs e) None \/ b_vector e = false /\ exists c, b_component e = Some c /\ r = ByAttrs (b_attrs e) (Some c)).
Proof. exact solid_applied. Qed.
Print Assumptions C55_solid_conditions.
Theorem C55_solid_accepted : forall V (l : list (entry V)), (exists rs, solid_bcs V l = Ok rs) <->
  forall e, In e l -> if has "displacement" (b_name e) then b_vector e = true \/ b_component e <> None
    else has "traction" (b_name e) = false /\ has "pressure" (b_name e) = false /\ has "traction_ref" (b_name e) = false /\ has "pressure_ref" (b_name e) = false.
Proof. exact solid_accepts. Qed.
Print Assumptions C55_solid_accepted.
Theorem C55_solid_defined : forall V (l : list (entry V)), solid_bcs V l <> UB.
Proof. exact solid_no_ub. Qed.
Print Assumptions C55_solid_defined.
(** with no attribute named twice the constrained dofs are the same for every iteration order; the full statement has no such
    condition *)
Theorem C55_solid_any_order_partial : forall V dofs_on (l l' : list (entry V)) rs, Permutation l l' -> solid_bcs V l = Ok rs -> NoDup (flat_map attrs_of (map fst rs)) ->
  exists rs', solid_bcs V l' = Ok rs' /\ forall d, In d (fixed V dofs_on rs) <-> In d (fixed V dofs_on rs').
Proof. exact solid_order. Qed.
Print Assumptions C55_solid_any_order_partial.
(** a repeated attribute gets the value of whichever entry the dictionary yields first *)
Theorem C55_solid_any_order_refuted : exists ra rb, solid_bcs R [left_a; left_b] = Ok ra /\ solid_bcs R [left_b; left_a] = Ok rb /\
  prescribed R (fun _ _ => [0%nat]) ra (fun _ => 9) 0%nat = 0 /\ prescribed R (fun _ _ => [0%nat]) rb (fun _ => 9) 0%nat = 1.
Proof. exact solid_order_matters. Qed.
Print Assumptions C55_solid_any_order_refuted.

(** ** materials: all listed ones are used if they fit the dimension *)
Theorem C55_heat_materials_partial : forall dim l, (forall m, In m l -> fits dim m) -> heat_materials dim l = l.
Proof. exact heat_materials_all. Qed.
Print Assumptions C55_heat_materials_partial.
Example C55_heat_materials_example : forall m, In m [Isotropic 1; Anisotropic 2 (fun _ _ => 1)] -> fits 2 m.
Proof. intros m [<-|[<-|[]]]; cbn; auto. Qed.
(** a conductor of another dimension is neither used nor refused: the module has no material at all *)
Theorem C55_heat_material_refuted : forall d dim K, d <> dim -> heat_materials dim [Anisotropic d K] = [].
Proof. exact heat_material_dropped. Qed.
Print Assumptions C55_heat_material_refuted.
Theorem C55_solid_materials : forall dim l r, solid_materials dim l = Ok r <-> r = l /\ (dim = 3%nat \/ forall h, ~ In (J2M h) l).
Proof. exact solid_materials_spec. Qed.
Print Assumptions C55_solid_materials.

(** ** initial conditions from the input are in the field but not in checkpoint 0, which keeps the zero field *)
Theorem C55_initial_checkpoint_refuted : forall V cfg t (zero : V) n v, NoDup (names cfg) -> In n (names cfg) ->
  l_fields V (initial_from_input cfg 0 t zero n v) n = v /\ load_state V (initial_from_input cfg 0 t zero n v) n 0 = Ok zero.
Proof. exact @initial_checkpoint. Qed.
Print Assumptions C55_initial_checkpoint_refuted.
(** an initial condition given by setState is in both *)
Theorem C55_initial_by_set_state : forall V cfg t (zero : V) n v, NoDup (names cfg) -> In n (names cfg) -> In n (settable cfg) ->
  exists s, set_state V cfg n v (reset V cfg 0 t (fun _ => zero)) = Ok s /\ l_fields V s n = v /\ load_state V s n 0 = Ok v.
Proof. exact @initial_by_set_state. Qed.
Print Assumptions C55_initial_by_set_state.

(** ** time integration named in the input *)
Theorem C55_heat_integrator : forall d m, integrator_of heat_methods first_order d = Ok m <->
  (d = None /\ m = MQuasiStatic) \/ exists n, d = Some {| d_timestepper := n; d_enforcement := "RateControl" |} /\
    (n = "BackwardEuler"%string /\ m = MBackwardEuler \/ n = "ForwardEuler"%string /\ m = MForwardEuler).
Proof. exact heat_integrator. Qed.
Print Assumptions C55_heat_integrator.
Theorem C55_solid_integrator : forall d m, integrator_of solid_methods second_order d = Ok m <->
  (d = None /\ m = MQuasiStatic) \/ exists n, d = Some {| d_timestepper := n; d_enforcement := "RateControl" |} /\
    (n = "AverageAcceleration"%string /\ m = MAverageAcceleration \/ n = "NewmarkBeta"%string /\ m = MNewmark \/ n = "BackwardEuler"%string /\ m = MBackwardEuler).
Proof. exact solid_integrator. Qed.
Print Assumptions C55_solid_integrator.
