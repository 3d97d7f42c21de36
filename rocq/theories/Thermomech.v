(** * The operator-split thermomechanics module (/repo/src/serac/physics/thermomechanics.hpp)

    Built on the bookkeeping model of the two submodules (Ledger.v).  Simplifications as there; what each submodule's
    solver computes in a step is an arbitrary function of its parameter field, its own fields, its time and dt. *)
From Coq Require Import String List ZArith Reals Lra Lia Bool.
From Verif Require Import Prelude Ledger Tensor MatAlg Materials.
Import ListNotations.
Open Scope R_scope.

Section Coupled.
Variable V : Type.
Local Notation fields := (string -> V).
Variable zero : V.
(** The submodules' configurations (integrators) and solvers; the first argument is parameter 0. *)
Variables thermal_cfg solid_cfg : config.
Variables thermal_solve solid_solve : V -> fields -> R -> R -> fields.

(** thermomechanics.hpp:523-537 and the BasePhysics members of the module itself ([c_own]).  [p_disp]: parameter 0 of
    thermal_, [p_temp]: parameter 0 of solid_ (both zero when created, base_physics.hpp ParameterInfo). *)
Record coupled := { c_thermal : ledger V; c_solid : ledger V; c_own : ledger V; p_disp : V; p_temp : V }.
Definition c_time (s : coupled) : R := l_time V (c_own s).
Definition c_cycle (s : coupled) : Z := l_cycle V (c_own s).

(** initializeBasePhysicsStates (base_physics.cpp:62-79): checkpoint_states_ is left alone.  The module has no fields of its own. *)
Definition base_init (cycle : Z) (time : R) (ckpt : string -> option (list V)) : ledger V :=
  {| l_time := time; l_max_time := time; l_min_time := time; l_cycle := cycle; l_max_cycle := cycle; l_min_cycle := cycle;
     l_steps := []; l_end_step := 0; l_fields := fun _ => zero; l_ckpt := ckpt |}.

(** thermomechanics.hpp:77-92: BasePhysics(physics_name, mesh_tag) takes its default cycle 0 and time 0
    (base_physics.hpp:62); the submodules get [cycle] and [time]. *)
Definition construct (cycle : Z) (time : R) : coupled :=
  {| c_thermal := reset V thermal_cfg cycle time (fun _ => zero); c_solid := reset V solid_cfg cycle time (fun _ => zero);
     c_own := base_init 0 0 (fun _ => None); p_disp := zero; p_temp := zero |}.

(** The constructor's parameter check (heat_transfer.hpp:194-197, solid_mechanics.hpp:229-232): the submodules have
    1 + user parameter spaces, one name is passed (thermomechanics.hpp:78-81). *)
Definition construct_with (user_spaces : nat) (cycle : Z) (time : R) : outcome coupled :=
  if Nat.eqb (1 + user_spaces) (length ["displacement"%string]) then Ok (construct cycle time) else Refused.

(** thermomechanics.hpp:155-160: parameters are not reset. *)
Definition coupled_reset (cycle : Z) (time : R) (s : coupled) : coupled :=
  {| c_thermal := reset V thermal_cfg cycle time (fun _ => zero); c_solid := reset V solid_cfg cycle time (fun _ => zero);
     c_own := base_init cycle time (l_ckpt V (c_own s)); p_disp := p_disp s; p_temp := p_temp s |}.

(** thermomechanics.hpp:239-249. *)
Definition coupled_advance (dt : R) (s : coupled) : coupled :=
  let u := l_fields V (c_solid s) "displacement"%string in
  let th := advance V thermal_cfg dt (thermal_solve u (l_fields V (c_thermal s)) (l_time V (c_thermal s)) dt) (c_thermal s) in
  let T := l_fields V th "temperature"%string in
  let so := advance V solid_cfg dt (solid_solve T (l_fields V (c_solid s)) (l_time V (c_solid s)) dt) (c_solid s) in
  let own := c_own s in
  {| c_thermal := th; c_solid := so;
     c_own := {| l_time := l_time V own + dt; l_max_time := l_max_time V own; l_min_time := l_min_time V own;
                 l_cycle := (l_cycle V own + 1)%Z; l_max_cycle := l_max_cycle V own; l_min_cycle := l_min_cycle V own;
                 l_steps := l_steps V own; l_end_step := l_end_step V own; l_fields := l_fields V own; l_ckpt := l_ckpt V own |};
     p_disp := u; p_temp := T |}.

(** state (thermomechanics.hpp:168-181). *)
Definition coupled_state (s : coupled) (n : string) : outcome V :=
  if String.eqb n "displacement" then Ok (l_fields V (c_solid s) "displacement"%string)
  else if String.eqb n "velocity" then Ok (l_fields V (c_solid s) "velocity"%string)
  else if String.eqb n "temperature" then Ok (l_fields V (c_thermal s) "temperature"%string)
  else Refused.

Definition with_field (n : string) (v : V) (l : ledger V) : ledger V :=
  {| l_time := l_time V l; l_max_time := l_max_time V l; l_min_time := l_min_time V l;
     l_cycle := l_cycle V l; l_max_cycle := l_max_cycle V l; l_min_cycle := l_min_cycle V l;
     l_steps := l_steps V l; l_end_step := l_end_step V l; l_fields := set_field V (l_fields V l) n v; l_ckpt := l_ckpt V l |}.

(** setState (thermomechanics.hpp:193-205): assigns the submodule's field directly. *)
Definition coupled_set_state (n : string) (v : V) (s : coupled) : outcome coupled :=
  let keep th so := Ok {| c_thermal := th; c_solid := so; c_own := c_own s; p_disp := p_disp s; p_temp := p_temp s |} in
  if String.eqb n "displacement" || String.eqb n "velocity" then keep (c_thermal s) (with_field n v (c_solid s))
  else if String.eqb n "temperature" then keep (with_field n v (c_thermal s)) (c_solid s)
  else Refused.

Inductive cop := CAdvance (dt : R) | CSet (n : string) (v : V) | CReset (cycle : Z) (time : R).
Definition cexec (o : cop) (s : coupled) : outcome coupled :=
  match o with
  | CAdvance dt => Ok (coupled_advance dt s)
  | CSet n v => coupled_set_state n v s
  | CReset c t => Ok (coupled_reset c t s)
  end.
Fixpoint crun (l : list cop) (s : coupled) : outcome coupled :=
  match l with [] => Ok s | o :: r => bindO (cexec o s) (crun r) end.

(** ** The staggered scheme, as a recursion on the two fields sets and the time *)
Fixpoint staggered (dts : list R) (t : R) (thf sof : fields) : fields * fields :=
  match dts with
  | [] => (thf, sof)
  | dt :: r =>
      let thf' := thermal_solve (sof "displacement"%string) thf t dt in
      let sof' := solid_solve (thf' "temperature"%string) sof t dt in
      staggered r (t + dt) thf' sof'
  end.

Definition advances (dts : list R) : list cop := map CAdvance dts.

Hypothesis th_clock : forall t dt, stage_time thermal_cfg t dt = t + dt.
Hypothesis so_clock : forall t dt, stage_time solid_cfg t dt = t + dt.

Lemma staggered_ok : forall dts s t, l_time V (c_thermal s) = t -> l_time V (c_solid s) = t ->
  exists s', crun (advances dts) s = Ok s' /\
    (l_fields V (c_thermal s'), l_fields V (c_solid s')) = staggered dts t (l_fields V (c_thermal s)) (l_fields V (c_solid s)).
Proof.
  induction dts as [|dt r IH]; intros s t Ht Hs.
  - exists s. split; reflexivity.
  - cbn [advances map crun cexec bindO staggered].
    destruct (IH (coupled_advance dt s) (t + dt)) as (s' & E & F).
    + unfold coupled_advance, advance; cbn [c_thermal l_time]. rewrite th_clock. now rewrite Ht.
    + unfold coupled_advance, advance; cbn [c_solid l_time]. rewrite so_clock. now rewrite Hs.
    + exists s'. split; [exact E|]. rewrite F. unfold coupled_advance, advance. cbn [c_thermal c_solid l_fields]. now rewrite Ht, Hs.
Qed.

(** Clocks of the three modules after any history. *)
Definition in_step (s : coupled) : Prop :=
  c_time s = l_time V (c_thermal s) /\ c_time s = l_time V (c_solid s) /\
  c_cycle s = l_cycle V (c_thermal s) /\ c_cycle s = l_cycle V (c_solid s).

Lemma in_step_exec o s s' : in_step s -> cexec o s = Ok s' -> in_step s'.
Proof.
  intros (A & B & C & D) E. destruct o as [dt|n v|c t]; cbn [cexec] in E.
  - injection E as <-. unfold in_step, c_time, c_cycle, coupled_advance, advance in *. cbn. rewrite th_clock, so_clock, <- A, <- B, <- C, <- D. auto.
  - unfold coupled_set_state in E. destruct (_ || _); [|destruct (String.eqb _ _); [|discriminate]];
    injection E as <-; unfold in_step, c_time, c_cycle, with_field in *; cbn; auto.
  - injection E as <-. unfold in_step, coupled_reset, reset; cbn. auto.
Qed.

Lemma in_step_run l : forall s s', in_step s -> crun l s = Ok s' -> in_step s'.
Proof.
  induction l as [|o r IH]; intros s s' H E; cbn [crun] in E.
  - injection E as <-; exact H.
  - destruct (cexec o s) as [s1| |] eqn:E1; cbn [bindO] in E; try discriminate.
    eapply IH; [|exact E]. eapply in_step_exec; eauto.
Qed.

Lemma in_step_construct : in_step (construct 0 0).
Proof. unfold in_step; cbn; auto. Qed.

(** Restart: the constructor leaves the module's own clock at 0. *)
Definition offset (c : Z) (t : R) (s : coupled) : Prop :=
  l_time V (c_thermal s) = c_time s + t /\ l_time V (c_solid s) = c_time s + t /\
  l_cycle V (c_thermal s) = (c_cycle s + c)%Z /\ l_cycle V (c_solid s) = (c_cycle s + c)%Z.

Lemma restart_clock c t : forall dts s s', offset c t s -> crun (advances dts) s = Ok s' ->
  offset c t s' /\ c_time s' = c_time s + Rsum dts /\ c_cycle s' = (c_cycle s + Z.of_nat (length dts))%Z.
Proof.
  induction dts as [|dt r IH]; intros s s' H E; cbn [advances map crun cexec bindO] in E.
  - injection E as <-. split; [exact H|]. unfold Rsum; cbn. split; [lra|lia].
  - destruct (IH (coupled_advance dt s) s') as (A & B & C); [|exact E|].
    + destruct H as (A & B & C & D). unfold offset, c_time, c_cycle, coupled_advance, advance in *; cbn. rewrite th_clock, so_clock, A, B, C, D. repeat split; try lra; lia.
    + split; [exact A|]. rewrite B, C. unfold Rsum, c_time, c_cycle; cbn [coupled_advance c_own l_time l_cycle fold_right length]. split; [lra|lia].
Qed.

Lemma restarted c t dts : exists s, crun (advances dts) (construct c t) = Ok s /\
  c_time s = Rsum dts /\ c_cycle s = Z.of_nat (length dts) /\
  l_time V (c_thermal s) = t + Rsum dts /\ l_cycle V (c_thermal s) = (c + Z.of_nat (length dts))%Z.
Proof.
  assert (X : exists s, crun (advances dts) (construct c t) = Ok s).
  { generalize (construct c t). induction dts as [|dt r IH]; intros s; cbn; eauto. }
  destruct X as (s & E). destruct (restart_clock c t dts (construct c t) s) as ((A & B & C & D) & F & G); [|exact E|].
  - unfold offset, construct, reset; cbn. repeat split; try lra; lia.
  - exists s. split; [exact E|]. cbn in F, G. split; [lra|]. split; [lia|]. split; [lra|lia].
Qed.

(** A reset module repeats the run of a new one. *)
Definition same_fields (s s' : coupled) : Prop :=
  c_thermal s = c_thermal s' /\ c_solid s = c_solid s'.

Lemma same_exec o s s' r r' : same_fields s s' -> cexec o s = Ok r -> cexec o s' = Ok r' -> same_fields r r'.
Proof.
  intros [A B] E E'. destruct o as [dt|n v|c t]; cbn [cexec] in E, E'.
  - injection E as <-. injection E' as <-. unfold same_fields, coupled_advance. cbn [c_thermal c_solid]. now rewrite A, B.
  - unfold coupled_set_state in E, E'. destruct (_ || _); [|destruct (String.eqb _ _); [|discriminate]];
    injection E as <-; injection E' as <-; unfold same_fields; cbn [c_thermal c_solid]; now rewrite A, B.
  - injection E as <-. injection E' as <-. split; reflexivity.
Qed.

Lemma same_run l : forall s s', same_fields s s' ->
  match crun l s, crun l s' with
  | Ok r, Ok r' => same_fields r r'
  | Refused, Refused => True
  | _, _ => False
  end.
Proof.
  induction l as [|o l IH]; intros s s' H; [exact H|]. cbn [crun].
  pose proof (same_exec o s s') as X.
  assert (Y : match cexec o s, cexec o s' with Ok _, Ok _ => True | Refused, Refused => True | _, _ => False end).
  { destruct o as [dt|n v|c t]; cbn [cexec]; auto. unfold coupled_set_state.
    destruct (_ || _); [exact Logic.I|]. destruct (String.eqb _ _); exact Logic.I. }
  destruct (cexec o s) as [r| |], (cexec o s') as [r'| |]; try contradiction; cbn [bindO]; [|exact Logic.I].
  apply IH. eapply X; eauto.
Qed.

Lemma reset_repeats l c t before s s1 s2 : crun before (construct c t) = Ok s ->
  crun l (construct c t) = Ok s1 -> crun l (coupled_reset c t s) = Ok s2 -> same_fields s1 s2.
Proof.
  intros _ E1 E2. pose proof (same_run l (construct c t) (coupled_reset c t s)) as X. rewrite E1, E2 in X.
  apply X. split; reflexivity.
Qed.

(** Names. *)
Lemma states_by_name s n : In n ["displacement"; "velocity"; "temperature"]%string <-> exists v, coupled_state s n = Ok v.
Proof.
  unfold coupled_state. split.
  - intros [<-|[<-|[<-|[]]]]; cbn; eauto.
  - intros [v E]. destruct (String.eqb_spec n "displacement"); [subst; cbn; auto|].
    destruct (String.eqb_spec n "velocity"); [subst; cbn; auto|].
    destruct (String.eqb_spec n "temperature"); [subst; cbn; auto|]. discriminate.
Qed.

Lemma set_then_get s n v s' : coupled_set_state n v s = Ok s' ->
  coupled_state s' n = Ok v /\ forall m, m <> n -> coupled_state s' m = coupled_state s m.
Proof.
  unfold coupled_set_state. intros E.
  destruct (String.eqb_spec n "displacement") as [->|N1]; cbn [orb] in E.
  - injection E as <-. split; [reflexivity|]. intros m Hm. unfold coupled_state, with_field, set_field; cbn [c_solid c_thermal l_fields].
    destruct (String.eqb_spec m "displacement"); [contradiction|]. reflexivity.
  - destruct (String.eqb_spec n "velocity") as [->|N2].
    + injection E as <-. split; [reflexivity|]. intros m Hm. unfold coupled_state, with_field, set_field; cbn [c_solid c_thermal l_fields].
      destruct (String.eqb_spec m "displacement"); [reflexivity|]. destruct (String.eqb_spec m "velocity"); [contradiction|]. reflexivity.
    + destruct (String.eqb_spec n "temperature") as [->|N3]; [|discriminate].
      injection E as <-. split; [reflexivity|]. intros m Hm. unfold coupled_state, with_field, set_field; cbn [c_solid c_thermal l_fields].
      destruct (String.eqb_spec m "displacement"); [reflexivity|]. destruct (String.eqb_spec m "velocity"); [reflexivity|].
      destruct (String.eqb_spec m "temperature"); [contradiction|]. reflexivity.
Qed.

(** The module's own checkpoints and time steps stay empty. *)
Definition unrecorded (s : coupled) : Prop := l_ckpt V (c_own s) = (fun _ => None) /\ l_steps V (c_own s) = [].

Lemma unrecorded_run l : forall s s', unrecorded s -> crun l s = Ok s' -> unrecorded s'.
Proof.
  induction l as [|o r IH]; intros s s' H E; cbn [crun] in E; [injection E as <-; exact H|].
  destruct (cexec o s) as [s1| |] eqn:E1; cbn [bindO] in E; try discriminate.
  apply (IH s1); [|exact E]. destruct H as [A B]. destruct o as [dt|n v|c t]; cbn [cexec] in E1.
  - injection E1 as <-. split; assumption.
  - unfold coupled_set_state in E1. destruct (_ || _); [|destruct (String.eqb _ _); [|discriminate]];
    injection E1 as <-; split; assumption.
  - injection E1 as <-. split; [exact A|reflexivity].
Qed.

Lemma no_checkpoints l c t s : crun l (construct c t) = Ok s ->
  (forall n k, load_state V (c_own s) n k = Refused) /\ (forall k, (1 <= k)%Z -> get_timestep V (c_own s) k = Refused).
Proof.
  intros E. destruct (unrecorded_run l (construct c t) s) as [A B]; [split; reflexivity|exact E|]. split.
  - intros n k. unfold load_state. now rewrite A.
  - intros k Hk. unfold get_timestep. rewrite B. cbn [length Z.of_nat].
    destruct (Z.ltb_spec k 0); [lia|]. destruct (Z.ltb_spec 0 k); [reflexivity|lia].
Qed.

(** Which fields each solver saw: thermal the displacement before the step, solid the temperature after it. *)
Lemma exchanged dt s : let s' := coupled_advance dt s in
  p_disp s' = l_fields V (c_solid s) "displacement"%string /\ p_temp s' = l_fields V (c_thermal s') "temperature"%string.
Proof. split; reflexivity. Qed.

End Coupled.

(** ** The material adaptors (thermomechanics.hpp:273-348), for the Green-Saint Venant material.
    The thermal adaptor makes a fresh State{} (strain trace 0), keeps capacity and flux and drops the source. *)
Definition thermal_adaptor (m : gsv) (H : mat) (theta : R) (grad_theta : vec) : option (R * vec) :=
  option_map (fun o => (o_capacity o, o_flux o)) (gsv_response m 0 H theta grad_theta).

(** The solid adaptor: stress, and the state left behind. *)
Definition solid_adaptor (m : gsv) (trace : R) (H : mat) (theta : R) (grad_theta : vec) : option (mat * R) :=
  option_map (fun o => (o_stress o, o_trace o)) (gsv_response m trace H theta grad_theta).

Lemma solid_adaptor_stress m trace H theta g o : gsv_response m trace H theta g = Some o ->
  solid_adaptor m trace H theta g = Some (o_stress o, o_trace o).
Proof. unfold solid_adaptor. now intros ->. Qed.

(** The thermal residual never sees the heat produced by straining. *)
Lemma thermal_adaptor_no_source m trace H theta g o : gsv_response m trace H theta g = Some o ->
  thermal_adaptor m H theta g = Some (o_capacity o, o_flux o).
Proof.
  unfold thermal_adaptor, gsv_response. destruct (finite_moduli_dec (g_nu m)); [|discriminate]. destruct (push 3 H (gsv_S m H theta)); [|discriminate].
  intros E. injection E as <-. reflexivity.
Qed.

(** ** Input files (thermomechanics.hpp:106-134): only solver options reach the submodules *)
Record sub_input (M : Type) := { si_solver : M; si_materials : list M; si_initial : list M; si_bcs : list M }.
Record module_setup (M : Type) := { ms_solver : M; ms_materials : list M; ms_initial : list M; ms_bcs : list M }.

(** HeatTransfer(input_options,...) / SolidMechanics(input_options,...): everything is applied. *)
Definition sub_from_input {M} (i : sub_input M) : module_setup M :=
  {| ms_solver := si_solver M i; ms_materials := si_materials M i; ms_initial := si_initial M i; ms_bcs := si_bcs M i |}.
(** Thermomechanics(options,...): delegates to the constructor taking solver options only; the thermal expansion
    coefficient is built and destroyed (lines 127-133). *)
Definition thermomech_from_input {M} (thermal solid : sub_input M) (expansion : option (M * M)) : module_setup M * module_setup M :=
  ({| ms_solver := si_solver M thermal; ms_materials := []; ms_initial := []; ms_bcs := [] |},
   {| ms_solver := si_solver M solid; ms_materials := []; ms_initial := []; ms_bcs := [] |}).

(** ** A concrete coupled problem: fields are numbers, temperature rises with displacement and displacement follows temperature *)
Definition ex_cfg : config := {| names := ["temperature"; "displacement"]%string; settable := []; lookahead := false; stage_time := Rplus |}.
Definition ex_thermal (u : R) (f : string -> R) (t dt : R) : string -> R := fun n => f n + dt * (1 + u).
Definition ex_solid (T : R) (f : string -> R) (t dt : R) : string -> R := fun n => 2 * T.
Lemma ex_two_steps : exists s, crun R 0 ex_cfg ex_cfg ex_thermal ex_solid (advances R [1; 1]) (construct R 0 ex_cfg ex_cfg 0 0) = Ok s /\
  coupled_state R s "temperature" = Ok 4 /\ coupled_state R s "displacement" = Ok 8.
Proof.
  eexists. split; [reflexivity|]. unfold coupled_state. cbn. unfold ex_thermal, ex_solid, ex_cfg. cbn. split; f_equal; ring.
Qed.

Definition ex_gsv : gsv := {| g_E := 1; g_nu := 0; g_Cv := 1; g_alpha := 1; g_theta_ref := 1; g_k := 1 |}.
Definition stretch : mat := fun i j => if Nat.eqb i j then 1 else 0.
Lemma ex_heat_of_straining : exists o, gsv_response ex_gsv 0 stretch 1 (fun _ => 0) = Some o /\ o_source o <> 0.
Proof.
  unfold gsv_response, push. destruct (finite_moduli_dec (g_nu ex_gsv)) as [_|X]; [|elim X; unfold finite_moduli; cbn [g_nu ex_gsv]; split; lra]. destruct (Req_EM_T (detn 3 (defgrad stretch)) 0) as [e|n].
  - exfalso. revert e. unfold detn, det3, defgrad, madd, stretch, ident. cbn. lra.
  - eexists. split; [reflexivity|]. cbn [o_source]. unfold bulk, ex_gsv, tr, green_strain, madd, mscal, mmul, transpose, stretch. cbn. lra.
Qed.

Lemma input_ignored {M} (thermal solid thermal' solid' : sub_input M) e e' :
  si_solver M thermal = si_solver M thermal' -> si_solver M solid = si_solver M solid' ->
  thermomech_from_input thermal solid e = thermomech_from_input thermal' solid' e'.
Proof. unfold thermomech_from_input. now intros -> ->. Qed.
