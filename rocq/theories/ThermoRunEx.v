(** * A bar in which heat is released by displacement and strain by heat (C81) *)
From Coq Require Import NArith ZArith Reals List Lia Lra Bool Permutation.
From Verif Require Import Prelude DofCodec Sums Restriction Csr Kernels FunctionalModel FunctionalGrad Assembly FunctionalEx Tensor BoundaryElim Newton Adjoint Ode
  QuasiStatic QuasiNewton QuasiBalance QuasiAdjoint QuasiEx QuasiAdjointEx Transient TransientFacts TransientEx ThermoRun.
Import ListNotations.
Local Open Scope R_scope.

(** [heat]: flux = temperature gradient, source = displacement; otherwise stress = strain - temperature *)
Definition pair_kernel (heat : bool) : gkernel R :=
  {| gk_elems := [0%nat; 1%nat]; gk_dim1 := 2; gk_nq := 1; gk_w := fun _ => 1; gk_test := seg_space; gk_trial := fun _ => seg_space;
     gk_qf := fun e q t v st => (fun i b => match b with
       | O => if heat then v 1%nat 0%nat 0%nat else 0 | S O => v O O 1%nat - (if heat then 0 else v 1%nat 0%nat 0%nat) | _ => 0 end, st);
     gk_ad := fun s e q t v st => fun i b j a => match s, b, a with O, S O, S O => 1 | S O, O, O => if heat then 1 else 0 | S O, S O, O => if heat then 0 else -1 | _, _, _ => 0 end |}.
Definition pair_bar (heat : bool) : functional R :=
  {| f_test := fun dt => match dt with Elements => [seg1] | BoundaryElements => [] end;
     f_trial := fun _ dt => match dt with Elements => [seg1] | BoundaryElements => [] end;
     f_integrals := [{| i_type := Elements; i_active := [0%nat; 2%nat]; i_geoms := [pair_kernel heat] |}] |}.

Lemma pair_assembly h w : wf_assembly (pair_bar h) w 3 3.
Proof.
  split; [|split; [|split; [|split]]].
  - intros [|] r H; cbn in H; [|contradiction]. destruct H as [<-|[]]. split; [apply seg1_plain|apply seg1_ids].
  - intros [|] r H; cbn in H; [|contradiction]. destruct H as [<-|[]]. split; [apply seg1_plain|apply seg1_ids].
  - intros [|]; reflexivity.
  - intros Ig [<-|[]]. reflexivity.
  - intros Ig s g G rt rr [<-|[]] Hs HG Ht Hr. destruct g as [|g]; [|destruct g; discriminate].
    inversion HG; inversion Ht; inversion Hr; subst. repeat split. intros el [<-|[<-|[]]]; cbn; lia.
Qed.
Lemma pair_same h w : same_elements (pair_bar h) w.
Proof. intros [|] rt rr [|g] H1 H2; cbn in H1, H2; try discriminate; try (destruct g; discriminate). inversion H1; inversion H2; subst. reflexivity. Qed.
Lemma pair_ready : exists c, forall h, ready (pair_bar h) 3 c bar_sizes /\ ready_for (pair_bar h) 3 bar_sizes 0 3 c.
Proof.
  destruct (table_for_mesh 3 (blocks_of (pair_bar true) 0 Elements) (map fst (lut_keys (emitted_all (blocks_of (pair_bar true) 0 Elements))))) as (c & _ & B).
  - intros te tr [E|[]]. inversion E; subst. split; [apply seg1_plain|]. split; [apply seg1_plain|]. split; reflexivity.
  - apply seg_coupled.
  - lia.
  - apply Permutation_refl.
  - exists c. intros h. split.
    + split; [|split; [reflexivity|split; [apply pair_assembly|split; [apply pair_same|split; [exact B|split; [lia|]]]]]].
      * intros Ig [<-|[]]. split; [|split; [|split]].
        -- intros r [<-|[]]. apply seg1_ids.
        -- intros w r [<-|[]]. apply seg1_ids.
        -- reflexivity.
        -- constructor; [intros [H|[]]; discriminate|]. constructor; [intros []|constructor].
      * intros x (te & tr & e & i & j & k & l & [] & _).
    + split; [reflexivity|]. split; [apply pair_assembly|]. split; [apply pair_same|]. split; [exact B|].
      intros x (te & tr & e & i & j & k & l & [] & _).
Qed.

(** one exact step for the middle node of a bar with stiffness 2, and the claim that its residual vanishes *)
Definition moved_middle (x r : vec) : vec := fun i => if Nat.eqb i 1 then x 1%nat - r 1%nat / 2 else x i.
Definition probe (x : vec) : solver :=
  AskResidual x (fun r => AskResidual (moved_middle x r) (fun r' => Give (moved_middle x r) (if Req_EM_T (r' 1%nat) 0 then true else false))).
Definition middle_free (r0 r : vec) : Prop := r 1%nat = 0.
Lemma probe_trustworthy : trustworthy 3 ends middle_free probe.
Proof.
  intros F J x0 x _ _ H. cbn [pure probe] in H. destruct (Req_EM_T _ 0) as [E|]; inversion H; subst x. split; [exact E|].
  intros i _ Eb. unfold moved_middle. unfold ends in Eb. destruct (Nat.eqb i 1); [discriminate|reflexivity].
Qed.
(** the temperature at one end is 4, the displacements of the ends are 0 *)
Definition hot_end (t : R) : vec := fun i => if Nat.eqb i 2 then 4 else 0.
Definition fixed_ends (t : R) : vec := fun _ => 0.
Definition heat_push : push := {| k_dt := 1; k_params := no_params; k_solver := probe |}.
Definition bar_load : load := {| l_dt := 1; l_others := no_params; l_solver := probe; l_lin := middle_inverse; l_warm := false |}.
Definition at_rest : state (St := R) :=
  {| s_u := [0; 0; 0]; s_t := 0; s_cycle := 0; s_mem := fresh 0; s_prev := fun _ => [0; 0; 0]; s_react := [0; 0; 0]; s_saved := [[0; 0; 0]]; s_files := [] |}.
Definition couple_start : couple R (state (St := R)) := {| c_heat := cold; c_solid := at_rest; c_time := 0; c_cycle := 0 |}.
Lemma at_rest_sound : QuasiStatic.sound 3 bar_sizes at_rest.
Proof. split; [reflexivity|]. intros _ w. reflexivity. Qed.
Lemma couple_start_sound : static_sound 3 3 bar_sizes couple_start.
Proof. split; [split; reflexivity|]. split; [exact at_rest_sound|]. repeat split. Qed.
Lemma couple_fits : static_fits bar_sizes bar_sizes (heat_push, bar_load).
Proof. split; [intros w; reflexivity|]. split; [split; [reflexivity|intros w; reflexivity]|reflexivity]. Qed.

Section Pair.
Variable c : csr.
Hypothesis Rc : forall h, ready (pair_bar h) 3 c bar_sizes /\ ready_for (pair_bar h) 3 bar_sizes 0 3 c.
Lemma pair_force (h : bool) t m others p0 p1 p2 u0 u1 u2 L : others 1%nat = [p0; p1; p2] -> fitting bar_sizes others ->
  force (pair_bar h) 3 t others m [u0; u1; u2] L ->
  nth 1 L 0 = 2 * u1 - u0 - u2 + (if h then (p0 + 2 * p1 + p2) / 4 else (p2 - p0) / 2).
Proof.
  intros Ho Fo (m' & E).
  destruct (evaluate_quiet (pair_bar h) 3 c bar_sizes (proj1 (Rc h)) t None others [u0; u1; u2] m m Fo eq_refl (same_refl m)) as (L' & m1 & A & _ & B & C & _).
  rewrite A in E. injection E as E _. subst L'. rewrite C by lia. clear A B C.
  destruct h; cbv -[Rplus Rmult Ropp Rminus Rinv Rdiv IZR m_q]; rewrite !Ho; cbv -[Rplus Rmult Ropp Rminus Rinv Rdiv IZR m_q]; field.
Qed.
Lemma probe_finds (h : bool) t m others p F J x0 : others 1%nat = p -> length p = 3%nat -> fitting bar_sizes others ->
  of_material (pair_bar h) 3 c ends m t others F J ->
  pure F J (probe x0) = (fun i => if Nat.eqb i 1 then (x0 0%nat + x0 2%nat - (if h then (nth 0 p 0 + 2 * nth 1 p 0 + nth 2 p 0) / 4 else (nth 2 p 0 - nth 0 p 0) / 2)) / 2 else x0 i, true).
Proof.
  intros Ho Hp Fo [HF _]. destruct p as [|p0 [|p1 [|p2 [|]]]]; try discriminate. cbn [nth].
  assert (V : forall y, F y 1%nat = 2 * y 1%nat - y 0%nat - y 2%nat + (if h then (p0 + 2 * p1 + p2) / 4 else (p2 - p0) / 2)).
  { intros y. destruct (HF y) as (L & H & ->). rewrite tab3 in H. change (zeroed ends (entries L) 1%nat) with (nth 1 L 0). exact (pair_force h t m others p0 p1 p2 _ _ _ L Ho Fo H). }
  cbn [pure probe]. assert (Z : F (moved_middle x0 (F x0)) 1%nat = 0) by (rewrite V; unfold moved_middle; cbn [Nat.eqb]; rewrite V; field).
  destruct (Req_EM_T (F (moved_middle x0 (F x0)) 1%nat) 0) as [_|N]; [|congruence]. f_equal.
  apply FunctionalExtensionality.functional_extensionality. intros i. unfold moved_middle. destruct (Nat.eqb i 1); [|reflexivity]. rewrite V. field.
Qed.

Lemma pair_heat prm w : prm 0%nat = [0; 0; 0] -> params_fit bar_sizes prm -> w_u w = [0; 0; 0] -> w_rate w = [0; 0; 0] ->
  exists w', steady_step (pair_bar true) 3 c ends hot_end {| k_dt := 1; k_params := prm; k_solver := probe |} w = Ok (w', true) /\ w_u w' = [0; 2; 4].
Proof.
  intros H0 P Hu Hr. assert (Hr' : length (w_rate w) = 3%nat) by (rewrite Hr; reflexivity).
  destruct (steady_step_ok (pair_bar true) 3 c c ends hot_end bar_sizes (proj1 (Rc true)) (proj2 (Rc true)) {| k_dt := 1; k_params := prm; k_solver := probe |} w P Hr')
    as (w' & o & E & T & _ & _ & _ & _ & x & H & Hx). cbn [k_params k_solver] in H.
  assert (Fo : fitting bar_sizes (inputs prm (w_rate w))) by (intros [|v]; [exact Hr'|apply P]).
  destruct (material_exists (pair_bar true) 3 c ends bar_sizes (proj1 (Rc true)) (w_t w') (inputs prm (w_rate w)) (w_mem w) Fo) as (F & J & HFJ).
  assert (Q := H F J HFJ).
  rewrite (probe_finds true _ (w_mem w) (inputs prm (w_rate w)) [0; 0; 0] F J _ H0 eq_refl Fo HFJ) in Q. injection Q as X1 X2. subst o x.
  exists w'. split; [exact E|]. rewrite Hx, tab3. cbn. f_equal. f_equal. field.
Qed.
Lemma pair_static : exists s', static_step (pair_bar true) 3 c c ends hot_end Steady (pair_bar false) 3 c ends fixed_ends (heat_push, bar_load) couple_start = Ok (s', (true, true)) /\
  w_u (c_heat s') = [0; 2; 4] /\ s_u (c_solid s') = [0; -1; 0].
Proof.
  destruct (pair_heat (inputs no_params [0; 0; 0]) cold eq_refl ltac:(intros [|w]; reflexivity) eq_refl eq_refl) as (w' & E1 & HT).
  set (ld := {| l_dt := 1; l_others := inputs (inputs (fun w => no_params (S w)) [0; 2; 4]) (no_params 0%nat); l_solver := probe; l_lin := middle_inverse; l_warm := false |}).
  assert (Fo : fitting bar_sizes (l_others ld)) by (intros [|[|w]]; reflexivity).
  destruct (step_ok (pair_bar false) 3 c ends fixed_ends bar_sizes (proj1 (Rc false)) ld at_rest at_rest_sound Fo) as (x' & ok & E2 & A & _).
  destruct (material_exists (pair_bar false) 3 c ends bar_sizes (proj1 (Rc false)) (s_t x') (l_others ld) (s_mem at_rest) Fo) as (F & J & HFJ).
  destruct (adv_solve _ _ _ _ _ _ _ _ _ A F J HFJ) as (x0 & x & B & Pu & Us). cbn [begins ld l_warm] in B. cbn [ld l_solver] in Pu.
  rewrite (probe_finds false _ (s_mem at_rest) (l_others ld) [0; 2; 4] F J x0 eq_refl eq_refl Fo HFJ) in Pu. injection Pu as X1 X2. subst ok x.
  eexists. unfold static_step, coupled_step, heat_advance, with_parameter, with_temperature.
  cbn [fst snd heat_push bar_load k_dt k_params k_solver l_dt l_others l_solver l_lin l_warm couple_start c_solid c_heat].
  change (s_u at_rest) with [0; 0; 0]. rewrite E1. cbn [bindO fst snd]. rewrite HT. fold ld. rewrite E2. cbn [bindO fst snd]. split; [reflexivity|]. cbn [c_heat c_solid]. split; [exact HT|].
  rewrite Us, tab3. cbn [Nat.eqb nth]. rewrite !B. cbn. unfold fixed_ends. f_equal. f_equal. field.
Qed.
End Pair.

(** the heat balance holds with the displacement at the start of the step, and not with the one at its end *)
Theorem end_displacement_unbalanced : exists c s', ready (pair_bar true) 3 c bar_sizes /\ ready_for (pair_bar true) 3 bar_sizes 0 3 c /\ ready (pair_bar false) 3 c bar_sizes /\
  static_fits bar_sizes bar_sizes (heat_push, bar_load) /\ static_sound 3 3 bar_sizes couple_start /\ heat_allowed Steady heat_push /\
  trustworthy 3 ends middle_free probe /\
  static_step (pair_bar true) 3 c c ends hot_end Steady (pair_bar false) 3 c ends fixed_ends (heat_push, bar_load) couple_start = Ok (s', (true, true)) /\
  w_u (c_heat s') = [0; 2; 4] /\ s_u (c_solid s') = [0; -1; 0] /\
  heat_balanced (pair_bar true) 3 ends hot_end Steady middle_free 1 (inputs no_params (s_u (c_solid couple_start))) cold (c_heat s') /\
  ~ heat_balanced (pair_bar true) 3 ends hot_end Steady middle_free 1 (inputs no_params (s_u (c_solid s'))) cold (c_heat s').
Proof.
  destruct pair_ready as (c & Rc). destruct (pair_static c Rc) as (s' & E & HT & HU). exists c, s'.
  split; [apply Rc|]. split; [apply Rc|]. split; [apply Rc|]. split; [exact couple_fits|]. split; [exact couple_start_sound|]. split; [exact Logic.I|].
  split; [exact probe_trustworthy|]. split; [exact E|]. split; [exact HT|]. split; [exact HU|]. split.
  - apply (static_balance (pair_bar true) 3 c c ends hot_end Steady (pair_bar false) 3 c ends fixed_ends bar_sizes bar_sizes (proj1 (Rc true)) (proj2 (Rc true)) (proj1 (Rc false))
      eq_refl eq_refl (heat_push, bar_load) couple_start s' middle_free middle_free couple_fits couple_start_sound Logic.I probe_trustworthy probe_trustworthy);
      [intros X; discriminate X|exact E].
  - rewrite HU. intros (_ & L0 & L & _ & HL & Z). rewrite HT in HL. unfold middle_free in Z. change (zeroed ends (entries L) 1%nat) with (nth 1 L 0) in Z.
    rewrite (pair_force c Rc true _ _ (inputs (inputs no_params [0; -1; 0]) (w_rate cold)) 0 (-1) 0 _ _ _ L eq_refl ltac:(intros [|[|w]]; reflexivity) HL) in Z. lra.
Qed.

(** ** a dynamic solid *)
(** [bar_push]: the load of the dynamic solid *)
Definition bar_push : push := heat_push.
Definition still : motion (St := R) :=
  {| d_u := [0; 0; 0]; d_v := [0; 0; 0]; d_a := [0; 0; 0]; d_old := None; d_told := 0; d_t := 0; d_cycle := 0; d_mem := fresh 0; d_react := [0; 0; 0]; d_saved := [] |}.
Definition moving_start : couple R (motion (St := R)) := {| c_heat := cold; c_solid := still; c_time := 0; c_cycle := 0 |}.
Lemma moving_start_sound : moving_sound 3 3 moving_start.
Proof. split; [split; reflexivity|]. repeat split. Qed.
Lemma moving_couple_fits : moving_fits BackwardEuler DirectControl bar_sizes bar_sizes (heat_push, bar_push).
Proof. split; [intros w; reflexivity|]. split; [intros w; reflexivity|]. split; [reflexivity|]. left. cbn. lra. Qed.

Section Moving.
Variable c : csr.
Hypothesis Rc : forall h, ready (pair_bar h) 3 c bar_sizes /\ ready_for (pair_bar h) 3 bar_sizes 0 3 c.
Lemma pair_moves : exists s', moving_step (pair_bar true) 3 c c ends hot_end Steady (pair_bar false) 3 c c ends fixed_ends BackwardEuler DirectControl (heat_push, bar_push) moving_start
    = Ok (s', (true, true)) /\ w_u (c_heat s') = [0; 2; 4] /\ d_u (c_solid s') = [0; -1; 0].
Proof.
  destruct (pair_heat c Rc (inputs no_params [0; 0; 0]) cold eq_refl ltac:(intros [|w]; reflexivity) eq_refl eq_refl) as (w' & E1 & HT).
  assert (P : params_fit bar_sizes (inputs no_params [0; 2; 4])) by (intros [|w]; reflexivity).
  destruct (dynamic_step_ok (pair_bar false) 3 c c ends fixed_ends bar_sizes (proj1 (Rc false)) (proj2 (Rc false)) BackwardEuler DirectControl
    {| k_dt := 1; k_params := inputs no_params [0; 2; 4]; k_solver := probe |} still P) as (x' & ok & E2 & M); [left; cbn; lra|].
  destruct (mv_goes _ _ _ _ _ _ _ _ _ _ _ _ M) as (x & v & a & G & Hx & _). cbn [goes k_dt k_params k_solver] in G. destruct G as ((st & Es & H) & Xe & _).
  destruct (setup_direct 3 ends fixed_ends (d_t still + 1) (1 * 1) 1 (vadd 1 (entries (d_u still)) (entries (d_v still))) (entries (d_v still)) ltac:(lra)) as (st' & Es' & U1 & U2).
  rewrite Es in Es'. injection Es' as <-.
  destruct (motion_exists (pair_bar false) 3 c c ends bar_sizes (proj1 (Rc false)) (proj2 (Rc false)) (d_t still + 1) (inputs no_params [0; 2; 4]) (1 * 1) (su st) (d_mem still) P) as (F & J & HFJ).
  assert (Q := H F J HFJ).
  assert (V : forall y, F y 1%nat = 2 * (su st 1%nat + 1 * 1 * y 1%nat) - (su st 0%nat + 1 * 1 * y 0%nat) - (su st 2%nat + 1 * 1 * y 2%nat) + (4 - 0) / 2).
  { intros y. destruct HFJ as [HF _]. destruct (HF y) as (L & HL & ->). rewrite !tab3 in HL. change (zeroed ends (entries L) 1%nat) with (nth 1 L 0).
    exact (pair_force c Rc false _ _ (inputs (inputs no_params [0; 2; 4]) (tab 3 y)) 0 2 4 _ _ _ L eq_refl ltac:(intros [|[|w]]; reflexivity) HL). }
  cbn [pure probe] in Q. set (x1 := moved_middle (sguess st) (F (sguess st))) in *.
  assert (G0 : sguess st 0%nat = 0 /\ sguess st 2%nat = 0).
  { rewrite !U2. cbn. unfold fixed_ends, vadd. cbn. split; field. }
  destruct G0 as [G0 G2].
  assert (S0 : su st 0%nat = 0 /\ su st 1%nat = 0 /\ su st 2%nat = 0) by (rewrite !U1; unfold vadd; cbn; repeat split; ring). destruct S0 as (S0 & S1 & S2).
  assert (G1 : sguess st 1%nat = 0) by (rewrite U2; reflexivity).
  assert (X0 : x1 0%nat = 0 /\ x1 1%nat = -1 /\ x1 2%nat = 0).
  { unfold x1, moved_middle. cbn [Nat.eqb]. rewrite V, S0, S1, S2, G0, G1, G2. repeat split. field. }
  destruct X0 as (X0 & X1 & X2).
  assert (Z : F x1 1%nat = 0) by (rewrite V, S0, S1, S2, X0, X1, X2; field).
  destruct (Req_EM_T (F x1 1%nat) 0) as [_|N]; [|congruence]. injection Q as Qa Qo. subst a ok.
  eexists. unfold moving_step, coupled_step, heat_advance, with_parameter. cbn [fst snd heat_push bar_push k_dt k_params k_solver moving_start c_solid c_heat].
  change (d_u still) with [0; 0; 0]. rewrite E1. cbn [bindO fst snd]. rewrite HT, E2. cbn [bindO fst snd]. split; [reflexivity|]. cbn [c_heat c_solid]. split; [exact HT|].
  rewrite Hx, Xe, tab3. unfold vadd. rewrite X0, X1, X2. cbn. f_equal; [ring|]. f_equal; [ring|]. f_equal. ring.
Qed.
End Moving.
(** with a dynamic solid *)
Theorem moving_pair : exists c s', ready (pair_bar true) 3 c bar_sizes /\ ready_for (pair_bar true) 3 bar_sizes 0 3 c /\
  ready (pair_bar false) 3 c bar_sizes /\ ready_for (pair_bar false) 3 bar_sizes 0 3 c /\
  moving_fits BackwardEuler DirectControl bar_sizes bar_sizes (heat_push, bar_push) /\ moving_sound 3 3 moving_start /\ heat_allowed Steady heat_push /\
  step_allowed BackwardEuler DirectControl (k_dt bar_push) /\ trustworthy 3 ends middle_free probe /\
  moving_step (pair_bar true) 3 c c ends hot_end Steady (pair_bar false) 3 c c ends fixed_ends BackwardEuler DirectControl (heat_push, bar_push) moving_start = Ok (s', (true, true)) /\
  w_u (c_heat s') = [0; 2; 4] /\ d_u (c_solid s') = [0; -1; 0].
Proof.
  destruct pair_ready as (c & Rc). destruct (pair_moves c Rc) as (s' & E & HT & HU). exists c, s'.
  split; [apply Rc|]. split; [apply Rc|]. split; [apply Rc|]. split; [apply Rc|]. split; [exact moving_couple_fits|]. split; [exact moving_start_sound|]. split; [exact Logic.I|].
  split; [cbn; lra|]. split; [exact probe_trustworthy|]. split; [exact E|]. auto.
Qed.

(** conduction which does not look at the displacement *)
Lemma beam_ignores : ignores_displacement beam 3.
Proof. intros t others rate u u' m T L H. exact H. Qed.
