(** * A stretched triangle carried along by a rotation: non-vacuity witnesses for C69 *)
From Coq Require Import NArith ZArith Reals List Lia Lra Bool.
From Verif Require Import Prelude DofCodec Sums Restriction Kernels FunctionalModel Assembly Tensor MatAlg Materials MaterialFacts ShapeAware WeakForm WeakFormFacts WeakFormPhysics WeakFormWork WeakFormEx Ode Energy EnergySolid EnergyRun EnergyEx FrameResidual.
Import ListNotations.
Local Open Scope R_scope.

(** ** triangles built from terms *)
Definition ex_terms (terms : list (solid_term unit)) : functional unit :=
  ex_functional 2 (map (fun T => (is_volume T, fun t u a => out_of (solid_point 2 T t (tri_pos (is_volume T)) (tri_jac (is_volume T)) u a tt))) terms).
Definition ordered (terms : list (solid_term unit)) : Prop := forall k T, nth_error terms k = Some T -> vol_of k = is_volume T.
Lemma ex_terms_at terms k Ig g G le q : nth_error (f_integrals (ex_terms terms)) k = Some Ig -> nth_error (i_geoms Ig) g = Some G -> (le < length (gk_elems G))%nat -> (q < gk_nq G)%nat ->
  exists T, nth_error terms k = Some T /\ g = 0%nat /\ le = 0%nat /\ q = 0%nat /\
    Ig = ex_integral 2 (is_volume T) (fun t u a => out_of (solid_point 2 T t (tri_pos (is_volume T)) (tri_jac (is_volume T)) u a tt)) /\
    G = ex_kernel 2 (is_volume T) (fun t u a => out_of (solid_point 2 T t (tri_pos (is_volume T)) (tri_jac (is_volume T)) u a tt)).
Proof.
  intros E1 E2 Hle Hq. unfold ex_terms, ex_functional in E1. cbn [f_integrals] in E1. rewrite map_map in E1. cbn [fst snd] in E1.
  destruct (nth_error terms k) as [T|] eqn:ET.
  2:{ apply nth_error_None in ET. rewrite (proj2 (nth_error_None _ _)) in E1; [discriminate|]. rewrite map_length. exact ET. }
  rewrite (map_nth_error _ _ _ ET) in E1. injection E1 as <-. destruct g as [|g]; [|destruct g; discriminate]. injection E2 as <-.
  cbn [ex_kernel gk_elems length gk_nq] in Hle, Hq. exists T. repeat split; lia.
Qed.
Lemma ex_implements terms : ordered terms -> implements 2 (ex_terms terms) terms ex_pos ex_jac.
Proof.
  intros O k Ig g G le q E1 E2 Hle Hq. destruct (ex_terms_at terms k Ig g G le q E1 E2 Hle Hq) as (T & ET & -> & -> & -> & -> & ->). exists T. split; [exact ET|]. split.
  - cbn [ex_kernel gk_dim1]. destruct (is_volume T); reflexivity.
  - intros t v st p out Ep Eo i b _ _. unfold ex_pos, ex_jac in Ep. rewrite (O k T ET) in Ep. cbn [ex_kernel gk_qf fst]. destruct st. unfold out_of. now rewrite Ep, Eo.
Qed.
Lemma ex_iso terms : ordered terms -> isoparametric 2 (ex_terms terms) ex_pos ex_jac xref.
Proof.
  intros O k Ig g G r le q E1 E2 E3 Hle Hq. destruct (ex_terms_at terms k Ig g G le q E1 E2 Hle Hq) as (T & ET & -> & -> & -> & -> & ->).
  unfold ex_pos, ex_jac. rewrite (O k T ET). clear E1 E2 ET Hle Hq k. unfold field_at, interpolate.
  assert (N3 : forall j, (j < 3)%nat -> node_of (tri_r 2) 0 j = j) by (intros [|[|[|j]]] Hj; try lia; reflexivity).
  assert (N2 : forall j, (j < 2)%nat -> node_of (edge_r 2) 0 j = j) by (intros [|[|j]] Hj; try lia; reflexivity).
  destruct (is_volume T); injection E3 as <-; cbn [ex_kernel gk_test gk_elems gk_dim1 nth es_n es_B tri_space edge_space sumn tri_pos tri_jac]; rewrite ?N3, ?N2 by lia.
  - split.
    + intros i Hi. destruct i as [|[|i]]; [| |lia]; cbn [xref tri_B]; lra.
    + intros i j Hi Hj. destruct i as [|[|i]]; [| |lia]; destruct j as [|[|j]]; try lia; cbn [xref tri_B ident Nat.eqb]; unfold ident; cbn [Nat.eqb]; lra.
  - split.
    + intros i Hi. destruct i as [|[|i]]; [| |lia]; cbn [xref edge_B]; lra.
    + intros i j Hi Hj. destruct i as [|[|i]]; [| |lia]; destruct j as [|j]; try lia; cbn [xref edge_B]; lra.
Qed.
Lemma ex_two terms : two_spaces 2 (ex_terms terms).
Proof.
  split; [intros dt; split; reflexivity|]. intros Ig HI. apply ex_in in HI as (vol & qf & ->). split; [now exists []|]. intros G [<-|[]]. destruct vol; repeat split.
Qed.

(** ** the stretched triangle *)
Definition spin (s : R) : mat := fun i j => match i, j with O, O => cos s | O, S O => - sin s | S O, O => sin s | S O, S O => cos s | _, _ => 0 end.
Lemma spin_rotation s : rotation 2 (spin s).
Proof.
  assert (C := sin2_cos2 s). unfold Rsqr in C.
  split; [|split].
  - intros i j Hi Hj. destruct i as [|[|i]]; [| |lia]; destruct j as [|[|j]]; try lia; unfold mmul, transpose, spin, ident; cbn [sumn Nat.eqb]; lra.
  - intros i j Hi Hj. destruct i as [|[|i]]; [| |lia]; destruct j as [|[|j]]; try lia; unfold mmul, transpose, spin, ident; cbn [sumn Nat.eqb]; lra.
  - unfold detn, det2, spin. cbn [Nat.eqb]. lra.
Qed.
Lemma spin_zero v i : (i < 2)%nat -> turn 2 (spin 0) v i = v i.
Proof. intros Hi. unfold turn, spin. rewrite sin_0, cos_0. destruct i as [|[|i]]; [| |lia]; cbn [sumn]; ring. Qed.
(** a heavy block of rubber, pulled by a body force and a traction that turn with it, under a pressure *)
Definition fr_terms : list (solid_term unit) :=
  [SMaterial true 3 (fun _ => neo_hookean 2 2 1); SBody (fun X t => turn 2 (spin t) (fun d => X d + 1)); STraction (fun X nu t => turn 2 (spin t) (fun d => 2 * nu d)); SPressure true (fun X t => 5)].
Definition fr_Ls (w : nat) : list R := match w with O => [0; 0; 1; 0; 0; 0] | _ => [1; 1; 1; 2; 1; 1] end.
Definition fr_moved (s : R) (c : vec) (w : nat) : list R := match w with
  | O => nodal byVDIM 3 2 (fun a i => turn 2 (spin s) (fun d => xref a d + nodal_values byVDIM 3 2 (fr_Ls 0) a d) i + c i - xref a i)
  | _ => nodal byVDIM 3 2 (fun a i => turn 2 (spin s) (nodal_values byVDIM 3 2 (fr_Ls 1) a) i) end.
Lemma fr_ordered : ordered fr_terms.
Proof. intros k T E. destruct k as [|[|[|[|k]]]]; injection E as <- || destruct k; try reflexivity; discriminate. Qed.
Lemma fr_turned s : List.Forall (turned 2 (spin s) 0 s) fr_terms.
Proof.
  constructor; [|constructor; [|constructor; [|constructor; [|constructor]]]].
  - exact (proj2 (materials_turn 2 2 1 (spin s) 0 s 3 unit (or_introl eq_refl) (spin_rotation s))).
  - intros X i Hi. apply turn_ext. intros d Hd. now rewrite spin_zero.
  - intros X nu i Hi. apply turn_ext. intros d Hd. now rewrite spin_zero.
  - split; reflexivity.
Qed.
Lemma fr_residual : solid_residual 2 (ex_terms fr_terms) 0 fr_Ls ex_mem fr_terms ex_pos ex_jac.
Proof.
  intros k Ig g G le q E1 E2 Hle Hq. destruct (ex_terms_at fr_terms k Ig g G le q E1 E2 Hle Hq) as (T & ET & -> & -> & -> & -> & ->). clear E1 E2 Hle Hq.
  assert (Hvol := fr_ordered k T ET). set (u := qf_inputs _ 0 _ 0 0 0%nat). set (a := qf_inputs _ 0 _ 0 0 1%nat). unfold ex_pos, ex_jac. rewrite Hvol.
  assert (Hex : exists p out, solid_point 2 T 0 (tri_pos (is_volume T)) (tri_jac (is_volume T)) u a tt = Some p /\ point_out 2 p = Some out).
  { destruct k as [|[|[|[|k]]]]; [injection ET as <-|injection ET as <-|injection ET as <-|injection ET as <-|destruct k; discriminate]; cbn [is_volume solid_point]; change (tri_jac true) with ident; cbv zeta.
    - destruct (solid_grad u) as (H & s & P & G1 & G2 & G3).
      { intros i j Hi Hj. unfold u, qf_inputs, interpolate, elem_dofs. cbn [ex_kernel gk_trial gk_elems nth is_volume es_n es_c es_B tri_space Es_of ex_integral i_active i_type map f_trial ex_terms ex_functional ex_restr].
        destruct i as [|[|i]]; [| |lia]; destruct j as [|[|j]]; try lia; cbn [sumn tri_B fr_Ls]; vm_compute nth; lra. }
      rewrite G1. cbv beta iota.
      assert (PD : 0 < detn 2 (defgrad H)).
      { destruct ident_inv as (K & EK). unfold grad_phys, parent_to_physical in G1. rewrite EK in G1. cbn [snd] in G1. injection G1 as <-.
        destruct (invn_some 2 ident K (or_introl eq_refl) EK) as (IK & _ & _).
        assert (HK : meq 2 K ident). { intros i j Hi Hj. rewrite <- (IK i j Hi Hj). symmetry. now apply mmul_ident_l. }
        unfold detn, det2, defgrad, madd, mmul. cbn [Nat.eqb sumn]. rewrite !HK by lia. unfold ident. cbn [Nat.eqb].
        unfold u, qf_inputs, interpolate, elem_dofs. cbn [ex_kernel gk_trial gk_elems nth is_volume es_n es_c es_B tri_space Es_of ex_integral i_active i_type map f_trial ex_terms ex_functional ex_restr].
        cbn [sumn tri_B fr_Ls]; vm_compute nth; lra. }
      destruct (neo_defined 2 (lame 2 1) 1 H (or_introl eq_refl) PD) as (s' & Es'). unfold neo_hookean. rewrite Es'.
      unfold flux in *. destruct (invn 2 (madd (madd (mscal 0 H) ident) H)) as [B|]; [|discriminate].
      match goal with |- exists p out, Some (Volume _ ?s0 ?P0) = _ /\ _ => destruct (volume_out s0 P0) as (out & Eo); exists (Volume ident s0 P0), out end. now split.
    - match goal with |- exists p out, Some (Volume _ ?s0 ?P0) = _ /\ _ => destruct (volume_out s0 P0) as (out & Eo); exists (Volume ident s0 P0), out end. now split.
    - rewrite edge_norm. destruct (Req_EM_T 1 0) as [E|_]; [lra|]. eexists _, _. split; reflexivity.
    - rewrite edge_norm. destruct (Req_EM_T 1 0) as [E|_]; [lra|]. eexists _, _. split; reflexivity. }
  destruct Hex as (p & out & Ep & Eo). exists T, p, out. split; [exact ET|]. split; [exact Ep|]. split; [exact Eo|]. split.
  - cbn [ex_kernel gk_dim1]. destruct (is_volume T); reflexivity.
  - intros i b _ _. unfold qf_out. cbn [ex_kernel gk_qf fst]. fold u a. unfold out_of. now rewrite Ep, Eo.
Qed.
Lemma values_nodal o nn n h a i : (a < nn)%nat -> (i < n)%nat -> nodal_values o nn n (nodal o nn n h) a i = h a i.
Proof. intros Ha Hi. unfold nodal_values. now apply nodal_nth. Qed.
Lemma fr_carried s c : carried 2 3 (spin s) c xref (nodal_values byVDIM 3 2 (fr_Ls 0)) (nodal_values byVDIM 3 2 (fr_moved s c 0)).
Proof. intros a i Ha Hi. cbn [fr_moved]. rewrite values_nodal by auto. ring. Qed.
Theorem fr_all s c : dim23 2 /\ wf (ex_terms fr_terms) (3 * 2) (fun w => length (fr_Ls w)) /\ all_fit (ex_terms fr_terms) /\ layout (ex_terms fr_terms) byVDIM 3 2 /\ two_spaces 2 (ex_terms fr_terms) /\
  isoparametric 2 (ex_terms fr_terms) ex_pos ex_jac xref /\ unity (ex_terms fr_terms) /\ implements 2 (ex_terms fr_terms) fr_terms ex_pos ex_jac /\ rotation 2 (spin s) /\ List.Forall (turned 2 (spin s) 0 s) fr_terms /\
  (exists L m1, evaluate (ex_terms fr_terms) 0 None false fr_Ls (3 * 2) ex_mem = Ok (L, m1)) /\ solid_residual 2 (ex_terms fr_terms) 0 fr_Ls ex_mem fr_terms ex_pos ex_jac /\
  (forall w, length (fr_moved s c w) = length (fr_Ls w)) /\
  carried 2 3 (spin s) c xref (nodal_values byVDIM 3 2 (fr_Ls 0)) (nodal_values byVDIM 3 2 (fr_moved s c 0)) /\
  (forall a i, (a < 3)%nat -> (i < 2)%nat -> nodal_values byVDIM 3 2 (fr_moved s c 1) a i = turn 2 (spin s) (nodal_values byVDIM 3 2 (fr_Ls 1) a) i).
Proof.
  assert (W : wf (ex_terms fr_terms) (3 * 2) (fun w => length (fr_Ls w))) by (apply ex_wf; [lia|]; intros [|w]; reflexivity).
  split; [now left|]. split; [exact W|]. split; [apply ex_fit|]. split; [apply ex_layout; lia|]. split; [apply ex_two|]. split; [apply ex_iso, fr_ordered|]. split; [apply ex_unity|].
  split; [apply ex_implements, fr_ordered|]. split; [apply spin_rotation|]. split; [apply fr_turned|]. split.
  { destruct (evaluate_spec (ex_terms fr_terms) 0 None false fr_Ls (3 * 2) ex_mem W) as (L' & A & _). eauto. }
  split; [exact fr_residual|]. split; [intros [|w]; apply tab_length|]. split; [apply fr_carried|].
  intros a i Ha Hi. cbn [fr_moved]. now rewrite values_nodal by auto.
Qed.

(** ** without geometric nonlinearities a turned body is not at rest *)
Definition half_turn : mat := spin PI.
Definition el_rest : vec := fun _ => 0.
Definition el_half : vec := fun i => match i with 2%nat => -2 | 5%nat => -2 | _ => 0 end.
Lemma el_no_load h : dotn 6 h (load_vector 2 6 el_f el_terms ex_pos ex_jac 0) = 0.
Proof.
  rewrite <- load_expand. unfold load_form. rewrite (over_points_ext _ _ (fun _ _ _ _ _ _ _ => 0)); [now apply over_points_zero|].
  intros k Ig g G r le q _ _ _ _ _. destruct k as [|[|[|[|k]]]]; cbn [nth_error el_terms load_density]; try reflexivity.
  - rewrite sumn_zero by (intros; ring). ring.
  - rewrite sumn_zero by (intros; ring). ring.
  - ring.
  - destruct k; reflexivity.
Qed.
Lemma el_stiff : stiffness_form 2 6 el_f ex_mem el_terms ex_jac el_half el_half > 0.
Proof.
  unfold stiffness_form, over_points. cbn [el_f ex_functional f_integrals map el_terms length is_volume fst snd sumn nth_error ex_integral i_geoms i_type f_test ex_restr ex_kernel gk_elems gk_nq gk_w].
  cbn [stiffness_density]. unfold ex_jac. cbn [vol_of tri_jac]. rewrite detn_ident by (now left).
  set (u := test_field _ _ _ _ _). assert (U : forall i j, (i < 2)%nat -> (j < 2)%nat -> u i (S j) = if Nat.eqb i j then -2 else 0).
  { intros i j Hi Hj. unfold u, test_field, interpolate, elem_dofs. cbn [gk_test ex_kernel es_n es_c tri_space gk_elems nth sumn es_B].
    vm_compute (gatherF _ _). destruct i as [|[|i]]; [| |lia]; destruct j as [|[|j]]; try lia; cbn [nth Nat.add Nat.mul tri_B Nat.eqb]; lra. }
  assert (HG : meq 2 (grad_at 2 ident u) (mscal (-2) ident)).
  { intros i j Hi Hj. unfold grad_at. destruct ident_inv as (K & EK). rewrite EK. destruct (invn_some 2 ident K (or_introl eq_refl) EK) as (IK & _ & _).
    assert (HK : meq 2 K ident) by (intros i' j' Hi' Hj'; rewrite <- (IK i' j' Hi' Hj'); symmetry; now apply mmul_ident_l).
    cbn [sumn]. rewrite !HK, !U by lia. unfold mscal, ident. destruct i as [|[|i]]; [| |lia]; destruct j as [|[|j]]; try lia; cbn [Nat.eqb]; lra. }
  unfold stress_of. rewrite (inner_ext 2 _ (linear_isotropic 2 2 1 (mscal (-2) ident)) _ (mscal (-2) ident)); [| |exact HG].
  - unfold inner, linear_isotropic, iso_stress, lame, small_strain, madd, mscal, ident, transpose, tr. cbn [sumn Nat.eqb]. lra.
  - destruct (proj2 (proj2 (isotropic_linear (St := unit) 2 3 2 1)) tt) as (X & _). exact (X _ _ HG).
Qed.
Lemma half_values : cos PI = -1 /\ sin PI = 0.
Proof. split; [apply cos_PI|apply sin_PI]. Qed.
Theorem small_displacements_feel_rotation : exists (f : functional unit) terms pos jac Q Ls Ls' m L m1 L' m1', 
  wf f (3 * 2) (fun w => length (Ls w)) /\ all_fit f /\ layout f byVDIM 3 2 /\ two_spaces 2 f /\ isoparametric 2 f pos jac xref /\ unity f /\ rotation 2 Q /\
  List.Forall (linear_elastic 2) terms /\ solid_residual 2 f 0 Ls m terms pos jac /\ solid_residual 2 f 0 Ls' m terms pos jac /\
  evaluate f 0 None false Ls (3 * 2) m = Ok (L, m1) /\ evaluate f 0 None false Ls' (3 * 2) m = Ok (L', m1') /\
  carried 2 3 Q (fun _ => 0) xref (nodal_values byVDIM 3 2 (Ls 0%nat)) (nodal_values byVDIM 3 2 (Ls' 0%nat)) /\
  (forall a i, (a < 3)%nat -> (i < 2)%nat -> nodal_values byVDIM 3 2 (Ls' 1%nat) a i = turn 2 Q (nodal_values byVDIM 3 2 (Ls 1%nat) a) i) /\
  (forall i, (i < 6)%nat -> nth i L 0 = 0) /\ exists i, (i < 6)%nat /\ nth i L' 0 <> 0.
Proof.
  set (Ls := arguments 6 no_params el_rest el_rest). set (Ls' := arguments 6 no_params el_half el_rest).
  destruct (evaluate_spec el_f 0 None false Ls (3 * 2) ex_mem (el_wf el_rest el_rest)) as (L & E & _).
  destruct (evaluate_spec el_f 0 None false Ls' (3 * 2) ex_mem (el_wf el_half el_rest)) as (L' & E' & _).
  assert (B := solid_balance 2 6 el_f ex_mem el_terms ex_pos ex_jac no_params (or_introl eq_refl) el_linear 0 el_rest el_rest L _ None false (el_wf el_rest el_rest) (ex_fit _ _) el_spaces (el_residual 0 el_rest el_rest) E).
  assert (B' := solid_balance 2 6 el_f ex_mem el_terms ex_pos ex_jac no_params (or_introl eq_refl) el_linear 0 el_half el_rest L' _ None false (el_wf el_half el_rest) (ex_fit _ _) el_spaces (el_residual 0 el_half el_rest) E').
  assert (M := mass_symmetric 2 6 el_f el_terms ex_jac). assert (K := stiffness_symmetric 2 6 el_f ex_mem el_terms ex_jac el_linear).
  assert (Z : forall b, symmetric_form 6 b -> forall h, b h el_rest = 0).
  { intros b F h. rewrite (form_sym 6 b F), (form_ext 6 b F el_rest (fun i => 0 * h i)) by (intros; unfold el_rest; ring). rewrite (form_scal 6 b F). ring. }
  exists el_f, el_terms, ex_pos, ex_jac, half_turn, Ls, Ls', ex_mem, L. eexists. exists L'. eexists.
  split; [apply el_wf|]. split; [apply ex_fit|]. split; [apply ex_layout; lia|]. split; [exact el_spaces|].
  split; [apply (ex_iso el_terms); intros k T ET; destruct k as [|[|[|[|k]]]]; injection ET as <- || destruct k; try reflexivity; discriminate|].
  split; [apply ex_unity|]. split; [apply spin_rotation|]. split; [exact el_linear|]. split; [apply el_residual|]. split; [apply el_residual|].
  split; [exact E|]. split; [exact E'|]. destruct half_values as [C S]. split; [|split; [|split]].
  - intros a i Ha Hi. unfold nodal_values, turn, half_turn, spin. rewrite C, S. unfold Ls, Ls'. cbn [arguments].
    destruct a as [|[|[|a]]]; [| | |lia]; (destruct i as [|[|i]]; [| |lia]); cbn [dof_number Nat.mul Nat.add sumn xref]; rewrite !nth_tab by lia; unfold el_half, el_rest; lra.
  - intros a i Ha Hi. unfold nodal_values, turn, half_turn, spin. unfold Ls, Ls'. cbn [arguments].
    destruct a as [|[|[|a]]]; [| | |lia]; (destruct i as [|[|i]]; [| |lia]); cbn [dof_number Nat.mul Nat.add sumn xref]; rewrite !nth_tab by lia; unfold el_half, el_rest; lra.
  - intros i Hi. rewrite <- (dot_unit 6 i (fun j => nth j L 0) Hi). rewrite B, el_no_load, !Z by assumption. ring.
  - specialize (B' el_half). rewrite el_no_load, (Z _ M) in B'. assert (P := el_stiff). 
    assert (P' : dotn 6 el_half (fun i => nth i L' 0) > 0) by lra. clear B' P.
    destruct (Req_EM_T (nth 2 L' 0) 0) as [Z2|N2]; [|exists 2%nat; split; [lia|exact N2]].
    exists 5%nat. split; [lia|]. intros Z5. unfold dotn, el_half in P'. cbn [sumn] in P'. rewrite Z2, Z5 in P'. lra.
Qed.
