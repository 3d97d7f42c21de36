(** * The square of four triangles made of a linear elastic material: non-vacuity witness for C90 *)
From Coq Require Import NArith ZArith Reals List Lia Lra Bool.
From Verif Require Import Prelude DofCodec Sums Restriction Kernels FunctionalModel Assembly Tensor MatAlg Materials MaterialFacts ShapeAware ShapeDefs WeakForm WeakFormFacts WeakFormPhysics WeakFormWork WeakFormEx Fit Ode Energy EnergySolid EnergyRun EnergyEx StoredEnergy StoredEnergyUse PatchTest PatchMesh PatchGeom PatchEx StiffBody StiffMesh.
Import ListNotations.
Local Open Scope R_scope.

Definition kM : solid_term Datatypes.unit := SMaterial false 3 (fun _ H => Some (linear_isotropic 2 2 1 H)).
Definition kT : solid_term Datatypes.unit := STraction (fun X nu t i => t * nu i).
Definition kterms : list (solid_term Datatypes.unit) := [kM; kT].
Definition kf : functional Datatypes.unit := {| f_test := f_test pf; f_trial := f_trial pf; f_integrals := [pI 0 kM; pI 1 kT] |}.
Definition kparams (w : nat) : list R := repeat 0 10.
(** nodes 0 and 1, the bottom edge, are clamped; in the second case node 0 alone *)
Definition kfree (i : nat) : bool := negb (Nat.ltb i 4).
Definition kloose (i : nat) : bool := negb (Nat.ltb i 2).

Lemma k_linear : List.Forall (linear_elastic 2) kterms.
Proof. repeat constructor. all: exact (proj2 (proj2 (isotropic_linear (St := Datatypes.unit) 2 3 2 1)) tt) || discriminate || idtac. all: try apply (proj2 (proj2 (isotropic_linear (St := Datatypes.unit) 2 3 2 1))). Qed.
Lemma k_layout : layout kf byVDIM 5 2.
Proof. exact p_layout. Qed.
Lemma k_fit : all_fit kf.
Proof.
  intros Ig g G r [<-|[<-|[]]] HG Hr; cbn [pI i_geoms] in HG; (destruct g as [|g]; [|destruct g; discriminate]); injection HG as <-; injection Hr as <-;
    (split; [reflexivity|]; split; [reflexivity|]); cbn; intros el; lia.
Qed.
Lemma k_spaces : two_spaces 2 kf.
Proof. split; [now split|]. intros Ig [<-|[<-|[]]]; (split; [now exists []|]); intros G [<-|[]]; now repeat split. Qed.
Lemma k_lens x a w : length (arguments (5 * 2) kparams x a w) = 10%nat.
Proof. destruct w as [|[|w]]; cbn [arguments]; [apply tab_length|apply tab_length|apply repeat_length]. Qed.
Lemma k_wf x a : wf kf (5 * 2) (fun w => length (arguments (5 * 2) kparams x a w)).
Proof.
  destruct plain_pr as [P1 P2]. pose proof (plain_ids_ok _ P1) as I1. pose proof (plain_ids_ok _ P2) as I2. cbn [r_num_nodes r_components pr pe] in I1, I2.
  intros Ig [<-|[<-|[]]]; (split; [|split; [|split]]).
  - intros r [<-|[]]. assumption.
  - intros w r. rewrite k_lens. intros [<-|[]]. assumption.
  - reflexivity.
  - repeat constructor; cbn; intuition congruence.
  - intros r [<-|[]]. assumption.
  - intros w r. rewrite k_lens. intros [<-|[]]. assumption.
  - reflexivity.
  - repeat constructor; cbn; intuition congruence.
Qed.
Lemma k_iso : isoparametric 2 kf ppos pjac px.
Proof.
  intros k Ig g G r le q E1 E2 E3 Hle Hq. destruct k as [|[|k]]; [| |destruct k; discriminate]; injection E1 as <-; (destruct g as [|g]; [|destruct g; discriminate]); injection E2 as <-; injection E3 as <-;
    cbn [pG is_volume gk_elems length gk_nq gk_dim1 kM kT] in *; unfold field_at, interpolate; cbn [pG is_volume gk_test gk_elems es_n es_B tri_space edge_space sumn kM kT].
  - rewrite !p_node by lia. split.
    + intros i Hi. cbn [tri_B ppos]. ring.
    + intros i j Hi Hj. destruct j as [|[|j]]; [| |lia]; cbn [tri_B pjac]; ring.
  - assert (le = 0%nat) by lia. subst le. change (node_of pe (nth 0 [0%nat] 0%nat) 0) with 0%nat. change (node_of pe (nth 0 [0%nat] 0%nat) 1) with 1%nat. split.
    + intros i Hi. cbn [edge_B ppos]. ring.
    + intros i j Hi Hj. assert (j = 0%nat) by lia. subst j. cbn [edge_B pjac]. ring.
Qed.
Lemma k_det le g q : (le < 4)%nat -> 0 < detn 2 (pjac 0 g le q).
Proof.
  intros H. unfold detn, det2, pjac. cbn [Nat.eqb]. destruct le as [|[|[|[|le]]]]; [| | | |lia]; unfold pn; cbn [nth px]; lra.
Qed.
Lemma k_norm : vnorm 2 (crossn 2 (pjac 1 0 0 0)) = 1.
Proof. unfold vnorm, crossn, pjac. cbn [Nat.eqb sumn px]. replace (0 + (0 - 0) * (0 - 0) + - (1 - 0) * - (1 - 0)) with 1 by ring. apply sqrt_1. Qed.
Lemma k_solid : solid_elements 2 kf kterms pjac.
Proof.
  intros k Ig g G le q E1 E2 Hle Hq on rho sigma ET. destruct k as [|[|k]]; [|discriminate|destruct k; discriminate]. injection E1 as <-. destruct g as [|g]; [|destruct g; discriminate]. injection E2 as <-.
  cbn [pG is_volume gk_elems length gk_nq gk_w kM] in *. assert (P := k_det le 0 q Hle). lra.
Qed.
Lemma k_stiff : stiff 2 kterms.
Proof. intros on rho sigma [E|[E|[]]]; [|discriminate]. injection E as <- <- <-. apply isotropic_stiff; [now left|lra|lra]. Qed.
Lemma k_simplices : simplices 2 kf kterms.
Proof.
  intros k Ig g G on rho sigma E1 E2 ET. destruct k as [|[|k]]; [|discriminate|destruct k; discriminate]. injection E1 as <-. destruct g as [|g]; [|destruct g; discriminate]. injection E2 as <-.
  cbn [pG is_volume gk_test gk_nq gk_dim1 es_n es_B tri_space kM]. split; [reflexivity|]. split; [reflexivity|]. split; [lia|]. exists 0, (fun _ _ => / 3).
  intros l q b Hl _ Hb. destruct l as [|[|[|l]]]; [| | |lia]; (destruct b as [|[|b]]; [| |lia]); reflexivity.
Qed.
Lemma k_residual t x a : solid_residual 2 kf t (arguments (5 * 2) kparams x a) ex_mem kterms ppos pjac.
Proof.
  intros k Ig g G le q E1 E2 Hle Hq. destruct k as [|[|k]]; [| |destruct k; discriminate]; injection E1 as <-; (destruct g as [|g]; [|destruct g; discriminate]); injection E2 as <-;
    cbn [pG is_volume gk_elems length gk_nq kM kT] in Hle, Hq.
  - set (u := qf_inputs _ 0 _ le q 0%nat). set (a' := qf_inputs _ 0 _ le q 1%nat).
    destruct (elastic_point_ok 2 kM t (ppos 0 0 le q) (pjac 0 0 le q) u a' tt) as (p & out & Ep & Eo).
    + now left.
    + exact (proj1 (Forall_forall _ _) k_linear kM (or_introl eq_refl)).
    + intros _. assert (P := k_det le 0 q Hle). lra.
    + discriminate.
    + exists kM, p, out. split; [reflexivity|]. split; [exact Ep|]. split; [exact Eo|]. split; [reflexivity|].
      intros i b _ _. unfold qf_out. cbn [pG gk_qf fst]. fold u a'. unfold out_of. now rewrite Ep, Eo.
  - assert (le = 0%nat) by lia. assert (q = 0%nat) by lia. subst le q. set (u := qf_inputs _ 0 _ 0 0 0%nat). set (a' := qf_inputs _ 0 _ 0 0 1%nat).
    destruct (elastic_point_ok 2 kT t (ppos 1 0 0 0) (pjac 1 0 0 0) u a' tt) as (p & out & Ep & Eo).
    + now left.
    + exact (proj1 (Forall_forall _ _) k_linear kT (or_intror (or_introl eq_refl))).
    + discriminate.
    + intros _. rewrite k_norm. lra.
    + exists kT, p, out. split; [reflexivity|]. split; [exact Ep|]. split; [exact Eo|]. split; [reflexivity|].
      intros i b _ _. unfold qf_out. cbn [pG gk_qf fst]. fold u a'. unfold out_of. now rewrite Ep, Eo.
Qed.
Lemma k_forces t x : exists L, nodal_forces 2 (5 * 2) kf ex_mem kterms ppos pjac kparams t x rest L.
Proof.
  destruct (evaluate_spec kf t None false (arguments (5 * 2) kparams x rest) (5 * 2) ex_mem (k_wf x rest)) as (L & E & _). exists L. split; [apply k_wf|]. split; [apply k_residual|]. exists None, false, ex_mem. exact E.
Qed.

(** ** the mesh hangs together *)
Lemma k_filled le : (le < 4)%nat -> filled kf kterms (0, 0, le)%nat.
Proof. intros H. exists (pI 0 kM), (pG 0 kM), pr, false, 3, (fun _ H => Some (linear_isotropic 2 2 1 H)). repeat split. exact H. Qed.
Lemma k_cells c : filled kf kterms c -> exists le, (le < 4)%nat /\ c = (0, 0, le)%nat.
Proof.
  destruct c as [[k g] le]. intros (Ig & G & r & on & rho & sigma & E1 & E2 & E3 & Hle & ET). destruct k as [|[|k]]; [|discriminate|destruct k; discriminate]. injection E1 as <-.
  destruct g as [|g]; [|destruct g; discriminate]. injection E2 as <-. exists le. split; [exact Hle|reflexivity].
Qed.
Lemma k_corner le l : (le < 4)%nat -> (l < 3)%nat -> corner kf (0, 0, le)%nat (pn le l).
Proof. intros H1 H2. exists (pI 0 kM), (pG 0 kM), pr, l. repeat split; [exact H2|]. symmetry. cbn [pG gk_elems is_volume kM]. now apply p_node. Qed.
Lemma k_linked le : (le < 4)%nat -> linked 2 px (filled kf kterms) (corner kf) (0, 0, 0)%nat (0, 0, le)%nat.
Proof.
  induction le as [|le IH]; intros H; [apply linked_start, k_filled; lia|]. apply (linked_next _ _ _ _ _ (0, 0, le)%nat); [apply IH; lia|now apply k_filled|].
  exists (pn le 1), 4%nat. split; [|split].
  - split; [apply k_corner; lia|]. replace (pn le 1) with (pn (S le) 0) by (destruct le as [|[|[|le]]]; [reflexivity|reflexivity|reflexivity|lia]). apply k_corner; lia.
  - split.
    + replace 4%nat with (pn le 2) by (destruct le as [|[|[|[|le]]]]; reflexivity || lia). apply k_corner; lia.
    + replace 4%nat with (pn (S le) 2) by (destruct le as [|[|[|le]]]; reflexivity || lia). apply k_corner; lia.
  - exists 0%nat. split; [lia|]. destruct le as [|[|[|le]]]; [| | |lia]; unfold pn; cbn [nth px]; lra.
Qed.
Lemma k_nodes a : (a < 5)%nat -> exists c, filled kf kterms c /\ corner kf c a.
Proof.
  intros H. destruct a as [|[|[|[|[|a]]]]]; [| | | | |lia].
  - exists (0, 0, 0)%nat. split; [apply k_filled; lia|exact (k_corner 0 0 ltac:(lia) ltac:(lia))].
  - exists (0, 0, 1)%nat. split; [apply k_filled; lia|exact (k_corner 1 0 ltac:(lia) ltac:(lia))].
  - exists (0, 0, 2)%nat. split; [apply k_filled; lia|exact (k_corner 2 0 ltac:(lia) ltac:(lia))].
  - exists (0, 0, 3)%nat. split; [apply k_filled; lia|exact (k_corner 3 0 ltac:(lia) ltac:(lia))].
  - exists (0, 0, 0)%nat. split; [apply k_filled; lia|exact (k_corner 0 2 ltac:(lia) ltac:(lia))].
Qed.
Lemma k_pinned : pins 2 px (fun a => (a < 5)%nat /\ clamped 2 5 byVDIM kfree a).
Proof.
  exists 0%nat, 1%nat. split; [|split].
  - split; [lia|]. intros i Hi. destruct i as [|[|i]]; [reflexivity|reflexivity|lia].
  - split; [lia|]. intros i Hi. destruct i as [|[|i]]; [reflexivity|reflexivity|lia].
  - exists 0%nat. split; [lia|]. cbn [px]. lra.
Qed.

(** ** clamped at one node only, the square can still turn around it *)
Definition kturn : vec := fun d => nth d [0; 0; 0; 1; -1; 1; -1; 0; - / 2; / 4] 0.
Lemma k_turns : strain_free 2 (5 * 2) kf kterms pjac kturn.
Proof.
  intros k Ig g G r le q on rho sigma E1 E2 E3 Hle Hq ET. destruct k as [|[|k]]; [|discriminate|destruct k; discriminate]. injection E1 as <-. destruct g as [|g]; [|destruct g; discriminate]. injection E2 as <-. injection E3 as <-.
  cbn [pG is_volume gk_elems length gk_nq kM] in Hle, Hq. 
  assert (TF : forall i b, (i < 2)%nat -> test_field (pG 0 kM) pr (tab (5 * 2) kturn) le q i b = sumn 3 (fun l => nth (2 * pn le l + i) [0; 0; 0; 1; -1; 1; -1; 0; - / 2; / 4] 0 * tri_B l q b)).
  { intros i b Hi. rewrite (dofs_nodal 2 5 byVDIM kturn). rewrite (test_field_nodal kf byVDIM 5 2 Elements (pG 0 kM) pr _ le q i b k_layout (or_introl eq_refl) (k_fit _ 0%nat _ _ (or_introl eq_refl) eq_refl eq_refl) Hle Hi).
    unfold field_at, interpolate. cbn [pG is_volume gk_test gk_elems es_n es_B tri_space kM]. apply sumn_ext. intros l Hl. rewrite p_node by lia. unfold dof_number, kturn. f_equal. f_equal. lia. }
  destruct (invn_works 2 (pjac 0 0 le q) (or_introl eq_refl)) as (K & EK); [assert (P := k_det le 0 q Hle); lra|].
  destruct (invn_some 2 _ K (or_introl eq_refl) EK) as (JK & _ & _).
  assert (W : forall i j, (i < 2)%nat -> (j < 2)%nat -> grad_at 2 (pjac 0 0 le q) (test_field (pG 0 kM) pr (tab (5 * 2) kturn) le q) i j = match i, j with O, S O => -1 | S O, O => 1 | _, _ => 0 end).
  { intros i j Hi Hj. assert (J0 := JK 0%nat j ltac:(lia) Hj). assert (J1 := JK 1%nat j ltac:(lia) Hj). unfold mmul, ident, pjac in J0, J1. cbn [sumn Nat.eqb] in J0, J1.
    unfold grad_at. rewrite EK. cbn [sumn]. rewrite !TF by exact Hi. cbn [sumn tri_B].
    destruct le as [|[|[|[|le]]]]; [| | | |lia]; unfold pn in J0, J1 |- *; cbn [nth px Nat.mul Nat.add] in J0, J1 |- *; (destruct i as [|[|i]]; [| |lia]); (destruct j as [|[|j]]; [| |lia]); cbn [nth Nat.mul Nat.add Nat.eqb] in *; lra. }
  intros i j Hi Hj. rewrite !W by assumption. destruct i as [|[|i]]; [| |lia]; (destruct j as [|[|j]]; [| |lia]); lra.
Qed.
Lemma k_unsupported : ~ supported 2 (5 * 2) kf kterms pjac kloose.
Proof.
  intros SP. assert (H := SP kturn k_turns). assert (Q := H ltac:(intros i Hi Fi; destruct i as [|[|i]]; [reflexivity|reflexivity|discriminate]) 3%nat ltac:(lia)). cbn in Q. lra.
Qed.
