(** * The square of four triangles as a conductor cooled at the bottom: non-vacuity witness for C91 *)
From Coq Require Import NArith ZArith Reals List Lia Lra Bool.
From Verif Require Import Prelude DofCodec Sums Restriction Kernels FunctionalModel Assembly Tensor MatAlg Materials MaterialFacts ShapeAware ShapeDefs WeakForm WeakFormFacts WeakFormPhysics WeakFormWork WeakFormEx Fit Ode Energy EnergySolid EnergyRun EnergyEx EnergyHeat EnergyHeatEx PatchTest PatchMesh PatchGeom PatchEx StiffBody StiffMesh StiffEx HeatUnique HeatMesh.
Import ListNotations.
Local Open Scope R_scope.

Definition wM : heat_term := HMaterial (fourier_law 2 3 hc_kappa).
Definition wQ : heat_term := HFlux (fun X nu t u => 4 * (u - t)).
Definition wterms : list heat_term := [wM; wQ].
Definition wr : restriction := {| r_ordering := byVDIM; r_components := 1; r_num_nodes := 5; r_nodes_per_elem := 3; r_dofs := r_dofs pr |}.
Definition we : restriction := {| r_ordering := byVDIM; r_components := 1; r_num_nodes := 5; r_nodes_per_elem := 2; r_dofs := r_dofs pe |}.
Definition wG (k : nat) (T : heat_term) : gkernel Datatypes.unit :=
  let vol := is_volume_h T in
  {| gk_elems := if vol then [0; 1; 2; 3]%nat else [0%nat]; gk_dim1 := if vol then 3%nat else 2%nat; gk_nq := 1; gk_w := fun _ => if vol then / 2 else 1;
     gk_test := if vol then tri_space 1 else edge_space 1; gk_trial := fun _ => if vol then tri_space 1 else edge_space 1;
     gk_qf := fun le q t v st => (out_of (heat_point 2 T t (ppos k 0 le q) (pjac k 0 le q) (v 0%nat) (v 1%nat)), st); gk_ad := fun s le q t v st => fun _ _ _ _ => 0 |}.
Definition wI (k : nat) (T : heat_term) : integral Datatypes.unit := {| i_type := if is_volume_h T then Elements else BoundaryElements; i_active := [0%nat; 1%nat]; i_geoms := [wG k T] |}.
Definition wf1 : functional Datatypes.unit := {| f_test := fun dt => match dt with Elements => [wr] | BoundaryElements => [we] end; f_trial := fun _ dt => match dt with Elements => [wr] | BoundaryElements => [we] end;
  f_integrals := [wI 0 wM; wI 1 wQ] |}.
Definition wparams (w : nat) : list R := repeat 0 5.
(** the temperature of node 2 is held; everything else is free *)
Definition wfree (i : nat) : bool := negb (Nat.eqb i 2).

Lemma w_plain : plain wr /\ plain we.
Proof.
  split; (split; [|cbn [r_num_nodes r_components wr we]; lia]); intros row; cbn [In r_dofs pr pe wr we r_nodes_per_elem r_num_nodes].
  - intros [<-|[<-|[<-|[<-|[]]]]]; (split; [reflexivity|]); intros d [<-|[<-|[<-|[]]]]; first [exists 0%nat; split; [lia|reflexivity]|exists 1%nat; split; [lia|reflexivity]|exists 2%nat; split; [lia|reflexivity]|exists 3%nat; split; [lia|reflexivity]|exists 4%nat; split; [lia|reflexivity]].
  - intros [<-|[]]; (split; [reflexivity|]); intros d [<-|[<-|[]]]; first [exists 0%nat; split; [lia|reflexivity]|exists 1%nat; split; [lia|reflexivity]|exists 2%nat; split; [lia|reflexivity]|exists 3%nat; split; [lia|reflexivity]|exists 4%nat; split; [lia|reflexivity]].
Qed.
Lemma w_layout : layout wf1 byVDIM 5 1.
Proof. destruct w_plain. intros [|] r [<-|[]]; (split; [assumption|]); repeat split. Qed.
Lemma w_fit : all_fit wf1.
Proof.
  intros Ig g G r [<-|[<-|[]]] HG Hr; cbn [wI i_geoms] in HG; (destruct g as [|g]; [|destruct g; discriminate]); injection HG as <-; injection Hr as <-;
    (split; [reflexivity|]; split; [reflexivity|]); cbn; intros el; lia.
Qed.
Lemma w_spaces : two_spaces 1 wf1.
Proof. split; [now split|]. intros Ig [<-|[<-|[]]]; (split; [now exists []|]); intros G [<-|[]]; now repeat split. Qed.
Lemma w_lens x a w : length (arguments (5 * 1) wparams x a w) = 5%nat.
Proof. destruct w as [|[|w]]; cbn [arguments]; [apply tab_length|apply tab_length|apply repeat_length]. Qed.
Lemma w_wf x a : wf wf1 (5 * 1) (fun w => length (arguments (5 * 1) wparams x a w)).
Proof.
  destruct w_plain as [P1 P2]. pose proof (plain_ids_ok _ P1) as I1. pose proof (plain_ids_ok _ P2) as I2. cbn [r_num_nodes r_components wr we] in I1, I2.
  intros Ig [<-|[<-|[]]]; (split; [|split; [|split]]).
  - intros r [<-|[]]. assumption.
  - intros w r. rewrite w_lens. intros [<-|[]]. assumption.
  - reflexivity.
  - repeat constructor; cbn; intuition congruence.
  - intros r [<-|[]]. assumption.
  - intros w r. rewrite w_lens. intros [<-|[]]. assumption.
  - reflexivity.
  - repeat constructor; cbn; intuition congruence.
Qed.
Lemma w_unity : unity wf1.
Proof.
  intros Ig G q [<-|[<-|[]]] [<-|[]] Hq; (split; [cbn; lia|]); intros b Hb; cbn [wG wM wQ is_volume_h gk_dim1 gk_test es_n es_B tri_space edge_space] in *.
  - destruct b as [|[|[|b]]]; [| | |lia]; cbn [sumn tri_B Nat.eqb]; lra.
  - destruct b as [|[|b]]; [| |lia]; cbn [sumn edge_B Nat.eqb]; lra.
Qed.
Lemma w_linear : List.Forall (linear_heat 2) wterms.
Proof.
  constructor; [|constructor; [|constructor]].
  - apply fourier_linear. intros [|[|i]] [|[|j]] _ _; reflexivity.
  - apply (cooling_linear 2 (fun _ => 4) (fun t => t)).
Qed.
Lemma w_sound : sound_elements 2 wf1 wterms pjac.
Proof.
  intros k Ig g G le q E1 E2 Hle Hq. destruct k as [|[|k]]; [| |destruct k; discriminate]; injection E1 as <-; (destruct g as [|g]; [|destruct g; discriminate]); injection E2 as <-;
    cbn [wG wM wQ is_volume_h gk_elems length gk_nq gk_w nth_error wterms] in *.
  - split; [lra|now apply k_det].
  - assert (le = 0%nat) by lia. assert (q = 0%nat) by lia. subst le q. rewrite k_norm. lra.
Qed.
Lemma w_conductive : conductive 2 wterms.
Proof.
  split.
  - intros mm [E|[E|[]]]; [|discriminate]. injection E as <-. apply fourier_conducting. intros h NZ. cbn [sumn hc_kappa]. set (x := h 0%nat) in *. set (y := h 1%nat) in *.
    assert (A := Rle_0_sqr (x + y)). assert (B := Rle_0_sqr x). assert (C := Rle_0_sqr y).
    assert (P : 0 < Rsqr x + Rsqr y). { destruct NZ as (i & Hi & N0). destruct i as [|[|i]]; [fold x in N0|fold y in N0|lia]; [assert (Q := Rsqr_pos_lt x N0)|assert (Q := Rsqr_pos_lt y N0)]; lra. }
    unfold Rsqr in *. lra.
  - intros fl [E|[E|[]]]; [discriminate|]. injection E as <-. intros X nu. unfold film. lra.
Qed.
Lemma w_capacious : capacious wterms.
Proof. intros mm [E|[E|[]]] X; [|discriminate]. injection E as <-. cbn. lra. Qed.
Lemma w_simplices : conducting_simplices 2 wf1 wterms.
Proof.
  intros k Ig g G mm E1 E2 ET. destruct k as [|[|k]]; [|discriminate|destruct k; discriminate]. injection E1 as <-. destruct g as [|g]; [|destruct g; discriminate]. injection E2 as <-.
  cbn [wG is_volume_h gk_test gk_nq es_n es_B tri_space wM]. split; [reflexivity|]. split; [lia|]. exists 0, (fun _ _ => / 3).
  intros l q b Hl _ Hb. destruct l as [|[|[|l]]]; [| | |lia]; (destruct b as [|[|b]]; [| |lia]); reflexivity.
Qed.
Lemma w_flows t x a : exists L, heat_flows 2 (5 * 1) wf1 ex_mem wterms ppos pjac wparams t x a L.
Proof.
  destruct (evaluate_spec wf1 t None false (arguments (5 * 1) wparams x a) (5 * 1) ex_mem (w_wf x a)) as (L & E & _). exists L. split; [apply w_wf|]. split; [|exists None, false, ex_mem; exact E].
  set (Ls := arguments (5 * 1) wparams x a).
  exists (fun k g le q => match nth_error (f_integrals wf1) k with
    | Some Ig => match nth_error (i_geoms Ig) g with Some G => grad_at 2 (pjac k g le q) (qf_inputs G g (Es_of wf1 Ls Ig) le q 0%nat) | None => fun _ _ => 0 end
    | None => fun _ _ => 0 end).
  intros k Ig g G le q E1 E2 Hle Hq. rewrite E1, E2. destruct k as [|[|k]]; [| |destruct k; discriminate]; injection E1 as <-; (destruct g as [|g]; [|destruct g; discriminate]); injection E2 as <-;
    cbn [wG is_volume_h gk_elems length gk_nq wM wQ] in Hle, Hq.
  - set (u := qf_inputs _ 0 _ le q 0%nat). set (a' := qf_inputs _ 0 _ le q 1%nat). assert (PD := k_det le 0 q Hle).
    destruct (heat_point_ok 2 wM t (ppos 0 0 le q) (pjac 0 0 le q) u a') as (p & out & Ep & Eo); [now left|intros _; lra|discriminate|].
    exists wM, p, out. split; [reflexivity|]. split; [exact Ep|]. split; [exact Eo|]. split; [reflexivity|]. split.
    + intros _. destruct (invn_works 2 (pjac 0 0 le q) (or_introl eq_refl)) as (K & EK); [lra|]. unfold grad_phys, parent_to_physical, grad_at. rewrite EK. reflexivity.
    + intros b _. unfold qf_out. cbn [wG gk_qf fst]. fold u a'. unfold out_of. now rewrite Ep, Eo.
  - assert (le = 0%nat) by lia. assert (q = 0%nat) by lia. subst le q. set (u := qf_inputs _ 0 _ 0 0 0%nat). set (a' := qf_inputs _ 0 _ 0 0 1%nat).
    destruct (heat_point_ok 2 wQ t (ppos 1 0 0 0) (pjac 1 0 0 0) u a') as (p & out & Ep & Eo); [now left|discriminate|intros _; rewrite k_norm; lra|].
    exists wQ, p, out. split; [reflexivity|]. split; [exact Ep|]. split; [exact Eo|]. split; [reflexivity|]. split; [discriminate|].
    intros b _. unfold qf_out. cbn [wG gk_qf fst]. fold u a'. unfold out_of. now rewrite Ep, Eo.
Qed.
Lemma w_corner le l : (le < 4)%nat -> (l < 3)%nat -> material_corner wf1 wterms 0 0 le (pn le l).
Proof. intros H1 H2. exists (wI 0 wM), (wG 0 wM), wr, (fourier_law 2 3 hc_kappa), l. repeat split; [exact H1|exact H2|]. symmetry. exact (p_node le l H1 H2). Qed.
Lemma w_corners a : (a < 5)%nat -> exists k g le, material_corner wf1 wterms k g le a.
Proof.
  intros H. exists 0%nat, 0%nat. destruct a as [|[|[|[|[|a]]]]]; [| | | | |lia].
  - exists 0%nat. exact (w_corner 0 0 ltac:(lia) ltac:(lia)).
  - exists 1%nat. exact (w_corner 1 0 ltac:(lia) ltac:(lia)).
  - exists 2%nat. exact (w_corner 2 0 ltac:(lia) ltac:(lia)).
  - exists 3%nat. exact (w_corner 3 0 ltac:(lia) ltac:(lia)).
  - exists 0%nat. exact (w_corner 0 2 ltac:(lia) ltac:(lia)).
Qed.
Lemma w_reached a : (a < 5)%nat -> exists a0, (a0 < 5)%nat /\ wfree (dof_number byVDIM 5 1 a0 0) = false /\ reached wf1 wterms a0 a.
Proof.
  intros H. exists 2%nat. split; [lia|]. split; [reflexivity|]. assert (R4 : reached wf1 wterms 2 4).
  { apply (reached_next _ _ 2 0 0 1 2 4); [apply reached_start|exact (w_corner 1 1 ltac:(lia) ltac:(lia))|exact (w_corner 1 2 ltac:(lia) ltac:(lia))]. }
  destruct a as [|[|[|[|[|a]]]]]; [| | | |exact R4|lia].
  - apply (reached_next _ _ 2 0 0 0 4 0); [exact R4|exact (w_corner 0 2 ltac:(lia) ltac:(lia))|exact (w_corner 0 0 ltac:(lia) ltac:(lia))].
  - apply (reached_next _ _ 2 0 0 0 4 1); [exact R4|exact (w_corner 0 2 ltac:(lia) ltac:(lia))|exact (w_corner 0 1 ltac:(lia) ltac:(lia))].
  - apply reached_start.
  - apply (reached_next _ _ 2 0 0 2 4 3); [exact R4|exact (w_corner 2 2 ltac:(lia) ltac:(lia))|exact (w_corner 2 1 ltac:(lia) ltac:(lia))].
Qed.
