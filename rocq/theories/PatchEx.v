(** * A square of four triangles around an off-centre node: non-vacuity witness for C72 *)
From Coq Require Import NArith ZArith Reals List Lia Lra Bool Permutation.
From Verif Require Import Prelude DofCodec Sums Restriction Kernels FunctionalModel Assembly Tensor MatAlg Materials ShapeAware ShapeDefs WeakForm WeakFormFacts WeakFormPhysics WeakFormWork WeakFormEx EnergySolid FrameResidual PatchTest PatchMesh PatchGeom.
Import ListNotations.
Local Open Scope R_scope.

(** corners (0,0), (1,0), (1,1), (0,1) are nodes 0..3, node 4 is at (1/4, 1/2); the bottom edge is loaded *)
Definition px (a c : nat) : R := match a, c with 1%nat, O => 1 | 2%nat, _ => 1 | 3%nat, S _ => 1 | 4%nat, O => / 4 | 4%nat, S _ => / 2 | _, _ => 0 end.
Definition pn (le j : nat) : nat := (nth j (nth le [[0; 1; 4]; [1; 2; 4]; [2; 3; 4]; [3; 0; 4]] []) 0)%nat.
Definition pr : restriction := {| r_ordering := byVDIM; r_components := 2; r_num_nodes := 5; r_nodes_per_elem := 3;
  r_dofs := [[mk_dof 0 0 0; mk_dof 1 0 0; mk_dof 4 0 0]; [mk_dof 1 0 0; mk_dof 2 0 0; mk_dof 4 0 0]; [mk_dof 2 0 0; mk_dof 3 0 0; mk_dof 4 0 0]; [mk_dof 3 0 0; mk_dof 0 0 0; mk_dof 4 0 0]]%N |}.
Definition pe : restriction := {| r_ordering := byVDIM; r_components := 2; r_num_nodes := 5; r_nodes_per_elem := 2; r_dofs := [[mk_dof 0 0 0; mk_dof 1 0 0]]%N |}.
Definition ppos (k g le q : nat) : vec := fun i => match k with O => / 3 * (px (pn le 0) i + px (pn le 1) i + px (pn le 2) i) | _ => / 2 * (px 0 i + px 1 i) end.
Definition pjac (k g le q : nat) : mat := fun i j => match k with O => px (pn le (S j)) i - px (pn le 0) i | _ => px 1 i - px 0 i end.
Definition pterms : list (solid_term unit) := [SMaterial true 3 (fun _ H => Some (small_strain H)); STraction (fun X nu t i => nu i)].
Definition pG (k : nat) (T : solid_term unit) : gkernel unit :=
  let vol := is_volume T in
  {| gk_elems := if vol then [0; 1; 2; 3]%nat else [0%nat]; gk_dim1 := if vol then 3%nat else 2%nat; gk_nq := 1; gk_w := fun _ => if vol then / 2 else 1;
     gk_test := if vol then tri_space 2 else edge_space 2; gk_trial := fun _ => if vol then tri_space 2 else edge_space 2;
     gk_qf := fun le q t v st => (out_of (solid_point 2 T t (ppos k 0 le q) (pjac k 0 le q) (v 0%nat) (v 1%nat) tt), st); gk_ad := fun s le q t v st => fun _ _ _ _ => 0 |}.
Definition pI (k : nat) (T : solid_term unit) : integral unit := {| i_type := if is_volume T then Elements else BoundaryElements; i_active := [0%nat; 1%nat]; i_geoms := [pG k T] |}.
Definition pf : functional unit := {| f_test := fun dt => match dt with Elements => [pr] | BoundaryElements => [pe] end; f_trial := fun _ dt => match dt with Elements => [pr] | BoundaryElements => [pe] end;
  f_integrals := [pI 0 (SMaterial true 3 (fun _ H => Some (small_strain H))); pI 1 (STraction (fun X nu t i => nu i))] |}.
(** stretched to twice the width and sheared *)
Definition pA : mat := fun i j => match i, j with O, O => 1 | O, S _ => / 2 | _, _ => 0 end.
Definition pc : vec := fun _ => 7.
Definition pLs (w : nat) : list R := match w with O => nodal byVDIM 5 2 (fun a i => sumn 2 (fun d => pA i d * px a d) + pc i) | _ => nodal byVDIM 5 2 (fun _ _ => 0) end.

Lemma plain_pr : plain pr /\ plain pe.
Proof.
  split; (split; [|cbn [r_num_nodes r_components pr pe]; lia]); intros row; cbn [In r_dofs pr pe r_nodes_per_elem r_num_nodes].
  - intros [<-|[<-|[<-|[<-|[]]]]]; (split; [reflexivity|]); intros d [<-|[<-|[<-|[]]]]; first [exists 0%nat; split; [lia|reflexivity]|exists 1%nat; split; [lia|reflexivity]|exists 2%nat; split; [lia|reflexivity]|exists 3%nat; split; [lia|reflexivity]|exists 4%nat; split; [lia|reflexivity]].
  - intros [<-|[]]; (split; [reflexivity|]); intros d [<-|[<-|[]]]; first [exists 0%nat; split; [lia|reflexivity]|exists 1%nat; split; [lia|reflexivity]|exists 2%nat; split; [lia|reflexivity]|exists 3%nat; split; [lia|reflexivity]|exists 4%nat; split; [lia|reflexivity]].
Qed.
Lemma p_layout : layout pf byVDIM 5 2.
Proof. destruct plain_pr. intros [|] r [<-|[]]; (split; [assumption|]); repeat split. Qed.
Lemma p_fit : all_fit pf.
Proof.
  intros Ig g G r [<-|[<-|[]]] HG Hr; cbn [pI i_geoms] in HG; (destruct g as [|g]; [|destruct g; discriminate]); injection HG as <-; injection Hr as <-;
    (split; [reflexivity|]; split; [reflexivity|]); cbn; intros el; lia.
Qed.
Lemma p_lens w : length (pLs w) = 10%nat.
Proof. destruct w; cbn [pLs]; unfold nodal; now rewrite tab_length. Qed.
Lemma p_wf : wf pf (5 * 2) (fun w => length (pLs w)).
Proof.
  destruct plain_pr as [P1 P2]. pose proof (plain_ids_ok _ P1) as I1. pose proof (plain_ids_ok _ P2) as I2. cbn [r_num_nodes r_components pr pe] in I1, I2.
  intros Ig [<-|[<-|[]]]; (split; [|split; [|split]]).
  - intros r [<-|[]]. assumption.
  - intros w r. rewrite p_lens. intros [<-|[]]. assumption.
  - reflexivity.
  - repeat constructor; cbn; intuition congruence.
  - intros r [<-|[]]. assumption.
  - intros w r. rewrite p_lens. intros [<-|[]]. assumption.
  - reflexivity.
  - repeat constructor; cbn; intuition congruence.
Qed.
Lemma p_unity : unity pf.
Proof.
  intros Ig G q [<-|[<-|[]]] [<-|[]] Hq; (split; [cbn; lia|]); intros b Hb; cbn [pG is_volume gk_dim1 gk_test es_n es_B tri_space edge_space] in *.
  - destruct b as [|[|[|b]]]; [| | |lia]; cbn [sumn tri_B Nat.eqb]; lra.
  - destruct b as [|[|b]]; [| |lia]; cbn [sumn edge_B Nat.eqb]; lra.
Qed.
Lemma p_spaces : two_spaces 2 pf.
Proof. split; [now split|]. intros Ig [<-|[<-|[]]]; (split; [now exists []|]); intros G [<-|[]]; now repeat split. Qed.
Lemma p_node le j : (le < 4)%nat -> (j < 3)%nat -> node_of pr (nth le [0; 1; 2; 3] 0)%nat j = pn le j.
Proof. intros Hl Hj. destruct le as [|[|[|[|le]]]]; [| | | |lia]; (destruct j as [|[|[|j]]]; [| | |lia]); reflexivity. Qed.
Lemma p_iso : isoparametric 2 pf ppos pjac px.
Proof.
  intros k Ig g G r le q E1 E2 E3 Hle Hq. destruct k as [|[|k]]; [| |destruct k; discriminate]; injection E1 as <-; (destruct g as [|g]; [|destruct g; discriminate]); injection E2 as <-; injection E3 as <-;
    cbn [pG is_volume gk_elems length gk_nq gk_dim1] in *; unfold field_at, interpolate; cbn [pG is_volume gk_test gk_elems es_n es_B tri_space edge_space sumn].
  - rewrite !p_node by lia. split.
    + intros i Hi. cbn [tri_B ppos]. ring.
    + intros i j Hi Hj. destruct j as [|[|j]]; [| |lia]; cbn [tri_B pjac]; ring.
  - assert (le = 0%nat) by lia. subst le. change (node_of pe (nth 0 [0%nat] 0%nat) 0) with 0%nat. change (node_of pe (nth 0 [0%nat] 0%nat) 1) with 1%nat. split.
    + intros i Hi. cbn [edge_B ppos]. ring.
    + intros i j Hi Hj. assert (j = 0%nat) by lia. subst j. cbn [edge_B pjac]. ring.
Qed.
Lemma p_inv le g q : (le < 4)%nat -> exists K, invn 2 (pjac 0 g le q) = Some K.
Proof.
  intros H. apply invn_works; [now left|]. unfold detn, det2, pjac. cbn [Nat.eqb].
  destruct le as [|[|[|[|le]]]]; [| | | |lia]; unfold pn; cbn [nth px]; lra.
Qed.
Lemma p_linear : linear_mesh 2 pf pjac 1 (sqrt 5).
Proof.
  intros k Ig g G E1 E2 Ed. destruct k as [|[|k]]; [| |destruct k; discriminate]; injection E1 as <-; (destruct g as [|g]; [|destruct g; discriminate]); injection E2 as <-; [|discriminate].
  cbn [pG is_volume gk_elems length gk_nq]. split.
  - exists (fun _ _ => / 3). cbn [pG is_volume gk_test gk_nq gk_w es_n es_B tri_space]. split; [discriminate|]. split.
    + intros l q b Hl _ Hb. destruct l as [|[|[|l]]]; [| | |lia]; (destruct b as [|[|b]]; [| |lia]); reflexivity.
    + intros a b c I [E|[]]. injection E as <- <- <- <-. cbn [sumn pow]. field.
  - intros le q Hle _. destruct (p_inv le 0 q Hle) as (K & ->). discriminate.
Qed.
Lemma p_evaluates : exists L m', evaluate pf 0 None false pLs (5 * 2) ex_mem = Ok (L, m').
Proof. destruct (evaluate_spec pf 0 None false pLs (5 * 2) ex_mem p_wf) as (L & A & _). eauto. Qed.
Lemma p_affine : affine 2 2 5 pA pc px (nodal_values byVDIM 5 2 (pLs 0)).
Proof. intros a i Ha Hi. unfold nodal_values. cbn [pLs]. rewrite nodal_nth by auto. reflexivity. Qed.
Lemma p_rest : forall a i, (a < 5)%nat -> (i < 2)%nat -> nodal_values byVDIM 5 2 (pLs 1) a i = 0.
Proof. intros a i Ha Hi. unfold nodal_values. cbn [pLs]. now rewrite nodal_nth. Qed.
Lemma p_dx H : meq 2 H pA -> exists B, invn 2 (madd (madd (mscal 0 H) ident) H) = Some B.
Proof.
  intros E. apply invn_works; [now left|]. unfold detn, det2, madd, mscal, ident. cbn [Nat.eqb]. rewrite !E by lia. cbn [pA]. lra.
Qed.
Lemma p_residual : solid_residual 2 pf 0 pLs ex_mem pterms ppos pjac.
Proof.
  intros k Ig g G le q E1 E2 Hle Hq. assert (E1' := E1). assert (E2' := E2). destruct k as [|[|k]]; [| |destruct k; discriminate]; injection E1 as <-; (destruct g as [|g]; [|destruct g; discriminate]); injection E2 as <-;
    cbn [pG is_volume gk_elems length gk_nq] in Hle, Hq.
  - assert (D : dim23 2) by (now left). destruct (p_inv le 0 q Hle) as (K & EK).
    set (u := qf_inputs _ 0 (Es_of pf pLs _) le q 0%nat). set (a := qf_inputs _ 0 (Es_of pf pLs _) le q 1%nat).
    assert (EH : exists H, grad_phys 2 (pjac 0 0 le q) u = Some H) by (rewrite (grad_phys_at 2 _ K u EK); eauto). destruct EH as (H & EH).
    assert (HA : meq 2 H pA).
    { intros i j Hi Hj. refine (grad_affine 2 2 pA _ K u H D EK _ EH i j Hi Hj). intros i2 k2 Hi2 Hk2. unfold u.
      rewrite (argument_nodal 2 pf byVDIM 5 pLs 0%nat 0 _ 0 _ pr le q i2 (S k2) p_fit p_layout p_spaces (le_S _ _ (le_n _)) E1' E2' eq_refl Hle Hi2).
      change (fun a0 c0 => nth (dof_number byVDIM 5 2 a0 c0) (pLs 0%nat) 0) with (nodal_values byVDIM 5 2 (pLs 0%nat)).
      rewrite (affine_field 2 2 pf byVDIM 5 pA pc px _ 0 _ 0 _ pr le q i2 k2 p_fit p_layout p_unity p_affine E1' E2' eq_refl Hle Hq Hi2) by (cbn; lia).
      destruct (p_iso 0%nat _ 0%nat _ pr le q E1' E2' eq_refl Hle Hq) as [_ HJ]. apply sumn_ext. intros d Hd. rewrite HJ by (cbn; lia). reflexivity. }
    destruct (p_dx H HA) as (B & EB).
    assert (EX : exists p out, solid_point 2 (SMaterial true 3 (fun (_ : unit) H => Some (small_strain H))) 0 (ppos 0 0 le q) (pjac 0 0 le q) u a tt = Some p /\ point_out 2 p = Some out).
    { cbn [solid_point]. rewrite EH. unfold flux. rewrite EB. destruct (invn_some 2 _ K D EK) as (_ & _ & Hd).
      destruct (invn_works 2 (transpose (pjac 0 0 le q)) D) as (KT & EKT); [now rewrite detn_transpose|].
      eexists _, _. split; [reflexivity|]. unfold point_out, physical_to_parent. rewrite EKT. reflexivity. }
    destruct EX as (p & out & Ep & Eo). exists (SMaterial true 3 (fun _ H => Some (small_strain H))), p, out. split; [reflexivity|]. split; [exact Ep|]. split; [exact Eo|]. split; [reflexivity|].
    intros i b _ _. unfold qf_out. cbn [pG gk_qf fst]. fold u a. unfold out_of. now rewrite Ep, Eo.
  - assert (le = 0%nat) by lia. assert (q = 0%nat) by lia. subst le q.
    assert (EN : vnorm 2 (crossn 2 (pjac 1 0 0 0)) = 1).
    { unfold vnorm, crossn, pjac. cbn [Nat.eqb sumn px]. replace (0 + (0 - 0) * (0 - 0) + - (1 - 0) * - (1 - 0)) with 1 by ring. apply sqrt_1. }
    set (u := qf_inputs _ 0 (Es_of pf pLs _) 0 0 0%nat). set (a := qf_inputs _ 0 (Es_of pf pLs _) 0 0 1%nat).
    assert (EX : exists p out, solid_point 2 (STraction (fun X nu t i => nu i)) 0 (ppos 1 0 0 0) (pjac 1 0 0 0) u a tt = Some p /\ point_out 2 p = Some out).
    { cbn [solid_point]. cbv zeta. rewrite EN. destruct (Req_EM_T 1 0) as [E|_]; [lra|]. eexists _, _. split; reflexivity. }
    destruct EX as (p & out & Ep & Eo). exists (STraction (fun X nu t i => nu i)), p, out. split; [reflexivity|]. split; [exact Ep|]. split; [exact Eo|]. split; [reflexivity|].
    intros i b _ _. unfold qf_out. cbn [pG gk_qf fst]. fold u a. unfold out_of. now rewrite Ep, Eo.
Qed.
Lemma p_responds : exists P, List.Forall (responds 2 pA P) pterms.
Proof.
  assert (D : dim23 2) by (now left). destruct (p_dx pA (fun i j _ _ => eq_refl)) as (B & EB).
  assert (EF : exists P, flux 2 true (small_strain pA) pA = Some P) by (unfold flux; rewrite EB; eauto). destruct EF as (P & EF). exists P.
  constructor; [|constructor; [exact I|constructor]]. apply (stateless 2 true 3 (fun H => Some (small_strain H)) pA (small_strain pA) P D); [|reflexivity|exact EF].
  intros H H' s E Es. injection Es as <-. eexists. split; [reflexivity|]. intros i j Hi Hj. unfold small_strain, mscal, madd, transpose. now rewrite !E.
Qed.
Lemma p_off : off_surface 2 pf 4.
Proof.
  intros Ig g G r le j [<-|[<-|[]]] E2 E3 Ed Hle Hj; (destruct g as [|g]; [|destruct g; discriminate]); injection E2 as <-; injection E3 as <-; [discriminate|].
  cbn [pG is_volume gk_elems length gk_test es_n edge_space] in *. assert (le = 0%nat) by lia. subst le. destruct j as [|[|j]]; [discriminate|discriminate|lia].
Qed.
Lemma p_faces : all_faces 2 pf 4 = [Edge false 1; Edge true 0; Edge false 2; Edge true 1; Edge false 3; Edge true 2; Edge false 0; Edge true 3].
Proof. reflexivity. Qed.
Lemma p_closed : Permutation (all_faces 2 pf 4) (map flip (all_faces 2 pf 4)).
Proof.
  rewrite p_faces. cbn [map flip negb]. apply NoDup_Permutation.
  - repeat constructor; cbn; intuition congruence.
  - repeat constructor; cbn; intuition congruence.
  - intros p. cbn. tauto.
Qed.

(** eight hexes around node 13 of a block with 3 x 3 x 3 nodes *)
Definition face_eq : forall p q : face, {p = q} + {p <> q}.
Proof. repeat decide equality. Defined.
Definition lattice (e l : nat) : nat :=
  ((e mod 2 + l mod 2) + 3 * ((e / 2) mod 2 + (l / 2) mod 2) + 9 * (e / 4 + l / 4))%nat.
Definition block_faces : list face := flat_map (fun e => around 3 8 13 (lattice e)) (seq 0 8).
Lemma nodup_dec (l : list face) : nodup face_eq l = l -> NoDup l.
Proof. intros <-. apply NoDup_nodup. Qed.
Lemma incl_dec (l m : list face) : forallb (fun p => if in_dec face_eq p m then true else false) l = true -> incl l m.
Proof. intros H p Hp. apply (proj1 (forallb_forall _ _) H) in Hp. now destruct (in_dec face_eq p m). Qed.
Lemma block_closed : length block_faces = 24%nat /\ Permutation block_faces (map flip block_faces).
Proof.
  split; [reflexivity|]. apply NoDup_Permutation.
  - apply nodup_dec. vm_compute. reflexivity.
  - apply nodup_dec. vm_compute. reflexivity.
  - assert (A : incl block_faces (map flip block_faces)) by (apply incl_dec; vm_compute; reflexivity).
    assert (B : incl (map flip block_faces) block_faces) by (apply incl_dec; vm_compute; reflexivity).
    intros p. split; [apply A|apply B].
Qed.
