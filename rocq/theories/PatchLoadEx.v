(** * The square of four triangles with all edges loaded: non-vacuity witness for C72 *)
From Coq Require Import NArith ZArith Reals List Lia Lra Bool Permutation.
From Verif Require Import Prelude DofCodec Sums Restriction Kernels FunctionalModel Assembly Tensor MatAlg Materials ShapeAware ShapeDefs ShapeTensor WeakForm WeakFormFacts WeakFormPhysics WeakFormWork WeakFormEx EnergySolid FrameResidual PatchTest PatchMesh PatchGeom PatchLoad PatchSkin PatchEx.
Import ListNotations.
Local Open Scope R_scope.

(** the mesh and the displacements of PatchEx.v; all four edges carry the traction of the uniform stress *)
Definition lP : mat := match flux 2 true (small_strain pA) pA with Some P => P | None => fun _ _ => 0 end.
Definition ltr : vec -> vec -> R -> vec := fun X nu t i => sumn 2 (fun j => lP i j * nu j).
Definition ln (le j : nat) : nat := (nth j (nth le [[0; 1]; [1; 2]; [2; 3]; [3; 0]] []) 0)%nat.
Definition le4 : restriction := {| r_ordering := byVDIM; r_components := 2; r_num_nodes := 5; r_nodes_per_elem := 2;
  r_dofs := [[mk_dof 0 0 0; mk_dof 1 0 0]; [mk_dof 1 0 0; mk_dof 2 0 0]; [mk_dof 2 0 0; mk_dof 3 0 0]; [mk_dof 3 0 0; mk_dof 0 0 0]]%N |}.
Definition lpos (k g le q : nat) : vec := fun i => match k with O => / 3 * (px (pn le 0) i + px (pn le 1) i + px (pn le 2) i) | _ => / 2 * (px (ln le 0) i + px (ln le 1) i) end.
Definition ljac (k g le q : nat) : mat := fun i j => match k with O => px (pn le (S j)) i - px (pn le 0) i | _ => px (ln le 1) i - px (ln le 0) i end.
Definition lT (k : nat) : solid_term unit := match k with O => SMaterial true 3 (fun _ H => Some (small_strain H)) | _ => STraction ltr end.
Definition lG (k : nat) : gkernel unit :=
  let vol := is_volume (lT k) in
  {| gk_elems := [0; 1; 2; 3]%nat; gk_dim1 := if vol then 3%nat else 2%nat; gk_nq := 1; gk_w := fun _ => if vol then / 2 else 1;
     gk_test := if vol then tri_space 2 else edge_space 2; gk_trial := fun _ => if vol then tri_space 2 else edge_space 2;
     gk_qf := fun le q t v st => (out_of (solid_point 2 (lT k) t (lpos k 0 le q) (ljac k 0 le q) (v 0%nat) (v 1%nat) tt), st); gk_ad := fun s le q t v st => fun _ _ _ _ => 0 |}.
Definition lI (k : nat) : integral unit := {| i_type := match k with O => Elements | _ => BoundaryElements end; i_active := [0%nat; 1%nat]; i_geoms := [lG k] |}.
Definition lf : functional unit := {| f_test := fun dt => match dt with Elements => [pr] | BoundaryElements => [le4] end; f_trial := fun _ dt => match dt with Elements => [pr] | BoundaryElements => [le4] end;
  f_integrals := [lI 0; lI 1] |}.

Lemma plain_le : plain le4.
Proof.
  split; [|cbn [r_num_nodes r_components le4]; lia]; intros row; cbn [In r_dofs le4 r_nodes_per_elem r_num_nodes].
  intros [<-|[<-|[<-|[<-|[]]]]]; (split; [reflexivity|]); intros d [<-|[<-|[]]]; first [exists 0%nat; split; [lia|reflexivity]|exists 1%nat; split; [lia|reflexivity]|exists 2%nat; split; [lia|reflexivity]|exists 3%nat; split; [lia|reflexivity]|exists 4%nat; split; [lia|reflexivity]].
Qed.
Lemma l_layout : layout lf byVDIM 5 2.
Proof. destruct plain_pr as [P _]. assert (Q := plain_le). intros [|] r [<-|[]]; (split; [assumption|]); repeat split. Qed.
Lemma l_fit : all_fit lf.
Proof.
  intros Ig g G r [<-|[<-|[]]] HG Hr; cbn [lI i_geoms] in HG; (destruct g as [|g]; [|destruct g; discriminate]); injection HG as <-; injection Hr as <-;
    (split; [reflexivity|]; split; [reflexivity|]); cbn; intros el; lia.
Qed.
Lemma l_wf : wf lf (5 * 2) (fun w => length (pLs w)).
Proof.
  destruct plain_pr as [P1 _]. pose proof (plain_ids_ok _ P1) as I1. pose proof (plain_ids_ok _ plain_le) as I2. cbn [r_num_nodes r_components pr le4] in I1, I2.
  intros Ig [<-|[<-|[]]]; (split; [|split; [|split]]).
  - intros r [<-|[]]. assumption.
  - intros w r. rewrite p_lens. intros [<-|[]]. assumption.
  - reflexivity.
  - repeat constructor; cbn; intuition congruence.
  - intros r [<-|[]]. assumption.
  - intros w r. rewrite p_lens. intros [<-|[]]. assumption.
  - reflexivity.
  - repeat constructor; cbn; intuition congruence.
Qed.
Lemma l_unity : unity lf.
Proof.
  intros Ig G q [<-|[<-|[]]] [<-|[]] Hq; (split; [cbn; lia|]); intros b Hb; cbn [lG lT is_volume gk_dim1 gk_test es_n es_B tri_space edge_space] in *.
  - destruct b as [|[|[|b]]]; [| | |lia]; cbn [sumn tri_B Nat.eqb]; lra.
  - destruct b as [|[|b]]; [| |lia]; cbn [sumn edge_B Nat.eqb]; lra.
Qed.
Lemma l_spaces : two_spaces 2 lf.
Proof. split; [now split|]. intros Ig [<-|[<-|[]]]; (split; [now exists []|]); intros G [<-|[]]; now repeat split. Qed.
Lemma l_node le j : (le < 4)%nat -> (j < 2)%nat -> node_of le4 (nth le [0; 1; 2; 3] 0)%nat j = ln le j.
Proof. intros Hl Hj. destruct le as [|[|[|[|le]]]]; [| | | |lia]; (destruct j as [|[|j]]; [| |lia]); reflexivity. Qed.
Lemma l_iso : isoparametric 2 lf lpos ljac px.
Proof.
  intros k Ig g G r le q E1 E2 E3 Hle Hq. destruct k as [|[|k]]; [| |destruct k; discriminate]; injection E1 as <-; (destruct g as [|g]; [|destruct g; discriminate]); injection E2 as <-; injection E3 as <-;
    cbn [lG lT is_volume gk_elems length gk_nq gk_dim1] in *; unfold field_at, interpolate; cbn [lG lT is_volume gk_test gk_elems es_n es_B tri_space edge_space sumn].
  - rewrite !p_node by lia. split.
    + intros i Hi. cbn [tri_B lpos]. ring.
    + intros i j Hi Hj. destruct j as [|[|j]]; [| |lia]; cbn [tri_B ljac]; ring.
  - rewrite !l_node by lia. split.
    + intros i Hi. cbn [edge_B lpos]. ring.
    + intros i j Hi Hj. assert (j = 0%nat) by lia. subst j. cbn [edge_B ljac]. ring.
Qed.
Lemma l_inv le g q : (le < 4)%nat -> exists K, invn 2 (ljac 0 g le q) = Some K.
Proof. intros H. exact (p_inv le g q H). Qed.
Lemma l_linear : linear_mesh 2 lf ljac 1 (sqrt 5).
Proof.
  intros k Ig g G E1 E2 Ed. destruct k as [|[|k]]; [| |destruct k; discriminate]; injection E1 as <-; (destruct g as [|g]; [|destruct g; discriminate]); injection E2 as <-; [|discriminate].
  cbn [lG lT is_volume gk_elems length gk_nq]. split.
  - exists (fun _ _ => / 3). cbn [lG lT is_volume gk_test gk_nq gk_w es_n es_B tri_space]. split; [discriminate|]. split.
    + intros l q b Hl _ Hb. destruct l as [|[|[|l]]]; [| | |lia]; (destruct b as [|[|b]]; [| |lia]); reflexivity.
    + intros a b c I [E|[]]. injection E as <- <- <- <-. cbn [sumn pow]. field.
  - intros le q Hle _. destruct (l_inv le 0 q Hle) as (K & ->). discriminate.
Qed.
Lemma l_skin : linear_skin 2 lf 1 (sqrt 5).
Proof.
  intros Ig G [<-|[<-|[]]] [<-|[]] Ed; [discriminate|]. exists (fun _ _ => / 2). cbn [lG lT is_volume gk_test gk_nq gk_w es_n es_B edge_space]. split; [discriminate|]. split; [|split].
  - intros l q Hl _. destruct l as [|[|l]]; [| |lia]; cbn; lra.
  - intros l q b Hl _ Hb. assert (b = 0%nat) by lia. subst b. destruct l as [|[|l]]; [| |lia]; reflexivity.
  - intros a b I [E|[E|[]]]; injection E as <- <- <-; cbn [sumn pow]; field.
Qed.
Lemma l_evaluates : exists L m', evaluate lf 0 None false pLs (5 * 2) ex_mem = Ok (L, m').
Proof. destruct (evaluate_spec lf 0 None false pLs (5 * 2) ex_mem l_wf) as (L & A & _). eauto. Qed.
Lemma l_residual : solid_residual 2 lf 0 pLs ex_mem [lT 0; lT 1] lpos ljac.
Proof.
  intros k Ig g G le q E1 E2 Hle Hq. assert (E1' := E1). assert (E2' := E2). destruct k as [|[|k]]; [| |destruct k; discriminate]; injection E1 as <-; (destruct g as [|g]; [|destruct g; discriminate]); injection E2 as <-;
    cbn [lG lT is_volume gk_elems length gk_nq] in Hle, Hq.
  - assert (D : dim23 2) by (now left). destruct (l_inv le 0 q Hle) as (K & EK).
    set (u := qf_inputs _ 0 (Es_of lf pLs _) le q 0%nat). set (a := qf_inputs _ 0 (Es_of lf pLs _) le q 1%nat).
    assert (EH : exists H, grad_phys 2 (ljac 0 0 le q) u = Some H) by (rewrite (grad_phys_at 2 _ K u EK); eauto). destruct EH as (H & EH).
    assert (HA : meq 2 H pA).
    { intros i j Hi Hj. refine (grad_affine 2 2 pA _ K u H D EK _ EH i j Hi Hj). intros i2 k2 Hi2 Hk2. unfold u.
      rewrite (argument_nodal 2 lf byVDIM 5 pLs 0%nat 0 _ 0 _ pr le q i2 (S k2) l_fit l_layout l_spaces (le_S _ _ (le_n _)) E1' E2' eq_refl Hle Hi2).
      change (fun a0 c0 => nth (dof_number byVDIM 5 2 a0 c0) (pLs 0%nat) 0) with (nodal_values byVDIM 5 2 (pLs 0%nat)).
      rewrite (affine_field 2 2 lf byVDIM 5 pA pc px _ 0 _ 0 _ pr le q i2 k2 l_fit l_layout l_unity p_affine E1' E2' eq_refl Hle Hq Hi2) by (cbn; lia).
      destruct (l_iso 0%nat _ 0%nat _ pr le q E1' E2' eq_refl Hle Hq) as [_ HJ]. apply sumn_ext. intros d Hd. rewrite HJ by (cbn; lia). reflexivity. }
    destruct (p_dx H HA) as (B & EB).
    assert (EX : exists p out, solid_point 2 (lT 0) 0 (lpos 0 0 le q) (ljac 0 0 le q) u a tt = Some p /\ point_out 2 p = Some out).
    { cbn [solid_point lT]. rewrite EH. unfold flux. rewrite EB. destruct (invn_some 2 _ K D EK) as (_ & _ & Hd).
      destruct (invn_works 2 (transpose (ljac 0 0 le q)) D) as (KT & EKT); [now rewrite detn_transpose|].
      eexists _, _. split; [reflexivity|]. unfold point_out, physical_to_parent. rewrite EKT. reflexivity. }
    destruct EX as (p & out & Ep & Eo). exists (lT 0), p, out. split; [reflexivity|]. split; [exact Ep|]. split; [exact Eo|]. split; [reflexivity|].
    intros i b _ _. unfold qf_out. cbn [lG gk_qf fst]. fold u a. unfold out_of. now rewrite Ep, Eo.
  - assert (q = 0%nat) by lia. subst q.
    assert (EN : vnorm 2 (crossn 2 (ljac 1 0 le 0)) = 1).
    { unfold vnorm, crossn, ljac. destruct le as [|[|[|[|le]]]]; [| | | |lia]; unfold ln; cbn [Nat.eqb sumn px nth];
        match goal with |- sqrt ?e = 1 => replace e with 1 by ring end; apply sqrt_1. }
    set (u := qf_inputs _ 0 (Es_of lf pLs _) le 0 0%nat). set (a := qf_inputs _ 0 (Es_of lf pLs _) le 0 1%nat).
    assert (EX : exists p out, solid_point 2 (lT 1) 0 (lpos 1 0 le 0) (ljac 1 0 le 0) u a tt = Some p /\ point_out 2 p = Some out).
    { cbn [solid_point lT]. cbv zeta. rewrite EN. destruct (Req_EM_T 1 0) as [E|_]; [lra|]. eexists _, _. split; reflexivity. }
    destruct EX as (p & out & Ep & Eo). exists (lT 1), p, out. split; [reflexivity|]. split; [exact Ep|]. split; [exact Eo|]. split; [reflexivity|].
    intros i b _ _. unfold qf_out. cbn [lG gk_qf fst]. fold u a. unfold out_of. now rewrite Ep, Eo.
Qed.
Lemma l_responds : List.Forall (responds 2 pA lP) [lT 0; lT 1].
Proof.
  assert (D : dim23 2) by (now left). destruct (p_dx pA (fun i j _ _ => eq_refl)) as (B & EB).
  assert (EF : exists P, flux 2 true (small_strain pA) pA = Some P) by (unfold flux; rewrite EB; eauto). destruct EF as (P & EF).
  assert (EL : lP = P) by (unfold lP; now rewrite EF). rewrite EL.
  constructor; [|constructor; [exact I|constructor]]. apply (stateless 2 true 3 (fun H => Some (small_strain H)) pA (small_strain pA) P D); [|reflexivity|exact EF].
  intros H H' s E Es. injection Es as <-. eexists. split; [reflexivity|]. intros i j Hi Hj. unfold small_strain, mscal, madd, transpose. now rewrite !E.
Qed.
Lemma l_pulls : forall a k T, nth_error [lT 0; lT 1] k = Some T -> touches 2 lf k a -> pulls 2 0 pA lP T.
Proof. intros a [|[|k]] T E _; [| |destruct k; discriminate]; injection E as <-; cbn [lT pulls]; [exact I|]. intros X nu i _ _. reflexivity. Qed.
Lemma l_touched : touches 2 lf 1 0.
Proof. exists (lI 1), 0%nat, (lG 1), le4, 0%nat, 0%nat. repeat split; cbn; auto with arith. Qed.
(** every node, inside or on the boundary *)
Lemma l_enclosed a : (a < 5)%nat -> enclosed 2 lf a.
Proof.
  intros Ha. unfold enclosed. cbv zeta. destruct a as [|[|[|[|[|a]]]]]; [| | | | |lia]; apply NoDup_Permutation;
    try (apply nodup_dec; vm_compute; reflexivity);
    match goal with |- forall p, In p ?l <-> In p ?m => assert (A : incl l m) by (apply incl_dec; vm_compute; reflexivity); assert (B : incl m l) by (apply incl_dec; vm_compute; reflexivity) end;
    intros p; split; [apply A|apply B|apply A|apply B|apply A|apply B|apply A|apply B|apply A|apply B].
Qed.
