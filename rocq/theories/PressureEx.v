(** * The square of four triangles under a pressure all around: non-vacuity witness for C85 *)
From Coq Require Import NArith ZArith Reals List Lia Lra Bool Permutation.
From Verif Require Import Prelude DofCodec Sums Restriction Kernels FunctionalModel Assembly Tensor MatAlg Materials ShapeAware ShapeDefs ShapeTensor WeakForm WeakFormFacts WeakFormPhysics WeakFormWork WeakFormEx EnergySolid FrameResidual PatchTest PatchMesh PatchGeom PatchLoad PatchSkin PatchEx PatchLoadEx Pressure PressureRun PressureBody.
Import ListNotations.
Local Open Scope R_scope.

(** the mesh and the displacements of PatchLoadEx.v; the pressure on the deformed edges is the time *)
Definition bT (k : nat) : solid_term unit := match k with O => SMaterial true 3 (fun _ H => Some (small_strain H)) | _ => SPressure true (fun _ t => t) end.
Definition bG (k : nat) : gkernel unit :=
  let vol := is_volume (bT k) in
  {| gk_elems := [0; 1; 2; 3]%nat; gk_dim1 := if vol then 3%nat else 2%nat; gk_nq := 1; gk_w := fun _ => if vol then / 2 else 1;
     gk_test := if vol then tri_space 2 else edge_space 2; gk_trial := fun _ => if vol then tri_space 2 else edge_space 2;
     gk_qf := fun le q t v st => (out_of (solid_point 2 (bT k) t (lpos k 0 le q) (ljac k 0 le q) (v 0%nat) (v 1%nat) tt), st); gk_ad := fun s le q t v st => fun _ _ _ _ => 0 |}.
Definition bI (k : nat) : integral unit := {| i_type := match k with O => Elements | _ => BoundaryElements end; i_active := [0%nat; 1%nat]; i_geoms := [bG k] |}.
Definition bf : functional unit := {| f_test := fun dt => match dt with Elements => [pr] | BoundaryElements => [le4] end; f_trial := fun _ dt => match dt with Elements => [pr] | BoundaryElements => [le4] end;
  f_integrals := [bI 0; bI 1] |}.

Lemma b_layout : layout bf byVDIM 5 2.
Proof. destruct plain_pr as [P _]. assert (Q := plain_le). intros [|] r [<-|[]]; (split; [assumption|]); repeat split. Qed.
Lemma b_fit : all_fit bf.
Proof.
  intros Ig g G r [<-|[<-|[]]] HG Hr; cbn [bI i_geoms] in HG; (destruct g as [|g]; [|destruct g; discriminate]); injection HG as <-; injection Hr as <-;
    (split; [reflexivity|]; split; [reflexivity|]); cbn; intros el; lia.
Qed.
Lemma b_wf : wf bf (5 * 2) (fun w => length (pLs w)).
Proof.
  destruct plain_pr as [P1 _]. pose proof (plain_ids_ok _ P1) as I1. pose proof (plain_ids_ok _ plain_le) as I2. cbn [r_num_nodes r_components pr le4] in I1, I2.
  intros Ig [<-|[<-|[]]]; (split; [|split; [|split]]).
  - intros r [<-|[]]. assumption.
  - intros w r. rewrite p_lens. intros [<-|[]]. assumption.
  - reflexivity.
  - repeat constructor; cbn; intuition congruence.
  - intros r [<-|[]]. assumption.
  - intros w r. rewrite p_lens. intros [<-|[]]. assumption.
  - reflexivity.
  - repeat constructor; cbn; intuition congruence.
Qed.
Lemma b_unity : unity bf.
Proof.
  intros Ig G q [<-|[<-|[]]] [<-|[]] Hq; (split; [cbn; lia|]); intros b Hb; cbn [bG bT is_volume gk_dim1 gk_test es_n es_B tri_space edge_space] in *.
  - destruct b as [|[|[|b]]]; [| | |lia]; cbn [sumn tri_B Nat.eqb]; lra.
  - destruct b as [|[|b]]; [| |lia]; cbn [sumn edge_B Nat.eqb]; lra.
Qed.
Lemma b_spaces : two_spaces 2 bf.
Proof. split; [now split|]. intros Ig [<-|[<-|[]]]; (split; [now exists []|]); intros G [<-|[]]; now repeat split. Qed.
Lemma b_iso : isoparametric 2 bf lpos ljac px.
Proof.
  intros k Ig g G r le q E1 E2 E3 Hle Hq. destruct k as [|[|k]]; [| |destruct k; discriminate]; injection E1 as <-; (destruct g as [|g]; [|destruct g; discriminate]); injection E2 as <-; injection E3 as <-;
    cbn [bG bT is_volume gk_elems length gk_nq gk_dim1] in *; unfold field_at, interpolate; cbn [bG bT is_volume gk_test gk_elems es_n es_B tri_space edge_space sumn].
  - rewrite !p_node by lia. split.
    + intros i Hi. cbn [tri_B lpos]. ring.
    + intros i j Hi Hj. destruct j as [|[|j]]; [| |lia]; cbn [tri_B ljac]; ring.
  - rewrite !l_node by lia. split.
    + intros i Hi. cbn [edge_B lpos]. ring.
    + intros i j Hi Hj. assert (j = 0%nat) by lia. subst j. cbn [edge_B ljac]. ring.
Qed.
Lemma b_linear : linear_mesh 2 bf ljac 1 (sqrt 5).
Proof.
  intros k Ig g G E1 E2 Ed. destruct k as [|[|k]]; [| |destruct k; discriminate]; injection E1 as <-; (destruct g as [|g]; [|destruct g; discriminate]); injection E2 as <-; [|discriminate].
  cbn [bG bT is_volume gk_elems length gk_nq]. split.
  - exists (fun _ _ => / 3). cbn [bG bT is_volume gk_test gk_nq gk_w es_n es_B tri_space]. split; [discriminate|]. split.
    + intros l q b Hl _ Hb. destruct l as [|[|[|l]]]; [| | |lia]; (destruct b as [|[|b]]; [| |lia]); reflexivity.
    + intros a b c I [E|[]]. injection E as <- <- <- <-. cbn [sumn pow]. field.
  - intros le q Hle _. destruct (l_inv le 0 q Hle) as (K & ->). discriminate.
Qed.
Lemma b_skin : linear_skin 2 bf 1 (sqrt 5).
Proof.
  intros Ig G [<-|[<-|[]]] [<-|[]] Ed; [discriminate|]. exists (fun _ _ => / 2). cbn [bG bT is_volume gk_test gk_nq gk_w es_n es_B edge_space]. split; [discriminate|]. split; [|split].
  - intros l q Hl _. destruct l as [|[|l]]; [| |lia]; cbn; lra.
  - intros l q b Hl _ Hb. assert (b = 0%nat) by lia. subst b. destruct l as [|[|l]]; [| |lia]; reflexivity.
  - intros a b I [E|[E|[]]]; injection E as <- <- <-; cbn [sumn pow]; field.
Qed.
Lemma b_residual t : solid_residual 2 bf t pLs ex_mem [bT 0; bT 1] lpos ljac.
Proof.
  intros k Ig g G le q E1 E2 Hle Hq. assert (E1' := E1). assert (E2' := E2). destruct k as [|[|k]]; [| |destruct k; discriminate]; injection E1 as <-; (destruct g as [|g]; [|destruct g; discriminate]); injection E2 as <-;
    cbn [bG bT is_volume gk_elems length gk_nq] in Hle, Hq.
  - assert (D : dim23 2) by (now left). destruct (l_inv le 0 q Hle) as (K & EK).
    set (u := qf_inputs _ 0 (Es_of bf pLs _) le q 0%nat). set (a := qf_inputs _ 0 (Es_of bf pLs _) le q 1%nat).
    assert (EH : exists H, grad_phys 2 (ljac 0 0 le q) u = Some H) by (rewrite (grad_phys_at 2 _ K u EK); eauto). destruct EH as (H & EH).
    assert (HA : meq 2 H pA).
    { intros i j Hi Hj. refine (grad_affine 2 2 pA _ K u H D EK _ EH i j Hi Hj). intros i2 k2 Hi2 Hk2. unfold u.
      rewrite (argument_nodal 2 bf byVDIM 5 pLs 0%nat 0 _ 0 _ pr le q i2 (S k2) b_fit b_layout b_spaces (le_S _ _ (le_n _)) E1' E2' eq_refl Hle Hi2).
      change (fun a0 c0 => nth (dof_number byVDIM 5 2 a0 c0) (pLs 0%nat) 0) with (nodal_values byVDIM 5 2 (pLs 0%nat)).
      rewrite (affine_field 2 2 bf byVDIM 5 pA pc px _ 0 _ 0 _ pr le q i2 k2 b_fit b_layout b_unity p_affine E1' E2' eq_refl Hle Hq Hi2) by (cbn; lia).
      destruct (b_iso 0%nat _ 0%nat _ pr le q E1' E2' eq_refl Hle Hq) as [_ HJ]. apply sumn_ext. intros d Hd. rewrite HJ by (cbn; lia). reflexivity. }
    destruct (p_dx H HA) as (B & EB).
    assert (EX : exists p out, solid_point 2 (bT 0) t (lpos 0 0 le q) (ljac 0 0 le q) u a tt = Some p /\ point_out 2 p = Some out).
    { cbn [solid_point bT]. rewrite EH. unfold flux. rewrite EB. destruct (invn_some 2 _ K D EK) as (_ & _ & Hd).
      destruct (invn_works 2 (transpose (ljac 0 0 le q)) D) as (KT & EKT); [now rewrite detn_transpose|].
      eexists _, _. split; [reflexivity|]. unfold point_out, physical_to_parent. rewrite EKT. reflexivity. }
    destruct EX as (p & out & Ep & Eo). exists (bT 0), p, out. split; [reflexivity|]. split; [exact Ep|]. split; [exact Eo|]. split; [reflexivity|].
    intros i b _ _. unfold qf_out. cbn [bG gk_qf fst]. fold u a. unfold out_of. now rewrite Ep, Eo.
  - assert (q = 0%nat) by lia. subst q.
    assert (EN : vnorm 2 (crossn 2 (ljac 1 0 le 0)) = 1).
    { unfold vnorm, crossn, ljac. destruct le as [|[|[|[|le]]]]; [| | | |lia]; unfold ln; cbn [Nat.eqb sumn px nth];
        match goal with |- sqrt ?e = 1 => replace e with 1 by ring end; apply sqrt_1. }
    set (u := qf_inputs _ 0 (Es_of bf pLs _) le 0 0%nat). set (a := qf_inputs _ 0 (Es_of bf pLs _) le 0 1%nat).
    assert (EX : exists p out, solid_point 2 (bT 1) t (lpos 1 0 le 0) (ljac 1 0 le 0) u a tt = Some p /\ point_out 2 p = Some out).
    { cbn [solid_point bT]. cbv zeta. rewrite EN. destruct (Req_EM_T 1 0) as [E|_]; [lra|]. eexists _, _. split; reflexivity. }
    destruct EX as (p & out & Ep & Eo). exists (bT 1), p, out. split; [reflexivity|]. split; [exact Ep|]. split; [exact Eo|]. split; [reflexivity|].
    intros i b _ _. unfold qf_out. cbn [bG gk_qf fst]. fold u a. unfold out_of. now rewrite Ep, Eo.
Qed.
Lemma b_evaluates t : exists L m', evaluate bf t None false pLs (5 * 2) ex_mem = Ok (L, m').
Proof. destruct (evaluate_spec bf t None false pLs (5 * 2) ex_mem b_wf) as (L & A & _). eauto. Qed.
Lemma b_raised : List.Forall (raised 2 true 0 5 0 5) [bT 0; bT 1].
Proof. constructor; [exact Logic.I|]. constructor; [|constructor]. split; [reflexivity|]. intros X. split; reflexivity. Qed.
Lemma b_pressed : pressed 2 bf [bT 0; bT 1] = [[0; 1]; [1; 2]; [2; 3]; [3; 0]]%nat.
Proof. vm_compute. reflexivity. Qed.
Lemma b_closed : closed 2 (pressed 2 bf [bT 0; bT 1]).
Proof. rewrite b_pressed. cbn [closed flat_map firstn skipn app]. change (Permutation ([0] ++ [1; 2; 3])%nat ([1; 2; 3] ++ [0])%nat). apply Permutation_app_comm. Qed.
Lemma b_fills a : (a < 5)%nat -> fills 2 bf [bT 0; bT 1] [0%nat] a.
Proof.
  intros Ha. unfold fills. cbv zeta. destruct a as [|[|[|[|[|a]]]]]; [| | | | |lia]; apply NoDup_Permutation;
    try (apply nodup_dec; vm_compute; reflexivity);
    match goal with |- forall p, In p ?l <-> In p ?m => assert (A : incl l m) by (apply incl_dec; vm_compute; reflexivity); assert (B : incl m l) by (apply incl_dec; vm_compute; reflexivity) end;
    intros p; split; [apply A|apply B|apply A|apply B|apply A|apply B|apply A|apply B|apply A|apply B].
Qed.
(** the deformed square encloses twice the area *)
Lemma b_volume : volume_in 2 (node_position 2 pLs byVDIM 5 true px) (pressed 2 bf [bT 0; bT 1]) = 2.
Proof.
  rewrite b_pressed. assert (P : forall a c, (a < 5)%nat -> (c < 2)%nat -> node_position 2 pLs byVDIM 5 true px a c = px a c + (sumn 2 (fun d => pA c d * px a d) + 7)).
  { intros a c Ha Hc. unfold node_position. f_equal. exact (nodal_nth byVDIM 5 2 (fun a0 i => sumn 2 (fun d => pA i d * px a0 d) + pc i) a c Ha Hc). }
  unfold volume_in. cbn [suml cone]. rewrite !P by lia. clear P. cbn [sumn pA px]. field.
Qed.
(** surfaces in space: the unit cube and the unit tetrahedron; a cube without its lid is not closed *)
Definition cube_faces : list (list nat) := [[0; 2; 3; 1]; [4; 5; 7; 6]; [0; 1; 5; 4]; [2; 6; 7; 3]; [0; 4; 6; 2]; [1; 3; 7; 5]]%nat.
Definition cube_corner (a i : nat) : R := match i with O => if Nat.odd a then 1 else 0 | S O => if Nat.odd (Nat.div2 a) then 1 else 0 | _ => if Nat.leb 4 a then 1 else 0 end.
Definition tet_faces : list (list nat) := [[0; 2; 1]; [0; 1; 3]; [0; 3; 2]; [1; 2; 3]]%nat.
Definition tet_corner (a i : nat) : R := if Nat.eqb a (S i) then 1 else 0.
Lemma edge_dec (x y : nat * nat) : {x = y} + {x <> y}.
Proof. decide equality; apply Nat.eq_dec. Defined.
Lemma same_edges (l m : list (nat * nat)) : (if list_eq_dec edge_dec (nodup edge_dec l) l then true else false) = true -> (if list_eq_dec edge_dec (nodup edge_dec m) m then true else false) = true ->
  forallb (fun e => if in_dec edge_dec e m then true else false) l = true -> forallb (fun e => if in_dec edge_dec e l then true else false) m = true -> Permutation l m.
Proof.
  intros A B C D. apply NoDup_Permutation.
  - destruct (list_eq_dec edge_dec (nodup edge_dec l) l) as [E|]; [|discriminate]. rewrite <- E. apply NoDup_nodup.
  - destruct (list_eq_dec edge_dec (nodup edge_dec m) m) as [E|]; [|discriminate]. rewrite <- E. apply NoDup_nodup.
  - intros e. rewrite forallb_forall in C, D. split; intros H; [specialize (C e H); destruct (in_dec edge_dec e m); congruence|specialize (D e H); destruct (in_dec edge_dec e l); congruence].
Qed.
Lemma cube_closed : closed 3 cube_faces /\ volume_in 3 cube_corner cube_faces = 1 /\ closed 3 tet_faces /\ volume_in 3 tet_corner tet_faces = 1 / 6 /\ ~ closed 3 (tl cube_faces).
Proof.
  split; [apply same_edges; vm_compute; reflexivity|]. split.
  { unfold volume_in, cube_faces, cone, tet. cbn [suml]. unfold cube_corner. cbn [Nat.odd Nat.even negb Nat.div2 Nat.leb]. field. }
  split; [apply same_edges; vm_compute; reflexivity|]. split.
  { unfold volume_in, tet_faces, cone, tet. cbn [suml]. unfold tet_corner. cbn [Nat.eqb]. field. }
  intros C. assert (H : In (2, 0)%nat (flat_map rim (tl cube_faces))) by (vm_compute; tauto).
  apply (Permutation_in _ C) in H. revert H. vm_compute. intuition congruence.
Qed.
