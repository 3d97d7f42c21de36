(** * A triangle with one loaded edge: non-vacuity witnesses for C57 *)
From Coq Require Import NArith ZArith Reals List Lia Lra Bool.
From Verif Require Import Prelude DofCodec Sums Restriction Kernels FunctionalModel Assembly Tensor MatAlg Materials ShapeAware WeakForm WeakFormFacts WeakFormPhysics.
Import ListNotations.
Local Open Scope R_scope.

(** nodes (0,0), (1,0), (0,1); one quadrature point in the triangle and one on the edge from node 0 to node 1 *)
Definition tri_r (c : nat) : restriction :=
  {| r_ordering := byVDIM; r_components := c; r_num_nodes := 3; r_nodes_per_elem := 3; r_dofs := [[mk_dof 0 0 0; mk_dof 1 0 0; mk_dof 2 0 0]]%N |}.
Definition edge_r (c : nat) : restriction :=
  {| r_ordering := byVDIM; r_components := c; r_num_nodes := 3; r_nodes_per_elem := 2; r_dofs := [[mk_dof 0 0 0; mk_dof 1 0 0]]%N |}.
Definition tri_B (k q b : nat) : R :=
  match b with O => / 3 | S O => match k with O => -1 | S O => 1 | _ => 0 end | _ => match k with O => -1 | S (S O) => 1 | _ => 0 end end.
Definition edge_B (k q b : nat) : R := match b with O => / 2 | _ => match k with O => -1 | _ => 1 end end.
Definition tri_space (c : nat) : elem_space := {| es_c := c; es_n := 3; es_B := tri_B |}.
Definition edge_space (c : nat) : elem_space := {| es_c := c; es_n := 2; es_B := edge_B |}.
Definition tri_pos (vol : bool) : vec := fun i => if vol then / 3 else match i with O => / 2 | _ => 0 end.
Definition tri_jac (vol : bool) : mat := if vol then ident else fun i j => match i with O => 1 | _ => 0 end.
Definition out_of (p : option point) : slots :=
  match p with Some p => match point_out 2 p with Some s => s | None => fun _ _ => 0 end | None => fun _ _ => 0 end.
Definition ex_kernel (c : nat) (vol : bool) (qf : R -> slots -> slots -> slots) : gkernel unit :=
  {| gk_elems := [0%nat]; gk_dim1 := if vol then 3%nat else 2%nat; gk_nq := 1; gk_w := fun _ => if vol then / 2 else 1;
     gk_test := if vol then tri_space c else edge_space c; gk_trial := fun _ => if vol then tri_space c else edge_space c;
     gk_qf := fun le q t v st => (qf t (v 0%nat) (v 1%nat), st); gk_ad := fun s le q t v st => fun _ _ _ _ => 0 |}.
Definition ex_integral (c : nat) (vol : bool) qf : integral unit :=
  {| i_type := if vol then Elements else BoundaryElements; i_active := [0%nat; 1%nat]; i_geoms := [ex_kernel c vol qf] |}.
Definition ex_restr (c : nat) (dt : dtype) : list restriction := match dt with Elements => [tri_r c] | BoundaryElements => [edge_r c] end.
Definition ex_functional (c : nat) (ints : list (bool * (R -> slots -> slots -> slots))) : functional unit :=
  {| f_test := ex_restr c; f_trial := fun _ => ex_restr c; f_integrals := map (fun p => ex_integral c (fst p) (snd p)) ints |}.
Definition ex_mem : mem unit := {| m_q := fun _ _ _ _ => tt; m_d := fun _ _ _ _ _ => None |}.

Definition solid_terms : list (solid_term unit) :=
  [SMaterial true 3 (fun _ H => Some (small_strain H)); SBody (fun X t i => X i + t); STraction (fun X nu t i => nu i); SPressure true (fun X t => 5)].
Definition solid_ints : list (bool * (R -> slots -> slots -> slots)) :=
  map (fun T => (is_volume T, fun t u a => out_of (solid_point 2 T t (tri_pos (is_volume T)) (tri_jac (is_volume T)) u a tt))) solid_terms.
Definition solid_f : functional unit := ex_functional 2 solid_ints.
(** node 1 moved by (1, 0); acceleration (1, 1) everywhere *)
Definition solid_Ls (w : nat) : list R := match w with O => [0; 0; 1; 0; 0; 0] | _ => [1; 1; 1; 1; 1; 1] end.
Definition vol_of (k : nat) : bool := match k with O | S O => true | _ => false end.
Definition ex_pos (k g le q : nat) : vec := tri_pos (vol_of k).
Definition ex_jac (k g le q : nat) : mat := tri_jac (vol_of k).
Definition xref (a c : nat) : R := match a, c with S O, O => 1 | S (S O), S O => 1 | _, _ => 0 end.

Lemma tri_plain c : (c <= 2)%nat -> plain (tri_r c) /\ plain (edge_r c).
Proof.
  intros Hc. split; (split; [|cbn [r_num_nodes r_components tri_r edge_r]; lia]); intros row [<-|[]]; (split; [reflexivity|]); cbn [In tri_r edge_r r_num_nodes].
  - intros d [<-|[<-|[<-|[]]]]; [exists 0%nat|exists 1%nat|exists 2%nat]; (split; [lia|reflexivity]).
  - intros d [<-|[<-|[]]]; [exists 0%nat|exists 1%nat]; (split; [lia|reflexivity]).
Qed.
Lemma ex_layout c ints : (c <= 2)%nat -> layout (ex_functional c ints) byVDIM 3 c.
Proof. intros Hc [|] r [<-|[]]; destruct (tri_plain c Hc); (split; [assumption|]); repeat split. Qed.
Lemma ex_in c ints Ig : In Ig (f_integrals (ex_functional c ints)) -> exists vol qf, Ig = ex_integral c vol qf.
Proof. cbn. intros H. apply in_map_iff in H as ([vol qf] & <- & _). now exists vol, qf. Qed.
Lemma ex_fit c ints : all_fit (ex_functional c ints).
Proof.
  intros Ig g G r HI HG Hr. apply ex_in in HI as (vol & qf & ->). cbn [ex_integral i_geoms] in HG.
  destruct g as [|g]; [|destruct g; discriminate]. injection HG as <-. destruct vol; injection Hr as <-; (split; [reflexivity|]; split; [reflexivity|]);
  intros el [<-|[]]; cbn; lia.
Qed.
Lemma ex_wf c ints (Ls : nat -> list R) : (c <= 2)%nat -> (forall w, length (Ls w) = (3 * c)%nat) -> wf (ex_functional c ints) (3 * c) (fun w => length (Ls w)).
Proof.
  intros Hc HL Ig HI. apply ex_in in HI as (vol & qf & ->). destruct (tri_plain c Hc) as [P1 P2].
  pose proof (plain_ids_ok _ P1) as I1. pose proof (plain_ids_ok _ P2) as I2. cbn [r_num_nodes r_components tri_r edge_r] in I1, I2.
  split; [|split; [|split]].
  - destruct vol; intros r [<-|[]]; assumption.
  - intros w r. rewrite HL. destruct vol; intros [<-|[]]; assumption.
  - destruct vol; reflexivity.
  - repeat constructor; cbn; intuition congruence.
Qed.
Lemma ex_unity c ints : unity (ex_functional c ints).
Proof.
  intros Ig G q HI HG Hq. apply ex_in in HI as (vol & qf & ->). destruct HG as [<-|[]]. split; [destruct vol; cbn; lia|].
  intros b Hb. destruct vol; cbn [ex_kernel gk_dim1 gk_test es_n es_B tri_space edge_space] in *.
  - destruct b as [|[|[|b]]]; [| | |lia]; cbn [sumn tri_B Nat.eqb]; lra.
  - destruct b as [|[|b]]; [| |lia]; cbn [sumn edge_B Nat.eqb]; lra.
Qed.
Lemma ex_same c ints : same_spaces (ex_functional c ints).
Proof. split; [reflexivity|]. intros Ig HI. apply ex_in in HI as (vol & qf & ->). split; [now exists [1%nat]|]. intros G [<-|[]]. reflexivity. Qed.

Lemma ident_inv : exists K, invn 2 ident = Some K.
Proof. apply invn_works; [now left|]. rewrite detn_ident by (now left). lra. Qed.
Lemma ident_inv_t : exists K, invn 2 (transpose ident) = Some K.
Proof. apply invn_works; [now left|]. rewrite detn_transpose, detn_ident by (now left). lra. Qed.
Lemma volume_out s P : exists out, point_out 2 (Volume ident s P) = Some out.
Proof. destruct ident_inv_t as (K & E). unfold point_out, physical_to_parent. rewrite E. eauto. Qed.
Lemma edge_norm : vnorm 2 (crossn 2 (tri_jac false)) = 1.
Proof. unfold vnorm, crossn, tri_jac. cbn [Nat.eqb sumn]. replace (0 + 0 * 0 + - (1) * - (1)) with 1 by ring. apply sqrt_1. Qed.

(** the displacement gradient at the point of the triangle: F = diag(2, 1) *)
Lemma solid_grad u : (forall i j, (i < 2)%nat -> (j < 2)%nat -> u i (S j) = match i, j with O, O => 1 | _, _ => 0 end) ->
  exists H s P, grad_phys 2 ident u = Some H /\ Some (small_strain H) = Some s /\ flux 2 true s H = Some P.
Proof.
  intros Hu. destruct ident_inv as (K & EK). unfold grad_phys, parent_to_physical. rewrite EK. cbn [snd].
  set (H := mmul 2 (fun i j => u i (S j)) K). exists H, (small_strain H).
  assert (D : dim23 2) by (now left). destruct (invn_some 2 ident K D EK) as (IK & _ & _).
  assert (HK : meq 2 K ident). { intros i j Hi Hj. rewrite <- (IK i j Hi Hj). symmetry. now apply mmul_ident_l. }
  assert (HH : forall i j, (i < 2)%nat -> (j < 2)%nat -> H i j = match i, j with O, O => 1 | _, _ => 0 end).
  { intros i j Hi Hj. unfold H. rewrite (rmul_ext 2 _ (fun i j => u i (S j)) K ident i j); [|reflexivity|intros; now apply HK].
    rewrite mmul_ident_r by auto. now apply Hu. }
  unfold flux. destruct (invn_works 2 (madd (madd (mscal 0 H) ident) H) D) as (B & EB).
  - unfold detn. cbn [Nat.eqb]. unfold det2, madd, mscal, ident. rewrite !HH by lia. cbn [Nat.eqb]. lra.
  - rewrite EB. eexists. split; [reflexivity|]. split; reflexivity.
Qed.

Lemma solid_described : solid_residual 2 solid_f 0 solid_Ls ex_mem solid_terms ex_pos ex_jac.
Proof.
  intros k Ig g G le q E1 E2 Hle Hq. unfold solid_f, solid_ints, ex_functional in E1. cbn [f_integrals] in E1. rewrite map_map in E1. cbn [fst snd] in E1.
  destruct (nth_error solid_terms k) as [T|] eqn:ET.
  2:{ apply nth_error_None in ET. rewrite (proj2 (nth_error_None _ _)) in E1; [discriminate|]. rewrite map_length. exact ET. }
  rewrite (map_nth_error _ _ _ ET) in E1. injection E1 as <-. destruct g as [|g]; [|destruct g; discriminate]. injection E2 as <-.
  cbn [ex_kernel gk_elems length gk_nq] in Hle, Hq. assert (le = 0%nat) by lia. assert (q = 0%nat) by lia. subst le q. clear Hle Hq.
  assert (Hvol : vol_of k = is_volume T). { destruct k as [|[|[|[|k]]]]; injection ET as <- || destruct k; try reflexivity; discriminate. }
  set (u := qf_inputs _ 0 _ 0 0 0%nat). set (a := qf_inputs _ 0 _ 0 0 1%nat).
  unfold ex_pos, ex_jac. rewrite Hvol.
  assert (Hex : exists p out, solid_point 2 T 0 (tri_pos (is_volume T)) (tri_jac (is_volume T)) u a tt = Some p /\ point_out 2 p = Some out).
  { destruct k as [|[|[|[|k]]]]; [injection ET as <-|injection ET as <-|injection ET as <-|injection ET as <-|destruct k; discriminate]; cbn [is_volume solid_point]; change (tri_jac true) with ident; cbv zeta.
    - destruct (solid_grad u) as (H & s & P & G1 & G2 & G3).
      { intros i j Hi Hj. unfold u, qf_inputs, interpolate, elem_dofs. cbn [ex_kernel gk_trial gk_elems nth is_volume es_n es_c es_B tri_space Es_of ex_integral i_active i_type map f_trial solid_f ex_functional ex_restr].
        destruct i as [|[|i]]; [| |lia]; destruct j as [|[|j]]; try lia; cbn [sumn tri_B solid_Ls]; vm_compute nth; lra. }
      rewrite G1. cbv beta iota. injection G2 as <-. rewrite G3. destruct (volume_out (fun i => 3 * a i 0%nat) P) as (out & Eo). exists (Volume ident (fun i => 3 * a i 0%nat) P), out. now split.
    - destruct (volume_out (fun i => - 1 * (tri_pos true i + 0)) (fun _ _ => 0)) as (out & Eo). eexists _, out. split; [reflexivity|exact Eo].
    - rewrite edge_norm. destruct (Req_EM_T 1 0) as [E|_]; [lra|]. eexists _, _. split; reflexivity.
    - rewrite edge_norm. destruct (Req_EM_T 1 0) as [E|_]; [lra|]. eexists _, _. split; reflexivity. }
  destruct Hex as (p & out & Ep & Eo). exists T, p, out. split; [reflexivity|]. split; [exact Ep|]. split; [exact Eo|]. split.
  - cbn [ex_kernel gk_dim1]. destruct (is_volume T); reflexivity.
  - intros i b _ _. unfold qf_out. cbn [ex_kernel gk_qf fst]. fold u a. unfold out_of. now rewrite Ep, Eo.
Qed.
Lemma solid_iso : isoparametric 2 solid_f ex_pos ex_jac xref.
Proof.
  intros k Ig g G r le q E1 E2 E3 Hle Hq. unfold solid_f, solid_ints, ex_functional in E1. cbn [f_integrals] in E1. rewrite map_map in E1. cbn [fst snd] in E1.
  destruct (nth_error solid_terms k) as [T|] eqn:ET.
  2:{ apply nth_error_None in ET. rewrite (proj2 (nth_error_None _ _)) in E1; [discriminate|]. rewrite map_length. exact ET. }
  rewrite (map_nth_error _ _ _ ET) in E1. injection E1 as <-. destruct g as [|g]; [|destruct g; discriminate]. injection E2 as <-.
  cbn [ex_kernel gk_elems length gk_nq] in Hle, Hq. assert (le = 0%nat) by lia. assert (q = 0%nat) by lia. subst le q. clear Hle Hq.
  assert (Hvol : vol_of k = is_volume T). { destruct k as [|[|[|[|k]]]]; injection ET as <- || destruct k; try reflexivity; discriminate. }
  unfold ex_pos, ex_jac. rewrite Hvol. clear ET Hvol k. unfold field_at, interpolate.
  assert (N3 : forall j, (j < 3)%nat -> node_of (tri_r 2) 0 j = j) by (intros [|[|[|j]]] Hj; try lia; reflexivity).
  assert (N2 : forall j, (j < 2)%nat -> node_of (edge_r 2) 0 j = j) by (intros [|[|j]] Hj; try lia; reflexivity).
  destruct (is_volume T); injection E3 as <-; cbn [ex_kernel gk_test gk_elems gk_dim1 nth es_n es_B tri_space edge_space sumn tri_pos tri_jac]; rewrite ?N3, ?N2 by lia.
  - split.
    + intros i Hi. destruct i as [|[|i]]; [| |lia]; cbn [xref tri_B]; lra.
    + intros i j Hi Hj. destruct i as [|[|i]]; [| |lia]; destruct j as [|[|j]]; try lia; cbn [xref tri_B ident Nat.eqb]; unfold ident; cbn [Nat.eqb]; lra.
  - split.
    + intros i Hi. destruct i as [|[|i]]; [| |lia]; cbn [xref edge_B]; lra.
    + intros i j Hi Hj. destruct i as [|[|i]]; [| |lia]; destruct j as [|j]; try lia; cbn [xref edge_B]; lra.
Qed.
Lemma solid_mats k on' rho (sigma : unit -> mat -> option mat) : nth_error solid_terms k = Some (SMaterial on' rho sigma) ->
  on' = true /\ forall st H s, sigma st H = Some s -> symmetric 2 s.
Proof.
  intros E. destruct k as [|[|[|[|k]]]]; try discriminate; [|destruct k; discriminate]. injection E as <- _ <-. split; [reflexivity|].
  intros _ H s E. injection E as <-. intros i j _ _. unfold transpose, small_strain, mscal, madd, transpose. ring.
Qed.
Lemma solid_evaluates : exists L' m', evaluate solid_f 0 None false solid_Ls (3 * 2) ex_mem = Ok (L', m').
Proof.
  destruct (evaluate_spec solid_f 0 None false solid_Ls (3 * 2) ex_mem) as (L' & A & _).
  - apply ex_wf; [lia|]. intros [|w]; reflexivity.
  - eauto.
Qed.

(** a heat residual on the same triangle *)
Definition heat_terms : list heat_term :=
  [HMaterial (fun X u H => (2 + u, fun j => - (1 + u * u) * H j)); HSource (fun X t u H => t + u); HFlux (fun X nu t u => nu 1%nat * u)].
Definition heat_ints : list (bool * (R -> slots -> slots -> slots)) :=
  map (fun T => (is_volume_h T, fun t u a => out_of (heat_point 2 T t (tri_pos (is_volume_h T)) (tri_jac (is_volume_h T)) u a))) heat_terms.
Definition heat_f : functional unit := ex_functional 1 heat_ints.
Definition heat_Ls (w : nat) : list R := match w with O => [1; 2; 3] | _ => [1; 1; 4] end.
Definition heat_arg (k w : nat) : slots := fun i b => match nth_error (f_integrals heat_f) k with
  | Some Ig => match nth_error (i_geoms Ig) 0 with Some G => qf_inputs G 0 (Es_of heat_f heat_Ls Ig) 0 0 w i b | None => 0 end | None => 0 end.
Definition heat_grad (k g le q : nat) : mat := match grad_phys 2 ident (heat_arg k 0) with Some H => H | None => fun _ _ => 0 end.
Lemma heat_described : heat_residual 2 heat_f 0 heat_Ls ex_mem heat_terms ex_pos ex_jac heat_grad.
Proof.
  intros k Ig g G le q E1 E2 Hle Hq. pose proof E1 as E1'. unfold heat_f, heat_ints, ex_functional in E1. cbn [f_integrals] in E1. rewrite map_map in E1. cbn [fst snd] in E1.
  destruct (nth_error heat_terms k) as [T|] eqn:ET.
  2:{ apply nth_error_None in ET. rewrite (proj2 (nth_error_None _ _)) in E1; [discriminate|]. rewrite map_length. exact ET. }
  rewrite (map_nth_error _ _ _ ET) in E1. injection E1 as <-. destruct g as [|g]; [|destruct g; discriminate]. injection E2 as <-.
  cbn [ex_kernel gk_elems length gk_nq] in Hle, Hq. assert (le = 0%nat) by lia. assert (q = 0%nat) by lia. subst le q. clear Hle Hq.
  assert (Hvol : vol_of k = is_volume_h T). { destruct k as [|[|[|k]]]; injection ET as <- || destruct k; try reflexivity; discriminate. }
  assert (Harg : heat_arg k 0 = qf_inputs (ex_kernel 1 (is_volume_h T) (fun t u a => out_of (heat_point 2 T t (tri_pos (is_volume_h T)) (tri_jac (is_volume_h T)) u a))) 0
     (Es_of heat_f heat_Ls (ex_integral 1 (is_volume_h T) (fun t u a => out_of (heat_point 2 T t (tri_pos (is_volume_h T)) (tri_jac (is_volume_h T)) u a)))) 0 0 0%nat).
  { unfold heat_arg. rewrite E1'. reflexivity. }
  unfold heat_grad. rewrite Harg. set (u := qf_inputs _ 0 _ 0 0 0%nat). set (a := qf_inputs _ 0 _ 0 0 1%nat).
  unfold ex_pos, ex_jac. rewrite Hvol. destruct ident_inv as (K & EK).
  assert (HG : grad_phys 2 ident u = Some (mmul 2 (fun i j => u i (S j)) K)) by (unfold grad_phys, parent_to_physical; now rewrite EK).
  assert (Hex : exists p out, heat_point 2 T 0 (tri_pos (is_volume_h T)) (tri_jac (is_volume_h T)) u a = Some p /\ point_out 2 p = Some out).
  { destruct k as [|[|[|k]]]; [injection ET as <-|injection ET as <-|injection ET as <-|destruct k; discriminate]; cbn [is_volume_h heat_point]; change (tri_jac true) with ident; cbv zeta.
    - rewrite HG. cbv zeta. match goal with |- exists p out, Some (Volume _ ?s ?P) = _ /\ _ => destruct (volume_out s P) as (out & Eo); exists (Volume ident s P), out end. now split.
    - rewrite HG. match goal with |- exists p out, Some (Volume _ ?s ?P) = _ /\ _ => destruct (volume_out s P) as (out & Eo); exists (Volume ident s P), out end. now split.
    - rewrite edge_norm. destruct (Req_EM_T 1 0) as [E|_]; [lra|]. eexists _, _. split; reflexivity. }
  destruct Hex as (p & out & Ep & Eo). exists T, p, out. split; [reflexivity|]. split; [exact Ep|]. split; [exact Eo|]. split.
  - cbn [ex_kernel gk_dim1]. destruct (is_volume_h T); reflexivity.
  - split.
    + intros ->. unfold tri_jac. rewrite HG. reflexivity.
    + intros b _. unfold qf_out. cbn [ex_kernel gk_qf fst]. fold u a. unfold out_of. now rewrite Ep, Eo.
Qed.
Lemma heat_evaluates : exists L' m', evaluate heat_f 0 None false heat_Ls (3 * 1) ex_mem = Ok (L', m').
Proof.
  destruct (evaluate_spec heat_f 0 None false heat_Ls (3 * 1) ex_mem) as (L' & A & _).
  - apply ex_wf; [lia|]. intros [|w]; reflexivity.
  - eauto.
Qed.
Lemma ex_solid_all : wf solid_f (3 * 2) (fun w => length (solid_Ls w)) /\ all_fit solid_f /\ layout solid_f byVDIM 3 2 /\ unity solid_f /\
  solid_residual 2 solid_f 0 solid_Ls ex_mem solid_terms ex_pos ex_jac /\
  exists L' m', evaluate solid_f 0 None false solid_Ls (3 * 2) ex_mem = Ok (L', m').
Proof.
  split; [apply ex_wf; [lia|intros [|w]; reflexivity]|]. split; [apply ex_fit|]. split; [apply ex_layout; lia|]. split; [apply ex_unity|].
  split; [apply solid_described|apply solid_evaluates].
Qed.
Lemma ex_solid_moments : same_spaces solid_f /\ isoparametric 2 solid_f ex_pos ex_jac xref /\
  (forall k on' rho sigma, nth_error solid_terms k = Some (SMaterial on' rho sigma) -> on' = true /\ forall st H s, sigma st H = Some s -> symmetric 2 s).
Proof. split; [apply ex_same|]. split; [apply solid_iso|apply solid_mats]. Qed.
Lemma ex_heat_all : wf heat_f (3 * 1) (fun w => length (heat_Ls w)) /\ all_fit heat_f /\ layout heat_f byVDIM 3 1 /\ unity heat_f /\
  heat_residual 2 heat_f 0 heat_Ls ex_mem heat_terms ex_pos ex_jac heat_grad /\
  exists L' m', evaluate heat_f 0 None false heat_Ls (3 * 1) ex_mem = Ok (L', m').
Proof.
  split; [apply ex_wf; [lia|intros [|w]; reflexivity]|]. split; [apply ex_fit|]. split; [apply ex_layout; lia|]. split; [apply ex_unity|].
  split; [apply heat_described|apply heat_evaluates].
Qed.

(** pure conduction with a conductivity which depends on the temperature, at steady state *)
Definition cond_mat : vec -> R -> vec -> R * vec := fun X u H => (2, fun j => - (1 + u * u) * H j).
Definition cond_terms : list heat_term := [HMaterial cond_mat].
Definition cond_f : functional unit :=
  ex_functional 1 (map (fun T => (is_volume_h T, fun t u a => out_of (heat_point 2 T t (tri_pos (is_volume_h T)) (tri_jac (is_volume_h T)) u a))) cond_terms).
Definition cond_Ls (w : nat) : list R := match w with O => [1; 2; 3] | _ => [0; 0; 0] end.
Definition cond_arg (w : nat) : slots := fun i b => match nth_error (f_integrals cond_f) 0 with
  | Some Ig => match nth_error (i_geoms Ig) 0 with Some G => qf_inputs G 0 (Es_of cond_f cond_Ls Ig) 0 0 w i b | None => 0 end | None => 0 end.
Definition cond_grad (k g le q : nat) : mat := match grad_phys 2 ident (cond_arg 0) with Some H => H | None => fun _ _ => 0 end.
Lemma cond_described : heat_residual 2 cond_f 0 cond_Ls ex_mem cond_terms ex_pos ex_jac cond_grad.
Proof.
  intros k Ig g G le q E1 E2 Hle Hq. destruct k as [|k]; [|destruct k; discriminate]. injection E1 as <-.
  destruct g as [|g]; [|destruct g; discriminate]. injection E2 as <-.
  cbn [ex_kernel gk_elems length gk_nq] in Hle, Hq. assert (le = 0%nat) by lia. assert (q = 0%nat) by lia. subst le q. clear Hle Hq.
  set (T := HMaterial cond_mat).
  assert (Harg : cond_arg 0 = qf_inputs (ex_kernel 1 true (fun t u a => out_of (heat_point 2 T t (tri_pos true) (tri_jac true) u a))) 0
     (Es_of cond_f cond_Ls (ex_integral 1 true (fun t u a => out_of (heat_point 2 T t (tri_pos true) (tri_jac true) u a)))) 0 0 0%nat) by reflexivity.
  unfold cond_grad. rewrite Harg. change (is_volume_h T) with true. unfold ex_pos, ex_jac. cbn [vol_of]. cbv beta.
  set (u := qf_inputs _ 0 _ 0 0 0%nat). set (a := qf_inputs _ 0 _ 0 0 1%nat). destruct ident_inv as (K & EK).
  assert (HG : grad_phys 2 ident u = Some (mmul 2 (fun i j => u i (S j)) K)) by (unfold grad_phys, parent_to_physical; now rewrite EK).
  assert (Hex : exists p out, heat_point 2 T 0 (tri_pos true) (tri_jac true) u a = Some p /\ point_out 2 p = Some out).
  { unfold T. cbn [heat_point]. change (tri_jac true) with ident. cbv zeta. rewrite HG. cbv zeta.
    match goal with |- exists p out, Some (Volume _ ?s ?P) = _ /\ _ => destruct (volume_out s P) as (out & Eo); exists (Volume ident s P), out end. now split. }
  destruct Hex as (p & out & Ep & Eo). exists T, p, out. split; [reflexivity|]. split; [exact Ep|]. split; [exact Eo|]. split; [reflexivity|]. split.
  - intros _. change (tri_jac true) with ident. rewrite HG. reflexivity.
  - intros b _. change (out_of (heat_point 2 T 0 (tri_pos true) (tri_jac true) u a) 0%nat b = out 0%nat b). unfold out_of. now rewrite Ep, Eo.
Qed.
Lemma ex_cond_all : wf cond_f (3 * 1) (fun w => length (cond_Ls w)) /\ all_fit cond_f /\ layout cond_f byVDIM 3 1 /\
  heat_residual 2 cond_f 0 cond_Ls ex_mem cond_terms ex_pos ex_jac cond_grad /\ same_spaces cond_f /\
  (forall k T, nth_error cond_terms k = Some T -> exists m, T = HMaterial m /\ forall X u g, sumn 2 (fun j => snd (m X u g) j * g j) <= 0) /\
  (forall k Ig g G le q, nth_error (f_integrals cond_f) k = Some Ig -> nth_error (i_geoms Ig) g = Some G -> (le < length (gk_elems G))%nat -> (q < gk_nq G)%nat ->
     0 <= gk_w G q /\ 0 <= detn 2 (ex_jac k g le q) /\ qf_inputs G g (Es_of cond_f cond_Ls Ig) le q 1%nat 0%nat 0%nat = 0) /\
  exists L' m', evaluate cond_f 0 None false cond_Ls (3 * 1) ex_mem = Ok (L', m').
Proof.
  assert (W : wf cond_f (3 * 1) (fun w => length (cond_Ls w))) by (apply ex_wf; [lia|intros [|w]; reflexivity]).
  split; [exact W|]. split; [apply ex_fit|]. split; [apply ex_layout; lia|]. split; [apply cond_described|]. split; [apply ex_same|]. split; [|split].
  - intros k T E. destruct k as [|k]; [|destruct k; discriminate]. injection E as <-. exists cond_mat. split; [reflexivity|].
    intros X u g. cbn [sumn cond_mat snd]. assert (0 <= (1 + u * u) * (g 0%nat * g 0%nat) + (1 + u * u) * (g 1%nat * g 1%nat)); [|lra].
    pose proof (Rle_0_sqr u). pose proof (Rle_0_sqr (g 0%nat)). pose proof (Rle_0_sqr (g 1%nat)). unfold Rsqr in *.
    apply Rplus_le_le_0_compat; apply Rmult_le_pos; lra.
  - intros k Ig g G le q E1 E2 Hle Hq. destruct k as [|k]; [|destruct k; discriminate]. injection E1 as <-.
    destruct g as [|g]; [|destruct g; discriminate]. injection E2 as <-. cbn [ex_kernel gk_elems length gk_nq] in Hle, Hq.
    assert (le = 0%nat) by lia. assert (q = 0%nat) by lia. subst le q. split; [cbn; lra|]. split.
    + unfold ex_jac. cbn [vol_of]. change (tri_jac true) with ident. rewrite detn_ident by (now left). lra.
    + unfold qf_inputs, interpolate, elem_dofs. cbn [ex_kernel gk_trial gk_elems nth is_volume_h es_n es_c es_B tri_space Es_of ex_integral i_active i_type map f_trial cond_f ex_functional fst snd].
      cbn [sumn tri_B cond_Ls]. vm_compute nth. lra.
  - destruct (evaluate_spec cond_f 0 None false cond_Ls (3 * 1) ex_mem W) as (L' & A & _). eauto.
Qed.
