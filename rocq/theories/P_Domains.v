(** Property theorems C07, C08: domains. *)
From Coq Require Import List ZArith Sorted Arith.
From Verif Require Import Prelude Domains.
Import ListNotations.

(** C07.  Any nested expression of unions, intersections and differences holds exactly the element
    numbers of the set it denotes ([dsem]), sorted and without duplicates, geometry by geometry. *)
Theorem C07_nested_set_expressions :
  forall (n : nat) (e : dexp), dexp_wf n e ->
  dom_dim (deval e) = n /\
  forall g, StronglySorted lt (dom_ids (deval e) g) /\
            (geom_dim g <> n -> dom_ids (deval e) g = []) /\
            (geom_dim g = n -> forall i, In i (dom_ids (deval e) g) <-> dsem e g i).
Proof. exact deval_spec. Qed.
Print Assumptions C07_nested_set_expressions.

Definition ex_dom (l : list nat) : domain :=
  {| dom_dim := 2; dom_kind := Elements; dom_ids := fun g => match g with Square => l | _ => [] end; dom_mfem_ids := fun _ => [] |}.
Example ex_C07 : dexp_wf 2 (DMinus (DOr (DLeaf (ex_dom [0;3;5])) (DLeaf (ex_dom [1;3]))) (DLeaf (ex_dom [5;9]))) /\
  dom_ids (deval (DMinus (DOr (DLeaf (ex_dom [0;3;5])) (DLeaf (ex_dom [1;3]))) (DLeaf (ex_dom [5;9])))) Square = [0;1;3].
Proof.
  assert (W : forall l, StronglySorted lt l -> dexp_wf 2 (DLeaf (ex_dom l))).
  { intros l H. split; [reflexivity|]. split; intros g; destruct g; simpl; intros; try constructor; auto; congruence. }
  split; [|reflexivity]. split; [split|]; apply W; repeat constructor.
Qed.

(** The kind of the operands is not kept: a union of two boundary domains is an element domain. *)
Theorem C07_result_kind_refuted :
  exists a b, dom_kind a = BoundaryElements /\ dom_kind b = BoundaryElements /\
    dom_dim a = dom_dim b /\ dom_kind (domain_op set_union a b) = Elements.
Proof. exact kind_lost. Qed.
Print Assumptions C07_result_kind_refuted.

(** Projecting a coefficient on a union writes nothing, although the union has elements and each
    operand on its own has dofs. *)
Theorem C07_union_has_no_dofs_refuted :
  exists (a b : domain) (ed fd : nat -> list nat),
    dom_ids (domain_op set_union a b) Square = [0; 1] /\
    dof_list ed fd a = [0;1;3;4] /\ dof_list ed fd b = [1;2;4;5] /\
    dof_list ed fd (domain_op set_union a b) = [].
Proof. exact union_no_dofs. Qed.
Print Assumptions C07_union_has_no_dofs_refuted.

(** C08.  Elements accepted by the predicate on vertex positions and attribute. *)
Theorem C08_elements :
  forall (A : Type) (d : nat) (pts : list (nat -> A)) (pred : list (list (option A)) -> Z -> bool) (es : list entity),
  d <> 0 -> verts_ok pts es ->
  holds_exactly (of_elements d (flatten d pts) pred es) (fun _ => false)
    (fun e => pred (positions d pts (ent_verts e)) (ent_tag e)) es.
Proof. exact @of_elements_exact. Qed.
Print Assumptions C08_elements.

Theorem C08_boundary_elements :
  forall (A : Type) (d : nat) (pts : list (nat -> A)) (battr : nat -> Z) (pred : list (list (option A)) -> Z -> bool) (fs : list entity),
  d <> 0 -> verts_ok pts fs ->
  holds_exactly (of_boundary_elements d (flatten d pts) battr pred fs) ent_interior
    (fun e => pred (positions d pts (ent_verts e)) (true_attr battr (ent_tag e))) fs.
Proof. exact @of_boundary_exact. Qed.
Print Assumptions C08_boundary_elements.

Theorem C08_faces :
  forall (A : Type) (d : nat) (pts : list (nat -> A)) (battr : nat -> Z) (pred : list (list (option A)) -> Z -> bool) (fs : list entity),
  d <> 0 -> verts_ok pts fs ->
  holds_exactly (of_faces d (flatten d pts) battr pred fs) (fun _ => false)
    (fun e => pred (positions d pts (ent_verts e)) (true_attr battr (ent_tag e))) fs.
Proof. exact @of_faces_exact. Qed.
Print Assumptions C08_faces.

Theorem C08_vertices :
  forall (A : Type) (d : nat) (pts : list (nat -> A)) (pred : list (option A) -> bool), d <> 0 ->
  StronglySorted lt (dom_ids (of_vertices d (flatten d pts) pred) Point) /\
  forall i, In i (dom_ids (of_vertices d (flatten d pts) pred) Point) <->
    exists p, nth_error pts i = Some p /\ pred (map (fun j => Some (p j)) (seq 0 d)) = true.
Proof. exact @of_vertices_exact. Qed.
Print Assumptions C08_vertices.

(** The dofs that a projection on such a domain writes are those of the accepted elements. *)
Theorem C08_element_dofs :
  forall (A : Type) (d : nat) (pts : list (nat -> A)) (pred : list (list (option A)) -> Z -> bool) (es : list entity)
    (element_dofs face_dofs : nat -> list nat),
  d <> 0 -> verts_ok pts es -> (forall e, In e es -> In (ent_geom e) (geoms_of_dim d)) ->
  forall x, In x (dof_list element_dofs face_dofs (of_elements d (flatten d pts) pred es)) <->
    exists i e, nth_error es i = Some e /\ pred (positions d pts (ent_verts e)) (ent_tag e) = true /\ In x (element_dofs i).
Proof. exact @dofs_of_elements. Qed.
Print Assumptions C08_element_dofs.

Theorem C08_boundary_dofs :
  forall (A : Type) (d : nat) (pts : list (nat -> A)) (battr : nat -> Z) (pred : list (list (option A)) -> Z -> bool) (fs : list entity)
    (element_dofs face_dofs : nat -> list nat),
  d <> 0 -> verts_ok pts fs -> (forall e, In e fs -> In (ent_geom e) (geoms_of_dim (d - 1))) ->
  forall x, In x (dof_list element_dofs face_dofs (of_boundary_elements d (flatten d pts) battr pred fs)) <->
    exists i e, nth_error fs i = Some e /\ ent_interior e = false /\
      pred (positions d pts (ent_verts e)) (true_attr battr (ent_tag e)) = true /\ In x (face_dofs i).
Proof. exact @dofs_of_boundary. Qed.
Print Assumptions C08_boundary_dofs.

(** Missing: an edge that is boundary element number 0. *)
Theorem C08_edges_partial :
  forall (A : Type) (d : nat) (pts : list (nat -> A)) (battr : nat -> Z) (pred : list (list (option A)) -> Z -> bool) (es : list entity),
  d <> 0 -> verts_ok pts es -> (forall e, In e es -> ent_tag e <> 0%Z) ->
  holds_exactly (of_edges d (flatten d pts) battr pred es) (fun _ => false)
    (fun e => pred (positions d pts (ent_verts e)) (true_attr battr (ent_tag e))) es.
Proof. exact @of_edges_exact. Qed.
Print Assumptions C08_edges_partial.

(** The edge that is boundary element 0 is treated as having no attribute, so ofEdges(by_attr(3))
    misses it. *)
Theorem C08_edges_refuted :
  exists (es : list entity) (pts : list (nat -> Z)),
    dom_ids (of_edges 2 (flatten 2 pts) (fun _ => 3%Z) (fun _ t => (t =? 3)%Z) es) Segment = [2;3;4;5;6] /\
    exists e, nth_error es 0 = Some e /\ true_attr (fun _ => 3%Z) (ent_tag e) = 3%Z.
Proof. exact edges_miss_zero. Qed.
Print Assumptions C08_edges_refuted.

(** A projection on an edge domain writes the dofs of elements that happen to have the edges' numbers. *)
Theorem C08_edge_dofs_refuted :
  exists (a : domain) (ed fd : nat -> list nat),
    dom_mfem_ids a Segment = [0; 4] /\ dof_list ed fd a = [0;1;3;4] /\
    flat_map fd (dom_mfem_ids a Segment) = [0;1;1;2].
Proof. exact edge_dofs_wrong. Qed.
Print Assumptions C08_edge_dofs_refuted.

(** EntireDomain and EntireBoundary number every (boundary) entity of each geometry once. *)
Theorem C08_entire_domain :
  forall d es g, dom_ids (entire_domain d es) g = seq 0 (length (ranked (fun _ => false) g 0 es)).
Proof. exact entire_domain_exact. Qed.
Print Assumptions C08_entire_domain.
Theorem C08_entire_boundary :
  forall d fs g, dom_ids (entire_boundary d fs) g = seq 0 (length (ranked ent_interior g 0 fs)).
Proof. exact entire_boundary_exact. Qed.
Print Assumptions C08_entire_boundary.

(** A two-square mesh meets the hypotheses. *)
Example ex_C08 :
  verts_ok six_points two_squares /\ verts_ok six_points seven_edges /\
  (forall e, In e two_squares -> In (ent_geom e) (geoms_of_dim 2)) /\
  (forall e, In e seven_edges -> In (ent_geom e) (geoms_of_dim (2 - 1))) /\
  dom_ids (of_elements 2 (flatten 2 six_points) (fun _ t => (t =? 2)%Z) two_squares) Square = [1] /\
  dom_mfem_ids (of_boundary_elements 2 (flatten 2 six_points) (fun _ => 3%Z) (fun _ t => (t =? 3)%Z) seven_edges) Segment = [0;2;3;4;5;6] /\
  dom_ids (of_boundary_elements 2 (flatten 2 six_points) (fun _ => 3%Z) (fun _ t => (t =? 3)%Z) seven_edges) Segment = [0;1;2;3;4;5].
Proof.
  repeat split.
  - intros e v He Hv. simpl in He. repeat destruct He as [<-|He]; try easy; simpl in Hv; repeat destruct Hv as [<-|Hv]; try easy; simpl; repeat constructor.
  - intros e v He Hv. simpl in He. repeat destruct He as [<-|He]; try easy; simpl in Hv; repeat destruct Hv as [<-|Hv]; try easy; simpl; repeat constructor.
  - intros e He. simpl in He. repeat destruct He as [<-|He]; try easy; simpl; auto.
  - intros e He. simpl in He. repeat destruct He as [<-|He]; try easy; simpl; auto.
Qed.
