(** * Domains: element selections and their set algebra

    Models /repo/src/serac/numerics/functional/domain.{hpp,cpp}.
    Simplifications: element indices are [nat]; the mesh is given by the lists that the MFEM queries
    return (GetElementVertices, GetAttribute, GetFaceToBdrElMap, GetBdrAttribute, ...). *)
From Coq Require Import List ZArith Lia Bool Sorted Arith.
From Verif Require Import Prelude.
Import ListNotations.

(** ** Set algebra *)

(** std::set_union, std::set_intersection, std::set_difference on two ranges (domain.cpp:535-546; the
    textbook merge loops of the C++ standard library). *)
Fixpoint set_union (a : list nat) : list nat -> list nat :=
  fix go (b : list nat) : list nat :=
    match a, b with
    | [], _ => b
    | _, [] => a
    | x :: a', y :: b' =>
      if x <? y then x :: set_union a' b
      else if y <? x then y :: go b'
      else x :: set_union a' b'
    end.

Fixpoint set_intersection (a : list nat) : list nat -> list nat :=
  fix go (b : list nat) : list nat :=
    match a, b with
    | [], _ => []
    | _, [] => []
    | x :: a', y :: b' =>
      if x <? y then set_intersection a' b
      else if y <? x then go b'
      else x :: set_intersection a' b'
    end.

Fixpoint set_difference (a : list nat) : list nat -> list nat :=
  fix go (b : list nat) : list nat :=
    match a, b with
    | [], _ => []
    | _, [] => a
    | x :: a', y :: b' =>
      if x <? y then x :: set_difference a' b
      else if y <? x then go b'
      else set_difference a' b'
    end.

Inductive geom := Point | Segment | Triangle | Square | Tetrahedron | Cube.
Definition geom_eqb (a b : geom) : bool :=
  match a, b with
  | Point, Point | Segment, Segment | Triangle, Triangle | Square, Square
  | Tetrahedron, Tetrahedron | Cube, Cube => true
  | _, _ => false
  end.
Lemma geom_eqb_spec a b : reflect (a = b) (geom_eqb a b).
Proof. destruct a, b; simpl; constructor; congruence. Qed.

Definition geom_dim (g : geom) : nat :=
  match g with Point => 0 | Segment => 1 | Triangle | Square => 2 | Tetrahedron | Cube => 3 end.

Inductive kind := Elements | BoundaryElements.

(** struct Domain (domain.hpp:21-61): dimension, kind, E-vector indices by geometry and MFEM
    indices by geometry. *)
Record domain := {
  dom_dim : nat;
  dom_kind : kind;
  dom_ids : geom -> list nat;
  dom_mfem_ids : geom -> list nat;
}.

(** set_operation on Domains (domain.cpp:549-575).  The output is constructed as
    Domain{a.mesh_, a.dim_}, so its kind is the default Elements and its mfem ids are empty;
    only the lists of the right dimension are computed. *)
Definition domain_op (op : list nat -> list nat -> list nat) (a b : domain) : domain :=
  {| dom_dim := dom_dim a;
     dom_kind := Elements;
     dom_ids := fun g => if geom_dim g =? dom_dim a then op (dom_ids a g) (dom_ids b g) else [];
     dom_mfem_ids := fun _ => [] |}.

Inductive dexp :=
| DLeaf (d : domain)
| DOr (a b : dexp)
| DAnd (a b : dexp)
| DMinus (a b : dexp).

Fixpoint deval (e : dexp) : domain :=
  match e with
  | DLeaf d => d
  | DOr a b => domain_op set_union (deval a) (deval b)
  | DAnd a b => domain_op set_intersection (deval a) (deval b)
  | DMinus a b => domain_op set_difference (deval a) (deval b)
  end.

(** Specification: the set an expression denotes. *)
Fixpoint dsem (e : dexp) (g : geom) (i : nat) : Prop :=
  match e with
  | DLeaf d => In i (dom_ids d g)
  | DOr a b => dsem a g i \/ dsem b g i
  | DAnd a b => dsem a g i /\ dsem b g i
  | DMinus a b => dsem a g i /\ ~ dsem b g i
  end.

(** All leaves have dimension [n], list only geometries of that dimension, in increasing order. *)
Fixpoint dexp_wf (n : nat) (e : dexp) : Prop :=
  match e with
  | DLeaf d => dom_dim d = n /\ (forall g, StronglySorted lt (dom_ids d g)) /\
               (forall g, geom_dim g <> n -> dom_ids d g = [])
  | DOr a b | DAnd a b | DMinus a b => dexp_wf n a /\ dexp_wf n b
  end.

Lemma union_cons x a y b : set_union (x :: a) (y :: b) =
  if x <? y then x :: set_union a (y :: b) else if y <? x then y :: set_union (x :: a) b else x :: set_union a b.
Proof. reflexivity. Qed.
Lemma inter_cons x a y b : set_intersection (x :: a) (y :: b) =
  if x <? y then set_intersection a (y :: b) else if y <? x then set_intersection (x :: a) b else x :: set_intersection a b.
Proof. reflexivity. Qed.
Lemma diff_cons x a y b : set_difference (x :: a) (y :: b) =
  if x <? y then x :: set_difference a (y :: b) else if y <? x then set_difference (x :: a) b else set_difference a b.
Proof. reflexivity. Qed.
Lemma union_nil_r a : set_union a [] = a. Proof. destruct a; reflexivity. Qed.
Lemma inter_nil_r a : set_intersection a [] = []. Proof. destruct a; reflexivity. Qed.
Lemma diff_nil_r a : set_difference a [] = a. Proof. destruct a; reflexivity. Qed.
Lemma union_nil_l a : set_union [] a = a. Proof. destruct a; reflexivity. Qed.
Lemma inter_nil_l a : set_intersection [] a = []. Proof. destruct a; reflexivity. Qed.
Lemma diff_nil_l a : set_difference [] a = []. Proof. destruct a; reflexivity. Qed.

Lemma ssorted_cons_inv x l : StronglySorted lt (x :: l) -> StronglySorted lt l /\ forall y, In y l -> x < y.
Proof. intros H. inversion H; subst. split; auto. now apply Forall_forall. Qed.

Lemma ssorted_not_in x l : StronglySorted lt (x :: l) -> ~ In x l.
Proof. intros H Hin. apply ssorted_cons_inv in H as [_ H]. specialize (H x Hin). lia. Qed.

Lemma union_spec a b : StronglySorted lt a -> StronglySorted lt b ->
  StronglySorted lt (set_union a b) /\ forall i, In i (set_union a b) <-> In i a \/ In i b.
Proof.
  revert b. induction a as [|x a IHa]; intros b Ha Hb.
  { rewrite union_nil_l. split; auto. intros; simpl; tauto. }
  induction b as [|y b IHb].
  { rewrite union_nil_r. split; auto. intros; simpl; tauto. }
  rewrite union_cons.
  pose proof (ssorted_cons_inv _ _ Ha) as [Ha1 Ha2].
  pose proof (ssorted_cons_inv _ _ Hb) as [Hb1 Hb2].
  destruct (Nat.ltb_spec x y) as [L|L]; [|destruct (Nat.ltb_spec y x) as [M|M]].
  - destruct (IHa (y :: b) Ha1 Hb) as [S1 S2]. split.
    + constructor; auto. apply Forall_forall. intros z Hz. apply S2 in Hz as [Hz|[<-|Hz]]; auto.
      specialize (Hb2 z Hz). lia.
    + intros i. simpl In at 1. rewrite S2. simpl. tauto.
  - destruct (IHb Hb1) as [S1 S2]. split.
    + constructor; auto. apply Forall_forall. intros z Hz. apply S2 in Hz as [[<-|Hz]|Hz]; auto.
      specialize (Ha2 z Hz). lia.
    + intros i. simpl In at 1. rewrite S2. simpl. tauto.
  - assert (x = y) by lia. subst y. destruct (IHa b Ha1 Hb1) as [S1 S2]. split.
    + constructor; auto. apply Forall_forall. intros z Hz. apply S2 in Hz as [Hz|Hz]; auto.
    + intros i. simpl In at 1. rewrite S2. simpl. tauto.
Qed.

Lemma inter_spec a b : StronglySorted lt a -> StronglySorted lt b ->
  StronglySorted lt (set_intersection a b) /\ forall i, In i (set_intersection a b) <-> In i a /\ In i b.
Proof.
  revert b. induction a as [|x a IHa]; intros b Ha Hb.
  { rewrite inter_nil_l. split; [constructor|]. intros; simpl; tauto. }
  induction b as [|y b IHb].
  { rewrite inter_nil_r. split; [constructor|]. intros; simpl; tauto. }
  rewrite inter_cons.
  pose proof (ssorted_cons_inv _ _ Ha) as [Ha1 Ha2].
  pose proof (ssorted_cons_inv _ _ Hb) as [Hb1 Hb2].
  destruct (Nat.ltb_spec x y) as [L|L]; [|destruct (Nat.ltb_spec y x) as [M|M]].
  - destruct (IHa (y :: b) Ha1 Hb) as [S1 S2]. split; auto.
    intros i. rewrite S2. simpl. split; [tauto|]. intros [[<-|H] [E|E]]; try tauto; try lia.
    specialize (Hb2 x E). lia.
  - destruct (IHb Hb1) as [S1 S2]. split; auto.
    intros i. rewrite S2. simpl. split; [tauto|]. intros [[E|E] [<-|H]]; try tauto; try lia.
    specialize (Ha2 y E). lia.
  - assert (x = y) by lia. subst y. destruct (IHa b Ha1 Hb1) as [S1 S2]. split.
    + constructor; auto. apply Forall_forall. intros z Hz. apply S2 in Hz as [Hz _]; auto.
    + intros i. simpl In at 1. rewrite S2. simpl. split; [tauto|].
      intros [[<-|H] [E|E]]; try tauto.
Qed.

Lemma diff_spec a b : StronglySorted lt a -> StronglySorted lt b ->
  StronglySorted lt (set_difference a b) /\ forall i, In i (set_difference a b) <-> In i a /\ ~ In i b.
Proof.
  revert b. induction a as [|x a IHa]; intros b Ha Hb.
  { rewrite diff_nil_l. split; [constructor|]. intros; simpl; tauto. }
  induction b as [|y b IHb].
  { rewrite diff_nil_r. split; auto. intros; simpl; tauto. }
  rewrite diff_cons.
  pose proof (ssorted_cons_inv _ _ Ha) as [Ha1 Ha2].
  pose proof (ssorted_cons_inv _ _ Hb) as [Hb1 Hb2].
  destruct (Nat.ltb_spec x y) as [L|L]; [|destruct (Nat.ltb_spec y x) as [M|M]].
  - destruct (IHa (y :: b) Ha1 Hb) as [S1 S2]. split.
    + constructor; auto. apply Forall_forall. intros z Hz. apply S2 in Hz as [Hz _]; auto.
    + intros i. simpl In at 1. rewrite S2. simpl. split.
      * intros [<-|H]; [|tauto]. split; auto. intros [E|E]; [lia|]. specialize (Hb2 x E). lia.
      * tauto.
  - destruct (IHb Hb1) as [S1 S2]. split; auto.
    intros i. rewrite S2. simpl. split; [|tauto]. intros [H1 H2]. split; auto.
    intros [E|E]; [|tauto]. subst i. destruct H1 as [E|E]; [lia|]. specialize (Ha2 y E). lia.
  - assert (x = y) by lia. subst y. destruct (IHa b Ha1 Hb1) as [S1 S2]. split; auto.
    intros i. rewrite S2. simpl. split.
    + intros [H1 H2]. split; auto. intros [<-|E]; [|tauto]. specialize (Ha2 x H1). lia.
    + intros [[E|H1] H2]; [tauto|]. split; auto.
Qed.

Lemma deval_spec n e : dexp_wf n e ->
  dom_dim (deval e) = n /\
  forall g, StronglySorted lt (dom_ids (deval e) g) /\
            (geom_dim g <> n -> dom_ids (deval e) g = []) /\
            (geom_dim g = n -> forall i, In i (dom_ids (deval e) g) <-> dsem e g i).
Proof.
  induction e as [d|a IHa b IHb|a IHa b IHb|a IHa b IHb]; intros Hwf; simpl in Hwf.
  - destruct Hwf as (Hd & Hs & He). split; auto. intros g. repeat split; auto; tauto.
  - destruct Hwf as [Wa Wb]. destruct (IHa Wa) as [Da Ha]. destruct (IHb Wb) as [Db Hb].
    split; auto. intros g. simpl. rewrite Da.
    destruct (Ha g) as (Sa & Ea & Ma), (Hb g) as (Sb & Eb & Mb).
    destruct (union_spec _ _ Sa Sb) as [S1 S2].
    destruct (Nat.eqb_spec (geom_dim g) n) as [Eg|Eg]; [|repeat split; try tauto; constructor].
    split; [exact S1|]. split; [tauto|]. intros _ i. rewrite S2, Ma, Mb by auto. tauto.
  - destruct Hwf as [Wa Wb]. destruct (IHa Wa) as [Da Ha]. destruct (IHb Wb) as [Db Hb].
    split; auto. intros g. simpl. rewrite Da.
    destruct (Ha g) as (Sa & Ea & Ma), (Hb g) as (Sb & Eb & Mb).
    destruct (inter_spec _ _ Sa Sb) as [S1 S2].
    destruct (Nat.eqb_spec (geom_dim g) n) as [Eg|Eg]; [|repeat split; try tauto; constructor].
    split; [exact S1|]. split; [tauto|]. intros _ i. rewrite S2, Ma, Mb by auto. tauto.
  - destruct Hwf as [Wa Wb]. destruct (IHa Wa) as [Da Ha]. destruct (IHb Wb) as [Db Hb].
    split; auto. intros g. simpl. rewrite Da.
    destruct (Ha g) as (Sa & Ea & Ma), (Hb g) as (Sb & Eb & Mb).
    destruct (diff_spec _ _ Sa Sb) as [S1 S2].
    destruct (Nat.eqb_spec (geom_dim g) n) as [Eg|Eg]; [|repeat split; try tauto; constructor].
    split; [exact S1|]. split; [tauto|]. intros _ i. rewrite S2, Ma, Mb by auto. tauto.
Qed.

(** ** Domains from predicates *)

(** One mesh entity as seen by the loops: its vertex indices and the number that MFEM reports for its attribute:
    the element attribute for elements, the index of its boundary element (or -1) for faces and edges. *)
Record entity := { ent_geom : geom; ent_verts : list nat; ent_interior : bool; ent_tag : Z }.

Definition buckets := geom -> (nat * list nat * list nat).
Definition empty_buckets : buckets := fun _ => (0, [], []).

(** One pass of the loops of domain_of_elems (domain.cpp:250-293) and domain_of_boundary_elems
    (domain.cpp:331-373): skip, or maybe append (counter, mfem index) to the lists of the entity's
    geometry, then increment the counter of that geometry. *)
Definition visit (skip : entity -> bool) (keep : entity -> bool) (i : nat) (e : entity) (b : buckets) : buckets :=
  if skip e then b
  else fun g => if geom_eqb g (ent_geom e)
                then let '(c, ids, mids) := b g in
                     (S c, if keep e then ids ++ [c] else ids, if keep e then mids ++ [i] else mids)
                else b g.

Fixpoint select (skip keep : entity -> bool) (i : nat) (es : list entity) (b : buckets) : buckets :=
  match es with
  | [] => b
  | e :: r => select skip keep (S i) r (visit skip keep i e b)
  end.

Definition ids_of (b : buckets) (g : geom) : list nat := snd (fst (b g)).
Definition mfem_ids_of (b : buckets) (g : geom) : list nat := snd (b g).

(** gather (domain.cpp:39-49): coordinates of a list of vertices out of MFEM's vector, laid out
    component by component. *)
Definition gather {A} (d : nat) (coords : list A) (ids : list nat) : list (list (option A)) :=
  let nv := Nat.div (length coords) d in
  map (fun v => map (fun j => nth_error coords (j * nv + v)) (seq 0 d)) ids.

Definition flatten {A} (d : nat) (pts : list (nat -> A)) : list A :=
  flat_map (fun j => map (fun p => p j) pts) (seq 0 d).

(** Attribute of a face (domain.cpp:190-193, 342-343): mesh.GetBdrAttribute when there is a boundary
    element, else -1.  [battr] is GetBdrAttribute; indexing it out of range would be undefined, the
    MFEM map only holds valid indices. *)
Definition face_attr (battr : nat -> Z) (bdr_id : Z) : Z :=
  if (0 <=? bdr_id)%Z then battr (Z.to_nat bdr_id) else (-1)%Z.

(** Attribute of an edge in 2D (domain.cpp:117-118): note the strict comparison. *)
Definition edge_attr (battr : nat -> Z) (bdr_id : Z) : Z :=
  if (0 <? bdr_id)%Z then battr (Z.to_nat bdr_id) else (-1)%Z.

Section Predicates.
Context {A : Type}.
Variable d : nat.
Variable coords : list A.
Variable battr : nat -> Z.
Variable pred : list (list (option A)) -> Z -> bool.

(** Domain::ofElements (domain.cpp:231-306) *)
Definition of_elements (es : list entity) : domain :=
  let b := select (fun _ => false) (fun e => pred (gather d coords (ent_verts e)) (ent_tag e)) 0 es empty_buckets in
  {| dom_dim := d; dom_kind := Elements; dom_ids := ids_of b; dom_mfem_ids := mfem_ids_of b |}.

(** Domain::ofBoundaryElements (domain.cpp:312-386) *)
Definition of_boundary_elements (fs : list entity) : domain :=
  let b := select ent_interior
             (fun e => pred (gather d coords (ent_verts e)) (face_attr battr (ent_tag e))) 0 fs empty_buckets in
  {| dom_dim := d - 1; dom_kind := BoundaryElements; dom_ids := ids_of b; dom_mfem_ids := mfem_ids_of b |}.

(** Domain::ofFaces in 3D (domain.cpp:148-225) *)
Definition of_faces (fs : list entity) : domain :=
  let b := select (fun _ => false)
             (fun e => pred (gather d coords (ent_verts e)) (face_attr battr (ent_tag e))) 0 fs empty_buckets in
  {| dom_dim := 2; dom_kind := Elements; dom_ids := ids_of b; dom_mfem_ids := mfem_ids_of b |}.

(** Domain::ofEdges in 2D (domain.cpp:93-137) *)
Definition of_edges (es : list entity) : domain :=
  let b := select (fun _ => false)
             (fun e => pred (gather d coords (ent_verts e)) (edge_attr battr (ent_tag e))) 0 es empty_buckets in
  {| dom_dim := 1; dom_kind := Elements; dom_ids := ids_of b; dom_mfem_ids := mfem_ids_of b |}.
End Predicates.

(** Specification: [ranked skip g es] lists, in mesh order, the MFEM indices of the entities of
    geometry [g] that are not skipped: position j in that list is the E-vector index j. *)
Fixpoint ranked (skip : entity -> bool) (g : geom) (i : nat) (es : list entity) : list nat :=
  match es with
  | [] => []
  | e :: r => if skip e then ranked skip g (S i) r
              else if geom_eqb g (ent_geom e) then i :: ranked skip g (S i) r
              else ranked skip g (S i) r
  end.

Lemma select_app skip keep : forall es1 es2 i b,
  select skip keep i (es1 ++ es2) b = select skip keep (i + length es1) es2 (select skip keep i es1 b).
Proof.
  induction es1 as [|e es1 IH]; intros es2 i b; simpl; [now rewrite Nat.add_0_r|].
  rewrite IH. f_equal. lia.
Qed.

Lemma ranked_app skip g : forall es1 es2 i,
  ranked skip g i (es1 ++ es2) = ranked skip g i es1 ++ ranked skip g (i + length es1) es2.
Proof.
  induction es1 as [|e es1 IH]; intros es2 i; simpl; [now rewrite Nat.add_0_r|].
  rewrite (IH es2 (S i)). replace (S i + length es1) with (i + S (length es1)) by lia.
  destruct (skip e); auto. destruct (geom_eqb g (ent_geom e)); auto.
Qed.

Lemma ranked_bound skip g es : forall i x, In x (ranked skip g i es) -> i <= x < i + length es.
Proof.
  induction es as [|e es IH]; intros i x H; simpl in H; [easy|].
  destruct (skip e); [|destruct (geom_eqb g (ent_geom e)); [destruct H as [<-|H]|]]; simpl; try lia;
  specialize (IH (S i) x H); lia.
Qed.

Lemma ssorted_snoc l x : StronglySorted lt l -> (forall y, In y l -> y < x) -> StronglySorted lt (l ++ [x]).
Proof.
  induction l as [|a l IH]; intros Hs Hx; simpl.
  - repeat constructor.
  - apply ssorted_cons_inv in Hs as [H1 H2]. constructor.
    + apply IH; auto. intros; apply Hx; now right.
    + apply Forall_forall. intros y Hy. apply in_app_iff in Hy as [Hy|[<-|[]]]; auto. apply Hx. now left.
Qed.

(** The selection loop: E-vector ids are strictly increasing, are exactly the ranks of the
    accepted entities, and the MFEM ids are the corresponding mesh indices. *)
Lemma select_spec skip keep es g :
  let b := select skip keep 0 es empty_buckets in
  let r := ranked skip g 0 es in
  StronglySorted lt (ids_of b g) /\
  (forall j, In j (ids_of b g) <->
     exists i e, nth_error r j = Some i /\ nth_error es i = Some e /\ keep e = true) /\
  mfem_ids_of b g = map (fun j => nth j r 0) (ids_of b g).
Proof.
  assert (G : forall es,
    let b := select skip keep 0 es empty_buckets in
    let r := ranked skip g 0 es in
    fst (fst (b g)) = length r /\
    StronglySorted lt (ids_of b g) /\
    (forall j, In j (ids_of b g) -> j < length r) /\
    (forall j, In j (ids_of b g) <->
       exists i e, nth_error r j = Some i /\ nth_error es i = Some e /\ keep e = true) /\
    mfem_ids_of b g = map (fun j => nth j r 0) (ids_of b g)).
  { clear es. intros es. induction es as [|e es IH] using rev_ind; cbv zeta.
    - simpl. repeat split; try constructor; try easy.
      intros (i & e & H & _). destruct j; discriminate.
    - cbv zeta in IH. rewrite select_app, ranked_app. simpl select. simpl ranked. 
      set (b := select skip keep 0 es empty_buckets) in *.
      set (r := ranked skip g 0 es) in *.
      destruct IH as (I1 & I2 & I3 & I4 & I5).
      assert (Hnew : forall (l : list nat), ~ (exists j i e0, nth_error (r ++ l) j = Some i /\ j < length r /\
                 nth_error (es ++ [e]) i = Some e0 /\ nth_error es i <> Some e0)).
      { intros l (j & i & e0 & H1 & Hj & H2 & H3). rewrite nth_error_app1 in H1 by auto.
        assert (i < length es). { apply nth_error_In in H1. apply ranked_bound in H1. lia. }
        rewrite nth_error_app1 in H2 by lia. contradiction. }
      assert (Hold : forall l j, j < length r ->
        ((exists i e0, nth_error (r ++ l) j = Some i /\ nth_error (es ++ [e]) i = Some e0 /\ keep e0 = true) <->
         (exists i e0, nth_error r j = Some i /\ nth_error es i = Some e0 /\ keep e0 = true))).
      { intros l j Hj. split; intros (i & e0 & H1 & H2 & H3).
        - rewrite nth_error_app1 in H1 by auto.
          assert (i < length es). { apply nth_error_In in H1. apply ranked_bound in H1. lia. }
          rewrite nth_error_app1 in H2 by lia. eauto.
        - exists i, e0. rewrite nth_error_app1 by auto.
          assert (i < length es). { apply nth_error_In in H1. apply ranked_bound in H1. lia. }
          rewrite nth_error_app1 by auto. auto. }
      unfold visit. destruct (skip e) eqn:Esk.
      { rewrite app_nil_r. repeat split; auto.
        - intros Hj. apply I4 in Hj. destruct Hj as (i & e0 & H1 & H2 & H3). exists i, e0.
          repeat split; auto. rewrite nth_error_app1; auto. apply nth_error_Some. congruence.
        - intros H. apply I4. destruct H as (i & e0 & H1 & H2 & H3).
          assert (j < length r) by (apply nth_error_Some; congruence).
          apply (Hold [] j); auto. rewrite app_nil_r. eauto. }
      unfold ids_of, mfem_ids_of in *. cbv beta. destruct (geom_eqb g (ent_geom e)) eqn:Eg.
      2:{ rewrite app_nil_r. repeat split; auto.
        - intros Hj. apply I4 in Hj. destruct Hj as (i & e0 & H1 & H2 & H3). exists i, e0.
          repeat split; auto. rewrite nth_error_app1; auto. apply nth_error_Some. congruence.
        - intros H. apply I4. destruct H as (i & e0 & H1 & H2 & H3).
          assert (j < length r) by (apply nth_error_Some; congruence).
          apply (Hold [] j); auto. rewrite app_nil_r. eauto. }
      destruct (b g) as [[c ids] mids]. cbn [fst snd] in *. subst c. rewrite app_length. cbn [length].
      replace (0 + length es) with (length es) by lia.
      assert (Hlast : forall j, j = length r ->
         ((exists i e0, nth_error (r ++ [length es]) j = Some i /\ nth_error (es ++ [e]) i = Some e0 /\ keep e0 = true)
          <-> keep e = true)).
      { intros j ->. rewrite nth_error_app2 by lia. rewrite Nat.sub_diag. cbn [nth_error]. split.
        - intros (i & e0 & H1 & H2 & H3). inversion H1; subst i.
          rewrite nth_error_app2, Nat.sub_diag in H2 by lia. inversion H2; now subst.
        - intros H. exists (length es), e. rewrite nth_error_app2, Nat.sub_diag by lia. auto. }
      assert (Hmap : map (fun j => nth j (r ++ [length es]) 0) ids = map (fun j => nth j r 0) ids).
      { apply map_ext_in. intros j Hj. rewrite app_nth1; auto. }
      destruct (keep e) eqn:Ek.
      + split; [lia|]. split; [apply ssorted_snoc; auto|]. split; [|split].
        * intros j Hj. apply in_app_iff in Hj as [Hj|[<-|[]]]; [specialize (I3 j Hj)|]; lia.
        * intros j. rewrite in_app_iff. destruct (Nat.lt_trichotomy j (length r)) as [L|[E|L]].
          -- rewrite (Hold [length es] j L), I4. simpl. split; [intros [H|[H|[]]]; auto; lia|auto].
          -- rewrite (Hlast j E). simpl. split; auto.
          -- split.
             ++ intros [H|[H|[]]]; [specialize (I3 j H)|]; lia.
             ++ intros (i & e0 & H1 & _).
                assert (j < length (r ++ [length es])) by (apply nth_error_Some; congruence).
                rewrite app_length in *. simpl in *. lia.
        * rewrite map_app, Hmap. simpl. rewrite app_nth2, Nat.sub_diag by lia. simpl. now rewrite I5.
      + split; [lia|]. split; [auto|]. split; [|split].
        * intros j Hj. specialize (I3 j Hj). lia.
        * intros j. destruct (Nat.lt_trichotomy j (length r)) as [L|[E|L]].
          -- now rewrite (Hold [length es] j L), I4.
          -- rewrite (Hlast j E). split; [|discriminate]. intros H. specialize (I3 j H). lia.
          -- split.
             ++ intros H. specialize (I3 j H). lia.
             ++ intros (i & e0 & H1 & _).
                assert (j < length (r ++ [length es])) by (apply nth_error_Some; congruence).
                rewrite app_length in *. simpl in *. lia.
        * now rewrite Hmap. }
  cbv zeta. destruct (G es) as (_ & H2 & _ & H4 & H5). auto.
Qed.

(** gather returns the coordinates of the listed vertices. *)
Lemma flatten_length {A} d (pts : list (nat -> A)) : length (flatten d pts) = d * length pts.
Proof.
  unfold flatten. generalize 0. induction d as [|d IH]; intros s; simpl; auto.
  rewrite app_length, map_length, IH. reflexivity.
Qed.

Lemma nth_error_flat {A} (pts : list (nat -> A)) v p : nth_error pts v = Some p ->
  forall d s j, j < d ->
  nth_error (flat_map (fun j => map (fun p => p j) pts) (seq s d)) (j * length pts + v) = Some (p (s + j)).
Proof.
  intros Hv. assert (Hlt : v < length pts) by (apply nth_error_Some; congruence).
  induction d as [|d IH]; intros s j Hj; [lia|]. simpl. destruct j as [|j].
  - simpl. rewrite nth_error_app1 by (now rewrite map_length).
    erewrite map_nth_error by exact Hv. now rewrite Nat.add_0_r.
  - rewrite nth_error_app2 by (rewrite map_length; lia). rewrite map_length.
    replace (S j * length pts + v - length pts) with (j * length pts + v) by lia.
    rewrite IH by lia. f_equal. f_equal. lia.
Qed.

Lemma gather_spec {A} d (pts : list (nat -> A)) ids :
  d <> 0 -> (forall v, In v ids -> v < length pts) ->
  gather d (flatten d pts) ids =
  map (fun v => map (fun j => option_map (fun p => p j) (nth_error pts v)) (seq 0 d)) ids.
Proof.
  intros Hd Hin. unfold gather. apply map_ext_in. intros v Hv. apply map_ext_in. intros j Hj.
  apply in_seq in Hj. rewrite flatten_length.
  replace (Nat.div (d * length pts) d) with (length pts) by (rewrite Nat.mul_comm, Nat.div_mul; auto).
  destruct (nth_error pts v) as [p|] eqn:E.
  - unfold flatten. rewrite (nth_error_flat pts v p E d 0 j) by lia. reflexivity.
  - apply nth_error_None in E. specialize (Hin v Hv). lia.
Qed.

(** EntireDomain (domain.cpp:461-495) and EntireBoundary (domain.cpp:497-526): every entity (every
    boundary face), counted per geometry; the MFEM index lists are never filled.  (A point or
    unsupported geometry is an error in the code; the meshes here have none.) *)
Definition entire_domain (d : nat) (es : list entity) : domain :=
  {| dom_dim := d; dom_kind := Elements;
     dom_ids := ids_of (select (fun _ => false) (fun _ => true) 0 es empty_buckets);
     dom_mfem_ids := fun _ => [] |}.
Definition entire_boundary (d : nat) (fs : list entity) : domain :=
  {| dom_dim := d - 1; dom_kind := BoundaryElements;
     dom_ids := ids_of (select ent_interior (fun _ => true) 0 fs empty_buckets);
     dom_mfem_ids := fun _ => [] |}.

(** Insertion into std::set<int>. *)
Fixpoint set_insert (x : nat) (l : list nat) : list nat :=
  match l with
  | [] => [x]
  | y :: r => if x <? y then x :: l else if y <? x then y :: set_insert x r else l
  end.

(** Domain::dof_list (domain.cpp:388-454): dofs of the MFEM entities listed, by GetElementDofs or
    GetFaceDofs according to the kind; only the lists of the domain's dimension are used, and
    dimension 0 yields nothing. *)
Definition geoms_of_dim (n : nat) : list geom :=
  match n with 1 => [Segment] | 2 => [Triangle; Square] | 3 => [Tetrahedron; Cube] | _ => [] end.
Definition dof_list (element_dofs face_dofs : nat -> list nat) (d : domain) : list nat :=
  let get := match dom_kind d with Elements => element_dofs | BoundaryElements => face_dofs end in
  fold_left (fun acc x => set_insert x acc)
    (flat_map (fun g => flat_map get (dom_mfem_ids d g)) (geoms_of_dim (dom_dim d))) [].

Lemma set_insert_In x l y : In y (set_insert x l) <-> y = x \/ In y l.
Proof.
  induction l as [|z r IH]; simpl; [intuition|].
  destruct (Nat.ltb_spec x z); [simpl; intuition|]. destruct (Nat.ltb_spec z x).
  - simpl. rewrite IH. intuition.
  - assert (x = z) by lia. subst. simpl. intuition.
Qed.
Lemma set_insert_sorted x l : StronglySorted lt l -> StronglySorted lt (set_insert x l).
Proof.
  induction l as [|z r IH]; simpl; intros H; [repeat constructor|].
  pose proof (ssorted_cons_inv _ _ H) as [H1 H2].
  destruct (Nat.ltb_spec x z).
  - constructor; auto. apply Forall_forall. intros y [<-|Hy]; auto. specialize (H2 y Hy). lia.
  - destruct (Nat.ltb_spec z x); auto. constructor; auto. apply Forall_forall. intros y Hy.
    apply set_insert_In in Hy as [->|Hy]; auto.
Qed.

Lemma fold_insert_spec l : forall acc, StronglySorted lt acc ->
  StronglySorted lt (fold_left (fun a x => set_insert x a) l acc) /\ forall y, In y (fold_left (fun a x => set_insert x a) l acc) <-> In y l \/ In y acc.
Proof.
  induction l as [|x l IH]; intros acc H; simpl; [split; auto; tauto|].
  destruct (IH (set_insert x acc) (set_insert_sorted x acc H)) as [A B]. split; auto.
  intros y. rewrite B, set_insert_In. intuition.
Qed.

Lemma dof_list_spec ed fd d :
  StronglySorted lt (dof_list ed fd d) /\ forall x, In x (dof_list ed fd d) <->
    exists g i, In g (geoms_of_dim (dom_dim d)) /\ In i (dom_mfem_ids d g) /\ In x (match dom_kind d with Elements => ed i | BoundaryElements => fd i end).
Proof.
  unfold dof_list. destruct (fold_insert_spec (flat_map (fun g => flat_map (match dom_kind d with Elements => ed | BoundaryElements => fd end)
     (dom_mfem_ids d g)) (geoms_of_dim (dom_dim d))) [] (SSorted_nil _)) as [A B].
  split; [exact A|]. intros x. rewrite B, in_flat_map. split.
  - intros [(g & Hg & H)|[]]. apply in_flat_map in H as (i & Hi & Hx). exists g, i.
    destruct (dom_kind d); auto.
  - intros (g & i & Hg & Hi & Hx). left. exists g. split; auto. apply in_flat_map. exists i.
    destruct (dom_kind d); auto.
Qed.

(** FiniteElementState::project(coef, domain) (finite_element_state.cpp:76-82) on a scalar space:
    writes the coefficient's nodal value at each listed dof. *)
Definition project_on {V} (element_dofs face_dofs : nat -> list nat) (d : domain) (value : nat -> V) (x : nat -> V)
  : nat -> V :=
  fun j => if existsb (Nat.eqb j) (dof_list element_dofs face_dofs d) then value j else x j.

Lemma ranked_map_In skip g es : forall i x, In x (ranked skip g i es) <->
  exists k e, x = i + k /\ nth_error es k = Some e /\ skip e = false /\ ent_geom e = g.
Proof.
  induction es as [|e es IH]; intros i x; simpl.
  - split; [easy|]. intros (k & e & _ & H & _). destruct k; discriminate.
  - assert (G : In x (ranked skip g (S i) es) <->
        exists k e0, x = i + S k /\ nth_error es k = Some e0 /\ skip e0 = false /\ ent_geom e0 = g).
    { rewrite IH. split; intros (k & e0 & H); exists k, e0; intuition lia. }
    assert (F : (exists k e0, x = i + k /\ nth_error (e :: es) k = Some e0 /\ skip e0 = false /\ ent_geom e0 = g) <->
        (x = i /\ skip e = false /\ ent_geom e = g) \/ In x (ranked skip g (S i) es)).
    { rewrite G. split.
      - intros ([|k] & e0 & H1 & H2 & H3).
        + left. simpl in H2. inversion H2; subst. intuition lia.
        + right. exists k, e0. auto.
      - intros [(H1 & H2)|(k & e0 & H)].
        + exists 0, e. simpl. intuition lia.
        + exists (S k), e0. auto. }
    rewrite F. destruct (skip e) eqn:Es; [intuition congruence|].
    destruct (geom_eqb_spec g (ent_geom e)); simpl; intuition congruence.
Qed.

Lemma ranked_sorted skip g es : forall i, StronglySorted lt (ranked skip g i es).
Proof.
  induction es as [|e es IH]; intros i; simpl; [constructor|].
  destruct (skip e); auto. destruct (geom_eqb g (ent_geom e)); auto.
  constructor; auto. apply Forall_forall. intros y Hy. apply ranked_bound in Hy. lia.
Qed.

(** The MFEM ids alone: exactly the accepted entities of that geometry. *)
Lemma select_mfem_spec skip keep es g i :
  In i (mfem_ids_of (select skip keep 0 es empty_buckets) g) <->
  exists e, nth_error es i = Some e /\ ent_geom e = g /\ skip e = false /\ keep e = true.
Proof.
  destruct (select_spec skip keep es g) as (H1 & H2 & H3). rewrite H3, in_map_iff. split.
  - intros (j & Ej & Hj). apply H2 in Hj as (i' & e & A & B & C).
    assert (i' = i). { rewrite <- Ej. symmetry. now apply nth_error_nth. } subst i'.
    exists e. pose proof (nth_error_In _ _ A) as D. apply ranked_map_In in D as (k & e' & D1 & D2 & D3 & D4).
    simpl in D1. subst k. rewrite B in D2. inversion D2; subst. auto.
  - intros (e & A & B & C & D).
    assert (Hin : In i (ranked skip g 0 es)) by (apply ranked_map_In; exists i, e; auto).
    apply In_nth_error in Hin as [j Hj]. exists j. split; [now apply nth_error_nth|].
    apply H2. exists i, e. auto.
Qed.

(** ** Statements used by P_Domains.v *)

(** Specification: position of a vertex (all its [d] coordinates) and the true boundary attribute
    of a face or edge whose boundary-element number is [b] (negative: not on the boundary). *)
Definition positions {A} (d : nat) (pts : list (nat -> A)) (vs : list nat) : list (list (option A)) :=
  map (fun v => map (fun j => option_map (fun p => p j) (nth_error pts v)) (seq 0 d)) vs.
Definition true_attr (battr : nat -> Z) (b : Z) : Z := if (b <? 0)%Z then (-1)%Z else battr (Z.to_nat b).

Definition verts_ok {A} (pts : list (nat -> A)) (es : list entity) : Prop :=
  forall e v, In e es -> In v (ent_verts e) -> v < length pts.

(** What it means for a domain to hold exactly the accepted entities. *)
Definition holds_exactly (dom : domain) (skip : entity -> bool) (accept : entity -> bool) (es : list entity) : Prop :=
  forall g,
    StronglySorted lt (dom_ids dom g) /\
    (forall j, In j (dom_ids dom g) <->
       exists i e, nth_error (ranked skip g 0 es) j = Some i /\ nth_error es i = Some e /\ accept e = true) /\
    (forall i, In i (dom_mfem_ids dom g) <->
       exists e, nth_error es i = Some e /\ ent_geom e = g /\ skip e = false /\ accept e = true).

Lemma holds_exactly_ext dom skip k1 k2 es :
  (forall e, In e es -> k1 e = k2 e) -> holds_exactly dom skip k1 es -> holds_exactly dom skip k2 es.
Proof.
  intros E H g. destruct (H g) as (A & B & C). split; auto. split.
  - intros j. rewrite B. split; intros (i & e & H1 & H2 & H3); exists i, e; repeat split; auto;
      apply nth_error_In in H2; specialize (E e H2); congruence.
  - intros i. rewrite C. split; intros (e & H1 & H2 & H3 & H4); exists e; repeat split; auto;
      apply nth_error_In in H1; specialize (E e H1); congruence.
Qed.

Lemma gather_positions {A} d (pts : list (nat -> A)) es e :
  d <> 0 -> verts_ok pts es -> In e es -> gather d (flatten d pts) (ent_verts e) = positions d pts (ent_verts e).
Proof. intros Hd Hv He. apply gather_spec; auto. intros v Hin. eapply Hv; eauto. Qed.

Lemma of_elements_exact {A} d (pts : list (nat -> A)) pred es :
  d <> 0 -> verts_ok pts es ->
  holds_exactly (of_elements d (flatten d pts) pred es) (fun _ => false)
    (fun e => pred (positions d pts (ent_verts e)) (ent_tag e)) es.
Proof.
  intros Hd Hv. eapply holds_exactly_ext with (k1 := fun e => pred (gather d (flatten d pts) (ent_verts e)) (ent_tag e)).
  - intros e He. f_equal. eapply gather_positions; eauto.
  - intros g. destruct (select_spec (fun _ => false) (fun e => pred (gather d (flatten d pts) (ent_verts e)) (ent_tag e)) es g)
      as (H1 & H2 & H3). split; [exact H1|]. split; [exact H2|]. intros i. apply select_mfem_spec.
Qed.

Lemma face_attr_true battr b : face_attr battr b = true_attr battr b.
Proof. unfold face_attr, true_attr. destruct (Z.leb_spec 0 b), (Z.ltb_spec b 0); auto; lia. Qed.

Lemma of_boundary_exact {A} d (pts : list (nat -> A)) battr pred fs :
  d <> 0 -> verts_ok pts fs ->
  holds_exactly (of_boundary_elements d (flatten d pts) battr pred fs) ent_interior
    (fun e => pred (positions d pts (ent_verts e)) (true_attr battr (ent_tag e))) fs.
Proof.
  intros Hd Hv. eapply holds_exactly_ext with (k1 := fun e => pred (gather d (flatten d pts) (ent_verts e)) (face_attr battr (ent_tag e))).
  - intros e He. rewrite face_attr_true. f_equal. eapply gather_positions; eauto.
  - intros g. destruct (select_spec ent_interior (fun e => pred (gather d (flatten d pts) (ent_verts e)) (face_attr battr (ent_tag e))) fs g)
      as (H1 & H2 & H3). split; [exact H1|]. split; [exact H2|]. intros i. apply select_mfem_spec.
Qed.

Lemma of_faces_exact {A} d (pts : list (nat -> A)) battr pred fs :
  d <> 0 -> verts_ok pts fs ->
  holds_exactly (of_faces d (flatten d pts) battr pred fs) (fun _ => false)
    (fun e => pred (positions d pts (ent_verts e)) (true_attr battr (ent_tag e))) fs.
Proof.
  intros Hd Hv. eapply holds_exactly_ext with (k1 := fun e => pred (gather d (flatten d pts) (ent_verts e)) (face_attr battr (ent_tag e))).
  - intros e He. rewrite face_attr_true. f_equal. eapply gather_positions; eauto.
  - intros g. destruct (select_spec (fun _ => false) (fun e => pred (gather d (flatten d pts) (ent_verts e)) (face_attr battr (ent_tag e))) fs g)
      as (H1 & H2 & H3). split; [exact H1|]. split; [exact H2|]. intros i. apply select_mfem_spec.
Qed.

Lemma edge_attr_true battr b : b <> 0%Z -> edge_attr battr b = true_attr battr b.
Proof. unfold edge_attr, true_attr. intros. destruct (Z.ltb_spec 0 b), (Z.ltb_spec b 0); auto; lia. Qed.

Lemma of_edges_exact {A} d (pts : list (nat -> A)) battr pred es :
  d <> 0 -> verts_ok pts es -> (forall e, In e es -> ent_tag e <> 0%Z) ->
  holds_exactly (of_edges d (flatten d pts) battr pred es) (fun _ => false)
    (fun e => pred (positions d pts (ent_verts e)) (true_attr battr (ent_tag e))) es.
Proof.
  intros Hd Hv Hb. eapply holds_exactly_ext with (k1 := fun e => pred (gather d (flatten d pts) (ent_verts e)) (edge_attr battr (ent_tag e))).
  - intros e He. rewrite edge_attr_true by auto. f_equal. eapply gather_positions; eauto.
  - intros g. destruct (select_spec (fun _ => false) (fun e => pred (gather d (flatten d pts) (ent_verts e)) (edge_attr battr (ent_tag e))) es g)
      as (H1 & H2 & H3). split; [exact H1|]. split; [exact H2|]. intros i. apply select_mfem_spec.
Qed.

Lemma entire_exact skip es g (ids := ids_of (select skip (fun _ => true) 0 es empty_buckets) g) :
  ids = seq 0 (length (ranked skip g 0 es)).
Proof.
  destruct (select_spec skip (fun _ => true) es g) as (H1 & H2 & _). fold ids in H1, H2.
  assert (M : forall j, In j ids <-> j < length (ranked skip g 0 es)).
  { intros j. rewrite H2. split.
    - intros (i & e & A & _). apply nth_error_Some. congruence.
    - intros H. destruct (nth_error (ranked skip g 0 es) j) as [i|] eqn:E; [|apply nth_error_None in E; lia].
      pose proof (nth_error_In _ _ E) as D. apply ranked_map_In in D as (k & e & -> & D2 & _). exists k, e. auto. }
  assert (U : forall l s n, StronglySorted lt l -> (forall j, In j l <-> s <= j < s + n) -> l = seq s n).
  { clear. induction l as [|x l IH]; intros s n Hs Hm.
    - destruct n as [|n]; auto. destruct (proj2 (Hm s)); lia.
    - pose proof (ssorted_cons_inv _ _ Hs) as [Hs1 Hs2]. destruct n as [|n].
      { destruct (proj1 (Hm x)); [now left|lia]. }
      assert (x = s).
      { assert (Hx : s <= x) by (apply Hm; now left).
        destruct (proj2 (Hm s)) as [E|E]; [lia|auto|]. specialize (Hs2 s E). lia. }
      subst x. simpl. f_equal. apply IH; auto. intros j. split.
      + intros Hj. specialize (Hs2 j Hj). assert (s <= j < s + S n) by (apply Hm; now right). lia.
      + intros Hj. destruct (proj2 (Hm j)) as [E|E]; auto; lia. }
  apply U; auto. intros j. rewrite M. lia.
Qed.

Lemma entire_domain_exact d es g :
  dom_ids (entire_domain d es) g = seq 0 (length (ranked (fun _ => false) g 0 es)).
Proof. exact (entire_exact (fun _ => false) es g). Qed.
Lemma entire_boundary_exact d fs g :
  dom_ids (entire_boundary d fs) g = seq 0 (length (ranked ent_interior g 0 fs)).
Proof. exact (entire_exact ent_interior fs g). Qed.

(** Witnesses. *)
Definition two_squares : list entity :=
  [ {| ent_geom := Square; ent_verts := [0;1;4;3]; ent_interior := false; ent_tag := 1%Z |};
    {| ent_geom := Square; ent_verts := [1;2;5;4]; ent_interior := false; ent_tag := 2%Z |} ].
(** the seven edges of that mesh: boundary-element number, -1 for the inner one *)
Definition seven_edges : list entity :=
  map (fun '(a, b, t) => {| ent_geom := Segment; ent_verts := [a; b]; ent_interior := (t <? 0)%Z; ent_tag := t |})
   [ (0,1,0%Z); (1,4,(-1)%Z); (3,4,4%Z); (0,3,5%Z); (1,2,1%Z); (2,5,2%Z); (4,5,3%Z) ].
Definition six_points : list (nat -> Z) :=
  map (fun '(x, y) => fun j => match j with 0 => x | _ => y end)
   [ (0,0); (1,0); (2,0); (0,1); (1,1); (2,1) ]%Z.
Definition quad_dofs (i : nat) : list nat := match i with 0 => [0;1;4;3] | 1 => [1;2;5;4] | _ => [] end.
Definition edge_dofs (i : nat) : list nat :=
  match nth_error seven_edges i with Some e => ent_verts e | None => [] end.

Lemma boundary_union_loses_kind :
  let a := of_boundary_elements 2 (flatten 2 six_points) (fun _ => 1%Z) (fun _ t => (t =? 1)%Z) seven_edges in
  let b := of_boundary_elements 2 (flatten 2 six_points) (fun _ => 1%Z) (fun _ _ => true) seven_edges in
  dom_kind a = BoundaryElements /\ dom_kind b = BoundaryElements /\
  dom_kind (domain_op set_union a b) = Elements.
Proof. repeat split. Qed.

Lemma union_projects_nothing :
  let a := of_elements 2 (flatten 2 six_points) (fun _ t => (t =? 1)%Z) two_squares in
  let b := of_elements 2 (flatten 2 six_points) (fun _ t => (t =? 2)%Z) two_squares in
  dom_ids (domain_op set_union a b) Square = [0; 1] /\
  dof_list quad_dofs edge_dofs a = [0;1;3;4] /\ dof_list quad_dofs edge_dofs b = [1;2;4;5] /\
  dof_list quad_dofs edge_dofs (domain_op set_union a b) = [].
Proof. repeat split. Qed.

Lemma edge_zero_attr_lost :
  dom_ids (of_edges 2 (flatten 2 six_points) (fun _ => 3%Z) (fun _ t => (t =? 3)%Z) seven_edges) Segment = [2;3;4;5;6] /\
  (exists e, nth_error seven_edges 0 = Some e /\ true_attr (fun _ => 3%Z) (ent_tag e) = 3%Z).
Proof. split; [reflexivity|]. eexists. split; [reflexivity|reflexivity]. Qed.

(** dof_list of an edge domain asks for the dofs of the *element* with the edge's number. *)
Lemma edge_dof_list_wrong :
  let a := of_edges 2 (flatten 2 six_points) (fun _ => 3%Z)
             (fun vs _ => match vs with [[_; Some y]; [_; Some z]] => ((y =? 0) && (z =? 0))%Z | _ => false end) seven_edges in
  dom_mfem_ids a Segment = [0; 4] /\ dof_list quad_dofs edge_dofs a = [0;1;3;4] /\
  flat_map edge_dofs (dom_mfem_ids a Segment) = [0;1;1;2].
Proof. repeat split. Qed.

(** Domain::ofVertices (domain.cpp:52-87): loop over all vertices of the flat coordinate vector. *)
Definition of_vertices {A} (d : nat) (coords : list A) (pred : list (option A) -> bool) : domain :=
  let nv := Nat.div (length coords) d in
  {| dom_dim := 0; dom_kind := Elements;
     dom_ids := fun g => if geom_eqb g Point
       then filter (fun i => pred (map (fun j => nth_error coords (j * nv + i)) (seq 0 d))) (seq 0 nv) else [];
     dom_mfem_ids := fun _ => [] |}.

Lemma filter_ssorted f l : StronglySorted lt l -> StronglySorted lt (filter f l).
Proof.
  induction l as [|x l IH]; intros H; simpl; [constructor|].
  apply ssorted_cons_inv in H as [H1 H2]. destruct (f x); auto. constructor; auto.
  apply Forall_forall. intros y Hy. apply filter_In in Hy. now apply H2.
Qed.
Lemma seq_ssorted n : forall s, StronglySorted lt (seq s n).
Proof.
  induction n as [|n IH]; intros s; simpl; constructor; auto. apply Forall_forall. intros y Hy.
  apply in_seq in Hy. lia.
Qed.

Lemma of_vertices_exact {A} d (pts : list (nat -> A)) pred :
  d <> 0 ->
  StronglySorted lt (dom_ids (of_vertices d (flatten d pts) pred) Point) /\
  forall i, In i (dom_ids (of_vertices d (flatten d pts) pred) Point) <->
    exists p, nth_error pts i = Some p /\ pred (map (fun j => Some (p j)) (seq 0 d)) = true.
Proof.
  intros Hd. unfold of_vertices. cbn [dom_ids geom_eqb]. rewrite flatten_length.
  replace (Nat.div (d * length pts) d) with (length pts) by (rewrite Nat.mul_comm, Nat.div_mul; auto).
  split; [apply filter_ssorted, seq_ssorted|]. intros i. rewrite filter_In, in_seq.
  assert (G : forall p, nth_error pts i = Some p ->
     map (fun j => nth_error (flatten d pts) (j * length pts + i)) (seq 0 d) = map (fun j => Some (p j)) (seq 0 d)).
  { intros p Hp. apply map_ext_in. intros j Hj. apply in_seq in Hj. unfold flatten.
    rewrite (nth_error_flat pts i p Hp d 0 j) by lia. reflexivity. }
  split.
  - intros [H1 H2]. destruct (nth_error pts i) as [p|] eqn:E.
    + exists p. rewrite (G p eq_refl) in H2. auto.
    + apply nth_error_None in E. lia.
  - intros (p & Hp & H). rewrite (G p Hp). split; auto.
    assert (i < length pts) by (apply nth_error_Some; congruence). lia.
Qed.

(** The dofs of a domain built from elements (or from boundary faces): exactly those of the accepted ones. *)
Lemma dofs_of_elements {A} d (pts : list (nat -> A)) pred es ed fd :
  d <> 0 -> verts_ok pts es -> (forall e, In e es -> In (ent_geom e) (geoms_of_dim d)) ->
  forall x, In x (dof_list ed fd (of_elements d (flatten d pts) pred es)) <->
    exists i e, nth_error es i = Some e /\ pred (positions d pts (ent_verts e)) (ent_tag e) = true /\ In x (ed i).
Proof.
  intros Hd Hv Hg x. destruct (dof_list_spec ed fd (of_elements d (flatten d pts) pred es)) as [_ ->].
  pose proof (of_elements_exact d pts pred es Hd Hv) as HX. split.
  - intros (g & i & H1 & H2 & H3). apply (proj2 (proj2 (HX g))) in H2 as (e & E1 & E2 & E3 & E4). exists i, e. auto.
  - intros (i & e & E1 & E2 & E3). exists (ent_geom e), i. split; [|split].
    + apply (Hg e). eapply nth_error_In; eauto.
    + apply (proj2 (proj2 (HX (ent_geom e)))). exists e. auto.
    + exact E3.
Qed.

Lemma dofs_of_boundary {A} d (pts : list (nat -> A)) battr pred fs ed fd :
  d <> 0 -> verts_ok pts fs -> (forall e, In e fs -> In (ent_geom e) (geoms_of_dim (d - 1))) ->
  forall x, In x (dof_list ed fd (of_boundary_elements d (flatten d pts) battr pred fs)) <->
    exists i e, nth_error fs i = Some e /\ ent_interior e = false /\
      pred (positions d pts (ent_verts e)) (true_attr battr (ent_tag e)) = true /\ In x (fd i).
Proof.
  intros Hd Hv Hg x. destruct (dof_list_spec ed fd (of_boundary_elements d (flatten d pts) battr pred fs)) as [_ ->].
  pose proof (of_boundary_exact d pts battr pred fs Hd Hv) as HX. split.
  - intros (g & i & H1 & H2 & H3). apply (proj2 (proj2 (HX g))) in H2 as (e & E1 & E2 & E3 & E4). exists i, e. auto.
  - intros (i & e & E1 & E2 & E3 & E4). exists (ent_geom e), i. split; [|split].
    + apply (Hg e). eapply nth_error_In; eauto.
    + apply (proj2 (proj2 (HX (ent_geom e)))). exists e. auto.
    + exact E4.
Qed.

Lemma kind_lost : exists a b, dom_kind a = BoundaryElements /\ dom_kind b = BoundaryElements /\
  dom_dim a = dom_dim b /\ dom_kind (domain_op set_union a b) = Elements.
Proof.
  exists (entire_boundary 2 seven_edges), (entire_boundary 2 seven_edges). repeat split.
Qed.
Lemma union_no_dofs : exists (a b : domain) (ed fd : nat -> list nat),
    dom_ids (domain_op set_union a b) Square = [0; 1] /\
    dof_list ed fd a = [0;1;3;4] /\ dof_list ed fd b = [1;2;4;5] /\
    dof_list ed fd (domain_op set_union a b) = [].
Proof. do 2 eexists. exists quad_dofs, edge_dofs. exact union_projects_nothing. Qed.
Lemma edges_miss_zero : exists (es : list entity) (pts : list (nat -> Z)),
    dom_ids (of_edges 2 (flatten 2 pts) (fun _ => 3%Z) (fun _ t => (t =? 3)%Z) es) Segment = [2;3;4;5;6] /\
    exists e, nth_error es 0 = Some e /\ true_attr (fun _ => 3%Z) (ent_tag e) = 3%Z.
Proof. exists seven_edges, six_points. exact edge_zero_attr_lost. Qed.
Lemma edge_dofs_wrong : exists (a : domain) (ed fd : nat -> list nat),
    dom_mfem_ids a Segment = [0; 4] /\ dof_list ed fd a = [0;1;3;4] /\
    flat_map fd (dom_mfem_ids a Segment) = [0;1;1;2].
Proof. eexists. exists quad_dofs, edge_dofs. exact edge_dof_list_wrong. Qed.
