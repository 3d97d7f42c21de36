(** * Degrees of freedom held on whole elements (C97)
    Models /repo/src/serac/physics/boundary_conditions/boundary_condition_helper.cpp:10-61. *)
From Coq Require Import ZArith List Lia Bool Sorted.
From Verif Require Import DofCodec.
Import ListNotations.
Local Open Scope Z_scope.

(** ** the finite element space, as far as the functions read it *)
(** One process: its scalar degrees of freedom are 0 .. [k_ndofs]-1; each element has an attribute (counted from 1) and a list of scalar degrees of
    freedom, where -1-d stands for d with the opposite sign; [k_name] gives every local vector degree of freedom the number that all copies of it on
    other processes share; [k_owned] lists the local numbers of the true degrees of freedom (the rows of GetRestrictionMatrix). *)
Record process := { k_ndofs : nat; k_elements : list (Z * list Z); k_name : nat -> nat; k_owned : list nat }.
Record fe_space := { s_order : ordering; s_vdim : nat; s_processes : list process }.

(** MFEM FiniteElementSpace::DofToVDof (not in /repo), called in line 50 *)
Definition dof_to_vdof (o : ordering) (nd vdim : nat) (dof c : Z) : Z :=
  match o with
  | byNODES => if dof <? 0 then dof - Z.of_nat nd * c else dof + Z.of_nat nd * c
  | byVDIM => if dof <? 0 then -1 - (c + Z.of_nat vdim * (-1 - dof)) else c + Z.of_nat vdim * dof
  end.
(** MFEM GetElementVDofs (not in /repo), called in line 44: all components, one after the other *)
Definition element_vdofs (o : ordering) (nd vdim : nat) (dofs : list Z) : list Z :=
  flat_map (fun c => map (fun d => dof_to_vdof o nd vdim d (Z.of_nat c)) dofs) (seq 0 vdim).
(** an array write; [None]: outside the array *)
Fixpoint store (l : list Z) (k : nat) (x : Z) : option (list Z) :=
  match l, k with
  | [], _ => None
  | _ :: r, O => Some (x :: r)
  | y :: r, S k => match store r k x with None => None | Some r' => Some (y :: r') end
  end.
(** lines 22-31 mark_dofs *)
Fixpoint mark_dofs (dofs : list Z) (marks : list Z) : option (list Z) :=
  match dofs with
  | [] => Some marks
  | d :: r => let k := if d <? 0 then -1 - d else d in
      match store marks (Z.to_nat k) (-1) with None => None | Some marks' => mark_dofs r marks' end
  end.
(** lines 41-58, the loop over the elements; the attribute array is read at attribute minus one, outside of it is [None] *)
Fixpoint mark_elements (o : ordering) (nd vdim : nat) (ess : list bool) (component : Z) (es : list (Z * list Z)) (marks : list Z) : option (list Z) :=
  match es with
  | [] => Some marks
  | (a, dofs) :: r =>
      match (if a - 1 <? 0 then None else nth_error ess (Z.to_nat (a - 1))) with
      | None => None
      | Some false => mark_elements o nd vdim ess component r marks
      | Some true =>
          let vdofs := if component <? 0 then element_vdofs o nd vdim dofs else map (fun d => dof_to_vdof o nd vdim d component) dofs in
          match mark_dofs vdofs marks with None => None | Some marks' => mark_elements o nd vdim ess component r marks' end
      end
  end.
(** lines 33-58 without the exchange between processes *)
Definition local_marks (o : ordering) (vdim : nat) (ess : list bool) (component : Z) (p : process) : option (list Z) :=
  mark_elements o (k_ndofs p) vdim ess component (k_elements p) (repeat 0 (vdim * k_ndofs p)).
Fixpoint all_some {A} (l : list (option A)) : option (list A) :=
  match l with [] => Some [] | None :: _ => None | Some a :: r => match all_some r with None => None | Some r' => Some (a :: r') end end.
(** line 59 ParFiniteElementSpace::Synchronize (MFEM, not in /repo): bitwise or over all copies *)
Definition marked_copy (ps : list (process * list Z)) (g : nat) : bool :=
  existsb (fun pm => existsb (fun k => Nat.eqb (k_name (fst pm) k) g && negb (nth k (snd pm) 0 =? 0)) (seq 0 (length (snd pm)))) ps.
Definition synchronize (ps : list (process * list Z)) : list (list Z) :=
  map (fun pm => map (fun k => if marked_copy ps (k_name (fst pm) k) then -1 else 0) (seq 0 (length (snd pm)))) ps.
(** lines 33-60 on all processes *)
Definition essential_vdofs (sp : fe_space) (ess : list bool) (component : Z) : option (list (list Z)) :=
  match all_some (map (local_marks (s_order sp) (s_vdim sp) ess component) (s_processes sp)) with
  | None => None
  | Some ms => Some (synchronize (combine (s_processes sp) ms))
  end.
(** MFEM MarkerToList (not in /repo) *)
Definition marker_to_list (l : list Z) : list nat := filter (fun i => negb (nth i l 0 =? 0)) (seq 0 (length l)).
(** lines 10-20: restriction to the true degrees of freedom, then the list *)
Definition essential_true_dofs (sp : fe_space) (ess : list bool) (component : Z) : option (list (list nat)) :=
  match essential_vdofs sp ess component with
  | None => None
  | Some ms => Some (map (fun pm => marker_to_list (map (fun k => nth k (snd pm) 0) (k_owned (fst pm)))) (combine (s_processes sp) ms))
  end.

(** ** specification *)
Definition node_of (d : Z) : nat := Z.to_nat (if d <? 0 then -1 - d else d).
Definition vector_number (o : ordering) (nd vdim a c : nat) : nat := match o with byNODES => c * nd + a | byVDIM => a * vdim + c end.
(** some element with attribute [a] on [p] has a node whose component [c] is local degree of freedom [k] *)
Definition touches (o : ordering) (vdim : nat) (p : process) (a : Z) (c k : nat) : Prop :=
  exists dofs d, In (a, dofs) (k_elements p) /\ In d dofs /\ k = vector_number o (k_ndofs p) vdim (node_of d) c.
Definition chosen (ess : list bool) (a : Z) : Prop := 1 <= a /\ nth_error ess (Z.to_nat (a - 1)) = Some true.
Definition wanted (vdim : nat) (component : Z) (c : nat) : Prop := (c < vdim)%nat /\ (component < 0 \/ component = Z.of_nat c).
(** attributes and degrees of freedom are in range, and the local numbers of true degrees of freedom exist *)
Definition proper (ess : list bool) (vdim : nat) (p : process) : Prop :=
  (forall a dofs, In (a, dofs) (k_elements p) -> 1 <= a <= Z.of_nat (length ess) /\ forall d, In d dofs -> (node_of d < k_ndofs p)%nat) /\
  forall k, In k (k_owned p) -> (k < vdim * k_ndofs p)%nat.
(** the vector degree of freedom known to all processes as [g] lies on an element with a chosen attribute, in a wanted component *)
Definition on_chosen_element (sp : fe_space) (ess : list bool) (component : Z) (g : nat) : Prop :=
  exists p a c k, In p (s_processes sp) /\ chosen ess a /\ wanted (s_vdim sp) component c /\ touches (s_order sp) (s_vdim sp) p a c k /\ k_name p k = g.

(** ** one process *)
Lemma store_ok : forall l k x, (k < length l)%nat -> exists l', store l k x = Some l' /\ length l' = length l /\ forall j, nth j l' 0 = if Nat.eqb j k then x else nth j l 0.
Proof.
  intros l. induction l as [|y l IH]; intros k x H; cbn in H; [lia|]. destruct k as [|k]; cbn [store].
  - exists (x :: l). split; [reflexivity|]. split; [reflexivity|]. intros [|j]; reflexivity.
  - destruct (IH k x ltac:(lia)) as (l' & E & L & N). rewrite E. exists (y :: l'). split; [reflexivity|]. split; [cbn; lia|]. intros [|j]; [reflexivity|]. cbn [nth Nat.eqb]. apply N.
Qed.
Lemma mark_dofs_ok : forall dofs marks, (forall d, In d dofs -> (node_of d < length marks)%nat) -> exists marks', mark_dofs dofs marks = Some marks' /\ length marks' = length marks /\
  forall k, nth k marks' 0 = if existsb (fun d => Nat.eqb k (node_of d)) dofs then -1 else nth k marks 0.
Proof.
  intros dofs. induction dofs as [|d dofs IH]; intros marks H; cbn [mark_dofs existsb]; [exists marks; auto|].
  destruct (store_ok marks (node_of d) (-1) (H d (or_introl eq_refl))) as (m1 & E1 & L1 & N1). unfold node_of in E1 at 1. rewrite E1.
  destruct (IH m1) as (m2 & E2 & L2 & N2); [intros d' Hd; rewrite L1; apply H; now right|]. exists m2. split; [exact E2|]. split; [congruence|]. intros k. rewrite N2, N1.
  destruct (Nat.eqb k (node_of d)), (existsb _ dofs); reflexivity.
Qed.
Lemma vdof_node o nd vdim d c : 0 <= c -> node_of (dof_to_vdof o nd vdim d c) = vector_number o nd vdim (node_of d) (Z.to_nat c).
Proof.
  intros H. unfold node_of, dof_to_vdof, vector_number. destruct (Z.ltb_spec d 0) as [N|N]; destruct o.
  - rewrite (proj2 (Z.ltb_lt _ 0)) by nia. nia.
  - rewrite (proj2 (Z.ltb_lt _ 0)) by nia. nia.
  - rewrite (proj2 (Z.ltb_ge _ 0)) by nia. nia.
  - rewrite (proj2 (Z.ltb_ge _ 0)) by nia. nia.
Qed.
Lemma number_bound o nd vdim a c : (a < nd)%nat -> (c < vdim)%nat -> (vector_number o nd vdim a c < vdim * nd)%nat.
Proof. intros. unfold vector_number. destruct o; nia. Qed.
Definition vdofs_of o nd vdim component dofs := if component <? 0 then element_vdofs o nd vdim dofs else map (fun d => dof_to_vdof o nd vdim d component) dofs.
Lemma vdofs_in o nd vdim component dofs k : (component < Z.of_nat vdim) -> (exists v, In v (vdofs_of o nd vdim component dofs) /\ k = node_of v) <->
  exists d c, In d dofs /\ wanted vdim component c /\ k = vector_number o nd vdim (node_of d) c.
Proof.
  intros HC. unfold vdofs_of, wanted. destruct (Z.ltb_spec component 0) as [N|N]; split.
  - intros (v & Hv & ->). apply in_flat_map in Hv as (c & Hc & Hv). apply in_seq in Hc. apply in_map_iff in Hv as (d & <- & Hd). exists d, c. rewrite vdof_node by lia. rewrite Nat2Z.id. repeat split; auto; lia.
  - intros (d & c & Hd & (Hc & _) & ->). exists (dof_to_vdof o nd vdim d (Z.of_nat c)). rewrite vdof_node by lia. rewrite Nat2Z.id. split; [|reflexivity]. apply in_flat_map. exists c. split; [apply in_seq; lia|]. apply in_map_iff. eauto.
  - intros (v & Hv & ->). apply in_map_iff in Hv as (d & <- & Hd). exists d, (Z.to_nat component). rewrite vdof_node by lia. repeat split; auto; lia.
  - intros (d & c & Hd & (Hc & [W|W]) & ->); [lia|]. subst component. exists (dof_to_vdof o nd vdim d (Z.of_nat c)). rewrite vdof_node by lia. rewrite Nat2Z.id. split; [|reflexivity]. apply in_map_iff. exists d. auto.
Qed.
Lemma mark_elements_ok o nd vdim ess component : component < Z.of_nat vdim -> forall es marks, length marks = (vdim * nd)%nat ->
  (forall a dofs, In (a, dofs) es -> 1 <= a <= Z.of_nat (length ess) /\ forall d, In d dofs -> (node_of d < nd)%nat) ->
  exists marks', mark_elements o nd vdim ess component es marks = Some marks' /\ length marks' = length marks /\
  forall k, ((exists a dofs d c, In (a, dofs) es /\ chosen ess a /\ In d dofs /\ wanted vdim component c /\ k = vector_number o nd vdim (node_of d) c) /\ nth k marks' 0 = -1) \/
            (~ (exists a dofs d c, In (a, dofs) es /\ chosen ess a /\ In d dofs /\ wanted vdim component c /\ k = vector_number o nd vdim (node_of d) c) /\ nth k marks' 0 = nth k marks 0).
Proof.
  intros HC es. induction es as [|[a dofs] es IH]; intros marks HL HP; cbn [mark_elements].
  - exists marks. split; [reflexivity|]. split; [reflexivity|]. intros k. right. split; [|reflexivity]. intros (a & dofs & d & c & [] & _).
  - destruct (HP a dofs (or_introl eq_refl)) as [HA HD]. rewrite (proj2 (Z.ltb_ge (a - 1) 0)) by lia. destruct (nth_error ess (Z.to_nat (a - 1))) as [b|] eqn:EB; [|apply nth_error_None in EB; lia].
    assert (HP' : forall a0 dofs0, In (a0, dofs0) es -> 1 <= a0 <= Z.of_nat (length ess) /\ forall d, In d dofs0 -> (node_of d < nd)%nat) by (intros a0 d0 H0; apply HP; now right).
    destruct b.
    + fold (vdofs_of o nd vdim component dofs). destruct (mark_dofs_ok (vdofs_of o nd vdim component dofs) marks) as (m1 & E1 & L1 & N1).
      { intros v Hv. destruct (proj1 (vdofs_in o nd vdim component dofs (node_of v) HC) (ex_intro _ v (conj Hv eq_refl))) as (d & c & Hd & (Hc & _) & ->). rewrite HL. apply number_bound; [now apply HD|exact Hc]. }
      rewrite E1. destruct (IH m1 ltac:(congruence) HP') as (m2 & E2 & L2 & N2). exists m2. split; [exact E2|]. split; [congruence|]. intros k. destruct (N2 k) as [[(a1 & d1 & d & c & I1 & C1 & Q) N]|[NE N]].
      * left. split; [|exact N]. exists a1, d1, d, c. split; [now right|]. split; [exact C1|exact Q].
      * rewrite N1 in N. destruct (existsb (fun d => Nat.eqb k (node_of d)) (vdofs_of o nd vdim component dofs)) eqn:EX.
        -- left. split; [|exact N]. apply existsb_exists in EX as (v & Hv & EQ). apply Nat.eqb_eq in EQ. destruct (proj1 (vdofs_in o nd vdim component dofs k HC) (ex_intro _ v (conj Hv EQ))) as (d & c & Hd & W & K).
           exists a, dofs, d, c. split; [now left|]. split; [split; [lia|exact EB]|]. auto.
        -- right. split; [|exact N]. intros (a1 & d1 & d & c & [EI|I1] & C1 & Hd & W & K); [|apply NE; exists a1, d1, d, c; auto]. injection EI as <- <-.
           destruct (proj2 (vdofs_in o nd vdim component dofs k HC)) as (v & Hv & EQ); [eauto|]. assert (T : existsb (fun d => Nat.eqb k (node_of d)) (vdofs_of o nd vdim component dofs) = true) by (apply existsb_exists; exists v; split; [exact Hv|now apply Nat.eqb_eq]). congruence.
    + destruct (IH marks HL HP') as (m2 & E2 & L2 & N2). exists m2. split; [exact E2|]. split; [exact L2|]. intros k. destruct (N2 k) as [[(a1 & d1 & d & c & I1 & Q) N]|[NE N]].
      * left. split; [|exact N]. exists a1, d1, d, c. split; [now right|exact Q].
      * right. split; [|exact N]. intros (a1 & d1 & d & c & [EI|I1] & C1 & Q); [|apply NE; exists a1, d1, d, c; auto]. injection EI as <- <-. destruct C1 as [_ C1]. congruence.
Qed.
Theorem local_marks_ok o vdim ess component p : proper ess vdim p -> component < Z.of_nat vdim -> exists marks, local_marks o vdim ess component p = Some marks /\ length marks = (vdim * k_ndofs p)%nat /\
  forall k, ((exists a c, chosen ess a /\ wanted vdim component c /\ touches o vdim p a c k) /\ nth k marks 0 = -1) \/ (~ (exists a c, chosen ess a /\ wanted vdim component c /\ touches o vdim p a c k) /\ nth k marks 0 = 0).
Proof.
  intros [P _] HC. unfold local_marks. destruct (mark_elements_ok o (k_ndofs p) vdim ess component HC (k_elements p) (repeat 0 (vdim * k_ndofs p)) (repeat_length _ _) P) as (m & E & L & N). exists m. split; [exact E|]. rewrite repeat_length in L. split; [exact L|].
  intros k. destruct (N k) as [[(a & dofs & d & c & H1 & H2 & H3 & H4 & H5) Q]|[NE Q]].
  - left. split; [|exact Q]. exists a, c. split; [exact H2|]. split; [exact H4|]. exists dofs, d. auto.
  - right. split; [|rewrite Q; apply nth_repeat]. intros (a & c & H2 & H4 & dofs & d & H1 & H3 & H5). apply NE. exists a, dofs, d, c. auto.
Qed.
(** ** all processes *)
Lemma all_marks o vdim ess component : component < Z.of_nat vdim -> forall ps, (forall p, In p ps -> proper ess vdim p) -> exists ms, all_some (map (local_marks o vdim ess component) ps) = Some ms /\
  List.Forall2 (fun p marks => length marks = (vdim * k_ndofs p)%nat /\ forall k, nth k marks 0 <> 0 <-> exists a c, chosen ess a /\ wanted vdim component c /\ touches o vdim p a c k) ps ms.
Proof.
  intros HC ps. induction ps as [|p ps IH]; intros H; cbn [map all_some]; [exists []; auto|].
  destruct (local_marks_ok o vdim ess component p (H p (or_introl eq_refl)) HC) as (m & E & L & N). rewrite E. destruct IH as (ms & E2 & F); [intros q Hq; apply H; now right|]. rewrite E2. exists (m :: ms). split; [reflexivity|].
  constructor; [|exact F]. split; [exact L|]. intros k. destruct (N k) as [[Q1 Q2]|[Q1 Q2]]; rewrite Q2; split; intros Z; [exact Q1|lia|lia|contradiction].
Qed.
Lemma combine_forall2 {A B} (Q : A -> B -> Prop) l1 l2 : List.Forall2 Q l1 l2 -> (forall a b, In (a, b) (combine l1 l2) -> Q a b) /\ forall a, In a l1 -> exists b, In (a, b) (combine l1 l2).
Proof.
  intros F. induction F as [|a b l1 l2 H F [I1 I2]]; [split; intros; contradiction|]. split.
  - intros x y [E|I]; [now injection E as <- <-|now apply I1].
  - intros x [<-|I]; [exists b; now left|]. destruct (I2 x I) as (y & Hy). exists y. now right.
Qed.
Lemma marked_copy_iff o vdim ess component ps ms g : (forall p, In p ps -> proper ess vdim p) -> List.Forall2 (fun p marks => length marks = (vdim * k_ndofs p)%nat /\ forall k, nth k marks 0 <> 0 <-> exists a c, chosen ess a /\ wanted vdim component c /\ touches o vdim p a c k) ps ms ->
  marked_copy (combine ps ms) g = true <-> exists p a c k, In p ps /\ chosen ess a /\ wanted vdim component c /\ touches o vdim p a c k /\ k_name p k = g.
Proof.
  intros PR F. destruct (combine_forall2 _ _ _ F) as [I1 I2]. unfold marked_copy. rewrite existsb_exists. split.
  - intros ([p m] & Hpm & H). apply existsb_exists in H as (k & Hk & H). apply andb_prop in H as [H1 H2]. apply Nat.eqb_eq in H1. destruct (I1 p m Hpm) as [L N]. cbn [fst snd] in *.
    destruct (proj1 (N k)) as (a & c & Q1 & Q2 & Q3); [intros E; rewrite E in H2; discriminate|]. exists p, a, c, k. split; [exact (in_combine_l _ _ _ _ Hpm)|]. auto.
  - intros (p & a & c & k & Hp & Q1 & Q2 & Q3 & Q4). destruct (I2 p Hp) as (m & Hm). exists (p, m). split; [exact Hm|]. destruct (I1 p m Hm) as [L N]. apply existsb_exists. exists k. cbn [fst snd]. split.
    + apply in_seq. rewrite L. split; [lia|]. destruct Q3 as (dofs & d & D1 & D2 & ->). apply number_bound; [|apply Q2]. destruct (PR p Hp) as [PP _]. now apply (PP a dofs).
    + rewrite (proj2 (Nat.eqb_eq _ _) Q4). destruct (Z.eqb_spec (nth k m 0) 0) as [E|E]; [|reflexivity]. exfalso. apply (proj2 (N k)); [exists a, c; auto|exact E].
Qed.
Lemma nth_map_seq (f : nat -> Z) n k : (k < n)%nat -> nth k (map f (seq 0 n)) 0 = f k.
Proof. intros H. rewrite (nth_indep _ 0 (f 0%nat)) by (rewrite map_length, seq_length; exact H). rewrite map_nth, seq_nth by exact H. reflexivity. Qed.
Lemma combine_sync (h : process -> list Z -> list Z) ps : forall ms, length ms = length ps -> combine ps (map (fun pm => h (fst pm) (snd pm)) (combine ps ms)) = map (fun pm => (fst pm, h (fst pm) (snd pm))) (combine ps ms).
Proof. induction ps as [|p ps IH]; intros [|m ms] E; try discriminate; [reflexivity|]. cbn [combine map fst snd]. f_equal. apply IH. now injection E. Qed.
Lemma sorted_filter (f : nat -> bool) n : forall s, StronglySorted lt (filter f (seq s n)).
Proof.
  induction n as [|n IH]; intros s; cbn [seq filter]; [constructor|]. destruct (f s); [|apply IH]. constructor; [apply IH|]. apply Forall_forall. intros x Hx. apply filter_In in Hx as [Hx _]. apply in_seq in Hx. lia.
Qed.
(** the marks on every copy *)
Theorem essential_vdofs_ok sp ess component : (forall p, In p (s_processes sp) -> proper ess (s_vdim sp) p) -> component < Z.of_nat (s_vdim sp) ->
  exists ms, essential_vdofs sp ess component = Some ms /\ List.Forall2 (fun p marks => length marks = (s_vdim sp * k_ndofs p)%nat /\
    forall k, (k < s_vdim sp * k_ndofs p)%nat -> (nth k marks 0 = -1 <-> on_chosen_element sp ess component (k_name p k)) /\ (nth k marks 0 = 0 <-> ~ on_chosen_element sp ess component (k_name p k))) (s_processes sp) ms.
Proof.
  intros PR HC. unfold essential_vdofs. destruct (all_marks (s_order sp) (s_vdim sp) ess component HC (s_processes sp) PR) as (ms & E & F). rewrite E. eexists. split; [reflexivity|]. unfold synchronize.
  assert (MC := fun g => marked_copy_iff (s_order sp) (s_vdim sp) ess component (s_processes sp) ms g PR F).
  assert (G : forall ps, (forall p, In p ps -> In p (s_processes sp)) -> forall mz, List.Forall2 (fun p marks => length marks = (s_vdim sp * k_ndofs p)%nat /\ forall k, nth k marks 0 <> 0 <-> exists a c, chosen ess a /\ wanted (s_vdim sp) component c /\ touches (s_order sp) (s_vdim sp) p a c k) ps mz ->
    List.Forall2 (fun p marks => length marks = (s_vdim sp * k_ndofs p)%nat /\
    forall k, (k < s_vdim sp * k_ndofs p)%nat -> (nth k marks 0 = -1 <-> on_chosen_element sp ess component (k_name p k)) /\ (nth k marks 0 = 0 <-> ~ on_chosen_element sp ess component (k_name p k))) ps
      (map (fun pm => map (fun k => if marked_copy (combine (s_processes sp) ms) (k_name (fst pm) k) then -1 else 0) (seq 0 (length (snd pm)))) (combine ps mz))).
  { intros ps _ ms0 F0. induction F0 as [|p m ps ms0 [L N] F0 IH]; [constructor|]. cbn [combine map]. constructor; [|exact IH]. cbn [fst snd]. rewrite map_length, seq_length. split; [exact L|]. intros k Hk. rewrite nth_map_seq by lia.
    assert (Q : marked_copy (combine (s_processes sp) ms) (k_name p k) = true <-> on_chosen_element sp ess component (k_name p k)) by exact (MC (k_name p k)). destruct (marked_copy (combine (s_processes sp) ms) (k_name p k)).
    - assert (O := proj1 Q eq_refl). split; split; intros H; [exact O|reflexivity|discriminate|contradiction].
    - assert (O : ~ on_chosen_element sp ess component (k_name p k)) by (intros H; apply Q in H; discriminate). split; split; intros H; [discriminate|contradiction|exact O|reflexivity]. }
  apply G; [auto|exact F].
Qed.
(** the lists of true degrees of freedom *)
Theorem essential_true_ok sp ess component : (forall p, In p (s_processes sp) -> proper ess (s_vdim sp) p) -> component < Z.of_nat (s_vdim sp) ->
  exists ls, essential_true_dofs sp ess component = Some ls /\ List.Forall2 (fun p l => StronglySorted lt l /\
    forall i, In i l <-> exists k, nth_error (k_owned p) i = Some k /\ on_chosen_element sp ess component (k_name p k)) (s_processes sp) ls.
Proof.
  intros PR HC. unfold essential_true_dofs. destruct (essential_vdofs_ok sp ess component PR HC) as (ms & E & F). rewrite E. eexists. split; [reflexivity|].
  assert (G : forall ps, (forall p, In p ps -> proper ess (s_vdim sp) p) -> forall ms, List.Forall2 (fun p marks => length marks = (s_vdim sp * k_ndofs p)%nat /\
    forall k, (k < s_vdim sp * k_ndofs p)%nat -> (nth k marks 0 = -1 <-> on_chosen_element sp ess component (k_name p k)) /\ (nth k marks 0 = 0 <-> ~ on_chosen_element sp ess component (k_name p k))) ps ms ->
    List.Forall2 (fun p l => StronglySorted lt l /\ forall i, In i l <-> exists k, nth_error (k_owned p) i = Some k /\ on_chosen_element sp ess component (k_name p k)) ps
      (map (fun pm => marker_to_list (map (fun k => nth k (snd pm) 0) (k_owned (fst pm)))) (combine ps ms))); [|now apply G].
  intros ps PS ms0 F0. induction F0 as [|p m ps ms0 [L N] F0 IH]; [constructor|]. cbn [combine map]. constructor; [|apply IH; intros q Hq; apply PS; now right]. cbn [fst snd]. unfold marker_to_list. split; [apply sorted_filter|].
  intros i. rewrite filter_In, in_seq, map_length. assert (V : forall k, nth_error (k_owned p) i = Some k -> nth i (map (fun k => nth k m 0) (k_owned p)) 0 = nth k m 0 /\ (k < s_vdim sp * k_ndofs p)%nat).
  { intros k Ek. split; [|apply (PS p (or_introl eq_refl)); now apply nth_error_In in Ek]. apply nth_error_nth. exact (map_nth_error (fun k => nth k m 0) i (k_owned p) Ek). }
  split.
  - intros [[_ Hi] H]. destruct (nth_error (k_owned p) i) as [k|] eqn:Ek; [|apply nth_error_None in Ek; lia]. exists k. split; [reflexivity|]. destruct (V k eq_refl) as [V1 V2]. rewrite V1 in H. destruct (N k V2) as [N1 N2].
    destruct (Z.eqb_spec (nth k m 0) 0) as [Z0|Z0]; [discriminate|]. apply N1. destruct (Z.eq_dec (nth k m 0) (-1)) as [|NZ]; [assumption|]. exfalso. apply Z0, N2. intros O. apply NZ, N1, O.
  - intros (k & Ek & O). destruct (V k Ek) as [V1 V2]. split; [split; [lia|]; assert (nth_error (k_owned p) i <> None) by congruence; now apply nth_error_Some in H|]. rewrite V1. destruct (N k V2) as [N1 _]. rewrite (proj2 N1 O). reflexivity.
Qed.
(** ** the whole machine, and other divisions of the mesh *)
(** [g] is in the list of the process that owns it *)
Definition listed (sp : fe_space) (ls : list (list nat)) (g : nat) : Prop :=
  exists p l i k, In (p, l) (combine (s_processes sp) ls) /\ In i l /\ nth_error (k_owned p) i = Some k /\ k_name p k = g.
Definition on_element (sp : fe_space) (a : Z) (c g : nat) : Prop := exists p k, In p (s_processes sp) /\ touches (s_order sp) (s_vdim sp) p a c k /\ k_name p k = g.
Definition owned_somewhere (sp : fe_space) : Prop := forall a c g, (c < s_vdim sp)%nat -> on_element sp a c g -> exists p i k, In p (s_processes sp) /\ nth_error (k_owned p) i = Some k /\ k_name p k = g.
Theorem listed_ok sp ess component ls : (forall p, In p (s_processes sp) -> proper ess (s_vdim sp) p) -> component < Z.of_nat (s_vdim sp) -> owned_somewhere sp ->
  essential_true_dofs sp ess component = Some ls -> forall g, listed sp ls g <-> exists a c, chosen ess a /\ wanted (s_vdim sp) component c /\ on_element sp a c g.
Proof.
  intros PR HC OW E g. destruct (essential_true_ok sp ess component PR HC) as (ls' & E' & F). rewrite E in E'. injection E' as <-. destruct (combine_forall2 _ _ _ F) as [I1 I2]. split.
  - intros (p & l & i & k & Hp & Hi & Hk & <-). destruct (I1 p l Hp) as [_ Q]. destruct (proj1 (Q i) Hi) as (k' & Hk' & (q & a & c & j & H1 & H2 & H3 & H4 & H5)). rewrite Hk in Hk'. injection Hk' as <-. exists a, c. split; [exact H2|]. split; [exact H3|]. exists q, j. auto.
  - intros (a & c & H2 & H3 & O). destruct (OW a c g (proj1 H3) O) as (p & i & k & Hp & Hk & Hg). destruct (I2 p Hp) as (l & Hl). exists p, l, i, k. split; [exact Hl|]. split; [|auto]. destruct (I1 p l Hl) as [_ Q]. apply Q. exists k. split; [exact Hk|].
    destruct O as (q & j & O1 & O2 & O3). exists q, a, c, j. rewrite Hg. auto.
Qed.
Theorem division_ok sp1 sp2 ess component ls1 ls2 : (forall p, In p (s_processes sp1) -> proper ess (s_vdim sp1) p) -> (forall p, In p (s_processes sp2) -> proper ess (s_vdim sp2) p) ->
  s_vdim sp1 = s_vdim sp2 -> (forall a c g, on_element sp1 a c g <-> on_element sp2 a c g) -> component < Z.of_nat (s_vdim sp1) -> owned_somewhere sp1 -> owned_somewhere sp2 ->
  essential_true_dofs sp1 ess component = Some ls1 -> essential_true_dofs sp2 ess component = Some ls2 -> forall g, listed sp1 ls1 g <-> listed sp2 ls2 g.
Proof.
  intros P1 P2 EV EO HC O1 O2 E1 E2 g. rewrite (listed_ok sp1 ess component ls1 P1 HC O1 E1 g), (listed_ok sp2 ess component ls2 P2 ltac:(rewrite <- EV; exact HC) O2 E2 g). rewrite EV. split; intros (a & c & H1 & H2 & H3); exists a, c; (split; [exact H1|]; split; [exact H2|]); now apply EO.
Qed.

(** ** three segments on two processes, two components; the last segment has a degree of freedom of opposite sign *)
Definition left_half : process := {| k_ndofs := 3; k_elements := [(1, [0; 1]); (2, [1; 2])]; k_name := fun k => (k / 3 * 4 + k mod 3)%nat; k_owned := seq 0 6 |}.
Definition right_half : process := {| k_ndofs := 2; k_elements := [(1, [0; -2])]; k_name := fun k => (k / 2 * 4 + k mod 2 + 2)%nat; k_owned := [1; 3]%nat |}.
Definition segments : fe_space := {| s_order := byNODES; s_vdim := 2; s_processes := [left_half; right_half] |}.
Lemma segments_proper p : In p (s_processes segments) -> proper [true; false] 2 p.
Proof.
  intros [<-|[<-|[]]]; split; cbn [left_half right_half k_elements k_owned k_ndofs length].
  - intros a dofs [E|[E|[]]]; injection E as <- <-; (split; [lia|]); intros d [<-|[<-|[]]]; cbn; lia.
  - intros k H. apply in_seq in H. lia.
  - intros a dofs [E|[]]; injection E as <- <-; (split; [lia|]); intros d [<-|[<-|[]]]; cbn; lia.
  - intros k [<-|[<-|[]]]; cbn; lia.
Qed.
Lemma segments_lists : essential_true_dofs segments [true; false] 1 = Some [[3; 4; 5]; [1]]%nat.
Proof. reflexivity. Qed.
Lemma segments_owned : owned_somewhere segments.
Proof.
  intros a c g Hc (p & k & Hp & (dofs & d & H1 & H2 & ->) & <-). cbn [segments s_vdim s_order s_processes] in *. destruct Hp as [<-|[<-|[]]]; cbn [left_half right_half k_elements k_ndofs] in *.
  - destruct H1 as [E|[E|[]]]; injection E as <- <-; destruct H2 as [<-|[<-|[]]]; (destruct c as [|[|c]]; [| |lia]); exists left_half; eexists _, _; (split; [now left|]); (split; [|reflexivity]); cbn [left_half k_owned]; match goal with |- nth_error _ _ = Some ?k => apply (@nth_error_nth' _ (seq 0 6) k 0%nat); cbn; lia end.
  - destruct H1 as [E|[]]; injection E as <- <-; destruct H2 as [<-|[<-|[]]]; (destruct c as [|[|c]]; [| |lia]).
    + exists left_half, 2%nat, 2%nat. split; [now left|]. split; reflexivity.
    + exists left_half, 5%nat, 5%nat. split; [now left|]. split; reflexivity.
    + exists right_half, 0%nat, 1%nat. split; [now right; left|]. split; reflexivity.
    + exists right_half, 1%nat, 3%nat. split; [now right; left|]. split; reflexivity.
Qed.
(** the component is not compared with the number of components *)
Definition one_segment : fe_space := {| s_order := byVDIM; s_vdim := 1; s_processes := [{| k_ndofs := 3; k_elements := [(1, [0; 1]); (2, [1; 2])]; k_name := fun k => k; k_owned := seq 0 3 |}] |}.
Lemma one_segment_wrong : (forall p, In p (s_processes one_segment) -> proper [true; false] 1 p) /\ essential_true_dofs one_segment [true; false] 1 = Some [[1; 2]]%nat /\
  forall a c, chosen [true; false] a -> ~ on_element one_segment a c 2 \/ (0 < c)%nat.
Proof.
  split; [|split; [reflexivity|]].
  - intros p [<-|[]]. split; cbn [k_elements k_owned k_ndofs length].
    + intros a dofs [E|[E|[]]]; injection E as <- <-; (split; [lia|]); intros d [<-|[<-|[]]]; cbn; lia.
    + intros k H. apply in_seq in H. lia.
  - intros a c [C1 C2]. destruct c as [|c]; [left|right; lia]. intros (p & k & [<-|[]] & (dofs & d & H1 & H2 & ->) & E). cbn [one_segment s_order s_vdim k_elements k_ndofs k_name] in *.
    destruct H1 as [Q|[Q|[]]]; injection Q as <- <-; [|discriminate C2]. destruct H2 as [<-|[<-|[]]]; cbn in E; lia.
Qed.
Theorem component_unchecked : exists sp ess component ls g, (forall p, In p (s_processes sp) -> proper ess (s_vdim sp) p) /\ component = Z.of_nat (s_vdim sp) /\
  essential_true_dofs sp ess component = Some ls /\ listed sp ls g /\ forall a c, chosen ess a -> (c < s_vdim sp)%nat -> ~ on_element sp a c g.
Proof.
  destruct one_segment_wrong as (W1 & W2 & W3). exists one_segment, [true; false], 1, [[1; 2]]%nat, 2%nat. split; [exact W1|]. split; [reflexivity|]. split; [exact W2|]. split.
  - eexists _, _, 2%nat, 2%nat. split; [now left|]. split; [now right; left|]. split; reflexivity.
  - intros a c C Hc. destruct (W3 a c C) as [Q|Q]; [exact Q|]. cbn in Hc. lia.
Qed.
