(** * Property C97: holding a part of the mesh holds exactly the degrees of freedom of its elements *)
From Coq Require Import ZArith List Lia Bool Sorted.
From Verif Require Import DofCodec ElementEssential.
Import ListNotations.
Local Open Scope Z_scope.

(** every copy of a degree of freedom, on every process, is marked -1 if it lies on an element with a chosen attribute in a wanted component, and 0 otherwise *)
Theorem C97_marks : forall sp ess component, (forall p, In p (s_processes sp) -> proper ess (s_vdim sp) p) -> component < Z.of_nat (s_vdim sp) ->
  exists ms, essential_vdofs sp ess component = Some ms /\ List.Forall2 (fun p marks => length marks = (s_vdim sp * k_ndofs p)%nat /\
    forall k, (k < s_vdim sp * k_ndofs p)%nat -> (nth k marks 0 = -1 <-> on_chosen_element sp ess component (k_name p k)) /\ (nth k marks 0 = 0 <-> ~ on_chosen_element sp ess component (k_name p k))) (s_processes sp) ms.
Proof. exact essential_vdofs_ok. Qed.
Print Assumptions C97_marks.
(** each process lists, in ascending order and without repetition, its true degrees of freedom of that kind and no others *)
Theorem C97_lists : forall sp ess component, (forall p, In p (s_processes sp) -> proper ess (s_vdim sp) p) -> component < Z.of_nat (s_vdim sp) ->
  exists ls, essential_true_dofs sp ess component = Some ls /\ List.Forall2 (fun p l => StronglySorted lt l /\
    forall i, In i l <-> exists k, nth_error (k_owned p) i = Some k /\ on_chosen_element sp ess component (k_name p k)) (s_processes sp) ls.
Proof. exact essential_true_ok. Qed.
Print Assumptions C97_lists.
(** over all processes nothing is missed: a degree of freedom is listed by an owner if and only if it lies on a chosen element *)
Theorem C97_complete : forall sp ess component ls, (forall p, In p (s_processes sp) -> proper ess (s_vdim sp) p) -> component < Z.of_nat (s_vdim sp) -> owned_somewhere sp ->
  essential_true_dofs sp ess component = Some ls -> forall g, listed sp ls g <-> exists a c, chosen ess a /\ wanted (s_vdim sp) component c /\ on_element sp a c g.
Proof. exact listed_ok. Qed.
Print Assumptions C97_complete.
(** the division of the mesh among processes does not matter *)
Theorem C97_division : forall sp1 sp2 ess component ls1 ls2, (forall p, In p (s_processes sp1) -> proper ess (s_vdim sp1) p) -> (forall p, In p (s_processes sp2) -> proper ess (s_vdim sp2) p) ->
  s_vdim sp1 = s_vdim sp2 -> (forall a c g, on_element sp1 a c g <-> on_element sp2 a c g) -> component < Z.of_nat (s_vdim sp1) -> owned_somewhere sp1 -> owned_somewhere sp2 ->
  essential_true_dofs sp1 ess component = Some ls1 -> essential_true_dofs sp2 ess component = Some ls2 -> forall g, listed sp1 ls1 g <-> listed sp2 ls2 g.
Proof. exact division_ok. Qed.
Print Assumptions C97_division.
(** a component number beyond the last one is not refused: in a scalar space component 1 holds a degree of freedom that lies on no chosen element *)
Theorem C97_component_refuted : exists sp ess component ls g, (forall p, In p (s_processes sp) -> proper ess (s_vdim sp) p) /\ component = Z.of_nat (s_vdim sp) /\
  essential_true_dofs sp ess component = Some ls /\ listed sp ls g /\ forall a c, chosen ess a -> (c < s_vdim sp)%nat -> ~ on_element sp a c g.
Proof. exact component_unchecked. Qed.
Print Assumptions C97_component_refuted.

(** three segments on two processes: the node between them is held on the first process because of an element of the second *)
Example C97_segments : (forall p, In p (s_processes segments) -> proper [true; false] (s_vdim segments) p) /\ owned_somewhere segments /\ essential_true_dofs segments [true; false] 1 = Some [[3; 4; 5]; [1]]%nat.
Proof. exact (conj segments_proper (conj segments_owned segments_lists)). Qed.
