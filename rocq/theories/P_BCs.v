(** Property theorems C06 (names) and C09 (essential conditions). *)
From Coq Require Import String List ZArith Sorted Arith Lia.
From Verif Require Import Prelude Names BCManager.
Import ListNotations.

(** C06 *)
Theorem C06_remove_after_add : forall p n : string, removePrefix p (addPrefix p n) = n.
Proof. exact remove_add. Qed.
Print Assumptions C06_remove_after_add.

Theorem C06_no_collision : forall p n m : string, addPrefix p n = addPrefix p m -> n = m.
Proof. exact addPrefix_inj. Qed.
Print Assumptions C06_no_collision.

Theorem C06_parameter_lookup :
  forall (V : Type) (module_name : string) (given : list (string * V)) (n : string) (v : V),
  NoDup (map fst given) -> In (n, v) given -> parameter module_name n (make_params module_name given) = Ok v.
Proof. exact @parameter_found. Qed.
Print Assumptions C06_parameter_lookup.

Theorem C06_unknown_parameter_refused :
  forall (V : Type) (module_name : string) (given : list (string * V)) (n : string),
  ~ In n (map fst given) -> parameter module_name n (make_params module_name given) = Refused.
Proof. exact @parameter_unknown. Qed.
Print Assumptions C06_unknown_parameter_refused.

Theorem C06_parameter_names :
  forall (V : Type) (module_name : string) (given : list (string * V)),
  parameterNames module_name (make_params module_name given) = map fst given.
Proof. exact @parameterNames_make. Qed.
Print Assumptions C06_parameter_names.

(** a parameter whose own name starts with the module's name *)
Example ex_C06 :
  let given := [("bulk", 1%Z); ("solid_bulk", 2%Z); ("", 3%Z)]%string in
  NoDup (map fst given) /\ parameter "solid" "solid_bulk" (make_params "solid" given) = Ok 2%Z /\
  parameterNames "solid" (make_params "solid" given) = ["bulk"; "solid_bulk"; ""]%string /\
  parameter "solid" "shear" (make_params "solid" given) = Refused.
Proof.
  split; [|repeat split]. simpl. repeat constructor; simpl; intuition congruence.
Qed.

(** C09.  After any interleaving of requests and queries the reported list is strictly increasing
    and holds exactly the dofs that were granted: by dof list, or by an attribute that no earlier
    request had mentioned. *)
Theorem C09_reported_dofs :
  forall (dofs_on : Z -> option nat -> list nat) (ops : list bop),
  let l := fst (all_dofs (brun dofs_on ops m_init)) in
  StronglySorted lt l /\ forall d, In d l <-> granted dofs_on (requests ops) d.
Proof. exact all_dofs_spec. Qed.
Print Assumptions C09_reported_dofs.

(** Nothing asked for is lost when no attribute is named twice.  Missing: the same attribute with
    two components. *)
Theorem C09_nothing_dropped_partial :
  forall (dofs_on : Z -> option nat -> list nat) (ops : list bop),
  NoDup (flat_map attrs_of (requests ops)) ->
  forall d, In d (fst (all_dofs (brun dofs_on ops m_init))) <->
    exists r, In r (requests ops) /\ wanted dofs_on r d.
Proof. exact nothing_dropped. Qed.
Print Assumptions C09_nothing_dropped_partial.

Example ex_C09 :
  let ops := [BAdd (ByAttrs [1%Z] (Some 0)); BQuery; BAdd (ByDofs [7;2;7]); BAdd (ByAttrs [2%Z] None)] in
  NoDup (flat_map attrs_of (requests ops)) /\
  fst (all_dofs (brun two_component_table ops m_init)) = [0;2;4;5;7].
Proof. split; [|reflexivity]. repeat constructor; simpl; intuition discriminate. Qed.

(** Fixing the x component and then the y component on the same boundary attribute: the second
    request has no effect. *)
Theorem C09_second_component_refuted :
  exists (dofs_on : Z -> option nat -> list nat) (ops : list bop) (r : request) (d : nat),
    In (BAdd r) ops /\ wanted dofs_on r d /\ ~ In d (fst (all_dofs (brun dofs_on ops m_init))).
Proof. exact second_component_dropped. Qed.
Print Assumptions C09_second_component_refuted.

(** Prescribed values: where several conditions share a dof the last one added decides, and dofs of
    no condition are left alone. *)
Theorem C09_last_condition_decides :
  forall (V : Type) (bcs : list (list nat)) (value : nat -> nat -> V) (k : nat) (x : nat -> V) (j : nat)
    (pre : list (list nat)) (ds : list nat) (post : list (list nat)),
  bcs = pre ++ ds :: post -> In j ds -> (forall l, In l post -> ~ In j l) ->
  set_all k bcs value x j = value (k + length pre) j.
Proof. exact @set_all_last. Qed.
Print Assumptions C09_last_condition_decides.

Theorem C09_other_dofs_untouched :
  forall (V : Type) (bcs : list (list nat)) (value : nat -> nat -> V) (k : nat) (x : nat -> V) (j : nat),
  (forall l, In l bcs -> ~ In j l) -> set_all k bcs value x j = x j.
Proof. exact @set_all_none. Qed.
Print Assumptions C09_other_dofs_untouched.

Example ex_C09_values :
  map (set_all 0 [[0;1];[1;2]] (fun k d => 10 * k + d) (fun _ => 99)) [0;1;2;3] = [0;11;12;99].
Proof. reflexivity. Qed.

(** Conditions by position: exactly the owned nodes whose position satisfies the predicate, in the
    requested component (all components when none is given). *)
Theorem C09_by_position :
  forall (num_nodes dim : nat) (tdof : nat -> nat -> Z) (pred : nat -> bool) (component : option nat) (z : Z),
  In z (constrained_dofs num_nodes dim tdof pred component) <->
  exists i c, i < num_nodes /\ c < dim /\ (0 <= tdof i 0%nat)%Z /\ pred i = true /\
    (component = None \/ component = Some c) /\ z = tdof i c.
Proof. exact constrained_dofs_spec. Qed.
Print Assumptions C09_by_position.

Example ex_C09_position :
  constrained_dofs 4 2 (fun i c => if i =? 2 then (-1)%Z else Z.of_nat (2 * i + c)) (fun i => 1 <=? i) (Some 1) = [3;7]%Z.
Proof. reflexivity. Qed.
