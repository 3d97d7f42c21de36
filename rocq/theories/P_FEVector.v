(** * Finite element states and duals (C37), reductions over ranks (C50) *)
From Coq Require Import String List Reals.
Import ListNotations.
From Verif Require Import StateMgr FEVector.
Local Open Scope R_scope.

(** copy and move construction carry name, space and values *)
Theorem C37_state_construct : forall a r, intact r ->
  (exists x, state_copy a r = Done x /\ carries x r /\ intact x) /\ (exists x left, state_move r = Done (x, left) /\ carries x r /\ intact x).
Proof. exact state_construct_ok. Qed.
Print Assumptions C37_state_construct.
Theorem C37_dual_construct : forall a r, intact r ->
  (exists x, dual_copy a r = Done x /\ carries x r /\ intact x /\ (form x = None \/ form x = Some a)) /\ (exists x left, dual_move a r = Done (x, left) /\ carries x r /\ intact x).
Proof. exact dual_construct_ok. Qed.
Print Assumptions C37_dual_construct.
Theorem C37_vector_move_assign : forall l r, intact r -> exists x left, vec_move_assign l r = Done (x, left) /\ carries x r /\ intact x.
Proof. exact vec_move_assign_ok. Qed.
Print Assumptions C37_vector_move_assign.
(** assignments between intact objects of the same space carry space and values; the full statement also wants the name *)
Theorem C37_assign_partial : forall l r, intact l -> intact r -> option_map snd (owned l) = option_map snd (owned r) ->
  (exists x, state_assign l r = Done x /\ data x = data r /\ option_map snd (owned x) = option_map snd (owned r)) /\
  (exists x, state_move_assign l r = Done (x, r) /\ data x = data r /\ option_map snd (owned x) = option_map snd (owned r)) /\
  (exists x, dual_assign l r = Done x /\ data x = data r /\ option_map snd (owned x) = option_map snd (owned r)).
Proof. exact state_assign_ok. Qed.
Print Assumptions C37_assign_partial.
(** different spaces are refused *)
Theorem C37_assign_checks : forall l r, intact l -> intact r -> forall sl sr, option_map snd (owned l) = Some sl -> option_map snd (owned r) = Some sr ->
  (same_space sl sr = true -> tsize sl = tsize sr -> exists x, vec_assign l r = Done x /\ data x = data r /\ owned x = owned l /\ name x = name l /\ form x = form l) /\
  (same_space sl sr = false -> vec_assign l r = Refused).
Proof. exact assign_ok. Qed.
Print Assumptions C37_assign_checks.
Example C37_nonvacuous : intact (ex 1 "a" [0; 0] None) /\ intact (ex 2 "b" [1; 2] (Some 2%nat)).
Proof. split; apply ex_intact. Qed.

(** assignment leaves the old name *)
Theorem C37_assign_name_refuted : exists l r x, intact l /\ intact r /\ option_map snd (owned l) = option_map snd (owned r) /\ state_assign l r = Done x /\ name x <> name r.
Proof. exact name_kept. Qed.
Print Assumptions C37_assign_name_refuted.
(** move assignment of a dual leaves the old values *)
Theorem C37_dual_move_assign_refuted : exists l r x left, intact l /\ intact r /\ option_map snd (owned l) = option_map snd (owned r) /\ dual_move_assign l r = Done (x, left) /\ data x <> data r.
Proof. exact dual_move_assign_lost. Qed.
Print Assumptions C37_dual_move_assign_refuted.
(** a move-constructed dual has a linear form on the space of the object it came from *)
Theorem C37_dual_form_refuted : exists a r x left, intact r /\ dual_move a r = Done (x, left) /\ exists f, form x = Some f /\ option_map fst (owned x) <> Some f /\ option_map fst (owned r) = Some f.
Proof. exact dual_form_foreign. Qed.
Print Assumptions C37_dual_form_refuted.
(** swapping two states reads the space of a moved-from object, for every pair; swapping two duals moves no value *)
Theorem C37_swap_states_refuted : forall x y, intact x -> intact y -> swap_state x y = Undef.
Proof. exact swap_state_undef. Qed.
Print Assumptions C37_swap_states_refuted.
Theorem C37_swap_duals_refuted : forall a x y, intact x -> intact y -> exists x' y', swap_dual a x y = Done (x', y') /\ data x' = data x /\ data y' = data y.
Proof. exact swap_dual_nothing. Qed.
Print Assumptions C37_swap_duals_refuted.
(** assignment from a plain vector does not check the size *)
Theorem C37_vector_size_refuted : exists l v, intact l /\ ~ intact (vec_from_vector l v).
Proof. exact vector_size. Qed.
Print Assumptions C37_vector_size_refuted.

(** ** C50: however the entries are divided over the ranks, the reductions are those of the whole vector *)
Theorem C50_average : forall ranks, avg ranks = fold_right Rplus 0 (concat ranks) / INR (length (concat ranks)).
Proof. exact avg_concat. Qed.
Print Assumptions C50_average.
Theorem C50_maximum : forall ranks m, gmax ranks = Some m <-> In m (concat ranks) /\ forall x, In x (concat ranks) -> x <= m.
Proof. exact gmax_spec. Qed.
Print Assumptions C50_maximum.
Theorem C50_minimum : forall ranks m, gmin ranks = Some m <-> In m (concat ranks) /\ forall x, In x (concat ranks) -> m <= x.
Proof. exact gmin_spec. Qed.
Print Assumptions C50_minimum.
Theorem C50_inner_product : forall r1 r2, Forall2 (fun a b : list R => length a = length b) r1 r2 -> inner r1 r2 = dotp (concat r1) (concat r2).
Proof. exact inner_concat. Qed.
Print Assumptions C50_inner_product.
Example C50_ex : concat [[1; 2]; []; [3]] = [1; 2; 3] /\ Forall2 (fun a b : list R => length a = length b) [[1]; []] [[2]; []].
Proof. split; [reflexivity|repeat constructor]. Qed.
