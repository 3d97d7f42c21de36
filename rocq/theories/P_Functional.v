(** Property theorems C13 (sparsity tables), C14 (assembled gradient), C16 (gradient = derivative),
    C17 (material history). *)
From Coq Require Import NArith ZArith Reals List Lia Lra Permutation.
From Coquelicot Require Import Coquelicot.
From Verif Require Import Prelude DofCodec Sums Restriction Csr Kernels FunctionalModel FunctionalGrad Assembly FunctionalEx.
Import ListNotations.
Local Open Scope R_scope.

(** C13.  If every test dof is coupled by some element, the table made from the mesh is a valid compressed-row
    pattern for exactly the coupled pairs, whatever order the hash map is iterated in. *)
Theorem C13_table_for_mesh : forall lsize blocks order,
  (forall test trial, In (test, trial) blocks -> plain test /\ plain trial /\
      (r_num_nodes test * r_components test = lsize)%nat /\ r_num_elements test = r_num_elements trial) ->
  (forall r, (r < lsize)%nat -> exists col, coupled blocks (Z.of_nat r, col)) -> (0 < lsize)%nat ->
  Permutation order (map fst (lut_keys (emitted_all blocks))) ->
  exists c, init_table lsize (lut_keys (emitted_all blocks)) order = Ok c /\ valid_csr lsize (coupled blocks) c.
Proof. exact table_for_mesh. Qed.
Print Assumptions C13_table_for_mesh.

(** for any list of pairs: enough that the last row is not empty *)
Theorem C13_valid_when_last_row_coupled : forall lsize keys order,
  Permutation order (map fst (lut_keys keys)) ->
  (forall e, In e keys -> (0 <= fst e < Z.of_nat lsize)%Z) ->
  (exists col, In ((Z.of_nat lsize - 1)%Z, col) keys) ->
  exists c, init_table lsize (lut_keys keys) order = Ok c /\ valid_csr lsize (fun e => In e keys) c.
Proof. exact init_table_valid. Qed.
Print Assumptions C13_valid_when_last_row_coupled.

(** rows after the last coupled one are left with offset 0 *)
Theorem C13_trailing_row_refuted : exists lsize keys c,
  (forall e, In e keys -> (0 <= fst e < Z.of_nat lsize)%Z) /\
  init_table lsize (lut_keys keys) (map fst (lut_keys keys)) = Ok c /\
  row_ptr c = [0; 1; 0; 0; 2]%Z /\ ~ valid_csr lsize (fun e => In e keys) c.
Proof. exact init_table_trailing_row. Qed.
Print Assumptions C13_trailing_row_refuted.

(** no coupled pair at all *)
Theorem C13_no_entries_refuted : forall lsize, init_table lsize (lut_keys []) (map fst (lut_keys [])) = UB.
Proof. exact init_table_no_entries. Qed.
Print Assumptions C13_no_entries_refuted.

Example ex_C13 : forall r, (r < 6)%nat -> exists col, coupled [(two_segments byNODES, two_segments byNODES)] (Z.of_nat r, col).
Proof. exact two_segments_coupled. Qed.
Example ex_C13_plain : plain (two_segments byNODES).
Proof. exact (two_segments_plain byNODES). Qed.

(** C14.  With the table of C13, assembling succeeds and the matrix times dx is the action on dx, for every dx. *)
Theorem C14_assembled_is_action : forall (St : Type) (f : functional St) w (m : mem St) lsize tsize order,
  wf_assembly f w lsize tsize -> same_elements f w -> all_written f w m ->
  (forall rt, In rt (f_test f Elements) -> (r_num_nodes rt * r_components rt)%nat = lsize) ->
  (forall r, (r < lsize)%nat -> exists col, coupled (blocks_of f w Elements) (Z.of_nat r, col)) -> (0 < lsize)%nat ->
  (Z.of_nat lsize <= 2 ^ 32)%Z ->
  (forall x, coupled (blocks_of f w BoundaryElements) x -> coupled (blocks_of f w Elements) x) ->
  Permutation order (map fst (lut_keys (emitted_all (blocks_of f w Elements)))) ->
  exists c V, init_table lsize (lut_keys (emitted_all (blocks_of f w Elements))) order = Ok c /\ assemble f w m c = Ok V /\
    forall dx, length dx = tsize -> exists act, action f w m dx lsize = Ok act /\ length act = lsize /\
      forall r, (r < lsize)%nat -> spmv_row c V dx r = nth r act 0.
Proof. exact @assembled_with_table. Qed.
Print Assumptions C14_assembled_is_action.

(** the same on true dofs: R^T A P dx against R^T (action (P dx)), any R and P *)
Theorem C14_true_dofs : forall (St : Type) (f : functional St) w (m : mem St) c lsize tsize ntrue Rm P,
  wf_assembly f w lsize tsize -> same_elements f w -> all_written f w m ->
  valid_csr lsize (coupled (blocks_of f w Elements)) c -> (Z.of_nat lsize <= 2 ^ 32)%Z ->
  (forall x, coupled (blocks_of f w BoundaryElements) x -> coupled (blocks_of f w Elements) x) ->
  exists V, assemble f w m c = Ok V /\
    forall dx, length dx = ntrue -> exists act, action f w m (prolong tsize ntrue P dx) lsize = Ok act /\
      forall i, sumn ntrue (fun j => RAP lsize tsize Rm (csr_entry c V) P i j * nth j dx 0) = sumn lsize (fun r => Rm r i * nth r act 0).
Proof. exact @assembled_true_agrees. Qed.
Print Assumptions C14_true_dofs.

(** quantities of interest: the assembled vector dotted with dx is the action *)
Theorem C14_quantity_of_interest : forall (St : Type) (f : functional St) w (m : mem St) tsize,
  wf_assembly f w 1 tsize -> same_elements f w -> all_written f w m ->
  exists g, assemble_qoi f w m tsize = Ok g /\ length g = tsize /\
    forall dx, length dx = tsize -> exists a, action f w m dx 1 = Ok [a] /\ dot g dx = a.
Proof. exact @assembled_qoi_agrees. Qed.
Print Assumptions C14_quantity_of_interest.

Example ex_C14 : wf_assembly seg_functional 0 3 3 /\ same_elements seg_functional 0 /\
  (forall r, (r < 3)%nat -> exists col, coupled (blocks_of seg_functional 0 Elements) (Z.of_nat r, col)).
Proof. exact (conj seg_wf_assembly (conj seg_same seg_coupled)). Qed.
Example ex_C14_run : forall u, length u = 3%nat -> exists m c V,
  run seg_functional 3 [{| rq_t := 0; rq_wrt := Some 0%nat; rq_update := false; rq_in := fun _ => u |}] (fresh 0) = Ok m /\
  init_table 3 (lut_keys (emitted_all (blocks_of seg_functional 0 Elements))) (map fst (lut_keys (emitted_all (blocks_of seg_functional 0 Elements)))) = Ok c /\
  assemble seg_functional 0 m c = Ok V.
Proof. exact seg_assembly_example. Qed.

(** C16.  After any history [h1 ++ rq :: h2] in which rq is the latest evaluation differentiated with respect to
    argument w, applying the gradient to dx gives, dof by dof, the derivative at 0 of
    eps |-> residual(time of rq, inputs of rq with argument w moved by eps dx, material state found by rq),
    provided the dual-number evaluation of each integrand returns its derivative (C15). *)
Theorem C16_gradient_is_derivative : forall (St : Type) (f : functional St) lsize tsize w rq dx h1 h2 (m0 mend : mem St),
  wf f lsize tsize -> List.Forall (fits tsize) (h1 ++ rq :: h2) -> length dx = tsize w ->
  rq_wrt rq = Some w -> List.Forall (fun r => rq_wrt r <> Some w) h2 ->
  run f lsize (h1 ++ rq :: h2) m0 = Ok mend ->
  exists mbefore, run f lsize h1 m0 = Ok mbefore /\
  (ad_correct_at f w (rq_t rq) (rq_in rq) mbefore ->
   exists (res : R -> list R) (act : list R),
    (forall eps, exists m', evaluate f (rq_t rq) None false (shiftL (rq_in rq) w dx eps) lsize mbefore = Ok (res eps, m')) /\
    action f w mend dx lsize = Ok act /\ length act = lsize /\
    forall k, (k < lsize)%nat -> is_derive (fun eps => nth k (res eps) 0) 0 (nth k act 0)).
Proof. exact @gradient_after_history. Qed.
Print Assumptions C16_gradient_is_derivative.

(** asking for a derivative does not change the value *)
Theorem C16_value_independent_of_differentiation : forall (St : Type) (f : functional St) lsize t wrt wrt' u u' Ls m L L' m1 m2,
  wf f lsize (fun w => length (Ls w)) ->
  evaluate f t wrt u Ls lsize m = Ok (L, m1) -> evaluate f t wrt' u' Ls lsize m = Ok (L', m2) -> L = L'.
Proof. exact @value_indep_of_wrt. Qed.
Print Assumptions C16_value_independent_of_differentiation.

(** a second evaluation with respect to the same argument changes the gradient returned by the first *)
Theorem C16_held_gradient_refuted : exists (f : functional unit) m0 m1 m2 rq1 rq2 dx a1 a2,
  wf f 1 (fun _ => 1%nat) /\ rq_wrt rq1 = Some 0%nat /\ rq_wrt rq2 = Some 0%nat /\
  run f 1 [rq1] m0 = Ok m1 /\ run f 1 [rq1; rq2] m0 = Ok m2 /\
  action f 0 m1 dx 1 = Ok a1 /\ action f 0 m2 dx 1 = Ok a2 /\ a1 <> a2.
Proof. exact gradient_aliases. Qed.
Print Assumptions C16_held_gradient_refuted.

(** an integral that lists the same argument twice: only one occurrence is differentiated *)
Theorem C16_repeated_argument_refuted : exists (u dx : R) m1 act,
  evaluate f_sq2 0 (Some 0%nat) false (fun _ => [u]) 1 (fresh tt) = Ok ([u * u], m1) /\
  action f_sq2 0 m1 [dx] 1 = Ok [act] /\
  (forall v, exists m', evaluate f_sq2 0 None false (fun _ => [v]) 1 (fresh tt) = Ok ([v * v], m')) /\
  ~ is_derive (fun eps => (u + eps * dx) * (u + eps * dx)) 0 act.
Proof. exact repeated_argument_wrong. Qed.
Print Assumptions C16_repeated_argument_refuted.

(** quantities of interest: applying the gradient overwrites the value the evaluation returned *)
Theorem C16_qoi_value_overwritten_refuted : exists (f : functional unit) m0 m1 rq v out,
  rq_wrt rq = Some 0%nat /\ qoi_evaluate f rq m0 = Ok (v, m1) /\ qoi_apply f 0 m1 [1] = Ok out /\ out <> v.
Proof. exact qoi_value_overwritten. Qed.
Print Assumptions C16_qoi_value_overwritten_refuted.

Example ex_C16 : wf seg_functional 3 (fun _ => 3%nat) /\ forall t Ls m, ad_correct_at seg_functional 0 t Ls m.
Proof. exact (conj seg_wf seg_ad_correct). Qed.

(** C17.  Without updateQdata no evaluation changes any point's state; *)
Theorem C17_no_update_no_change : forall (St : Type) (f : functional St) lsize tsize h m m',
  wf f lsize tsize -> List.Forall (fits tsize) h -> List.Forall (fun rq => rq_update rq = false) h ->
  run f lsize h m = Ok m' -> forall n g e q, m_q m' n g e q = m_q m n g e q.
Proof. exact @run_no_update. Qed.
Print Assumptions C17_no_update_no_change.

(** so trial evaluations do not change the value of a later evaluation; *)
Theorem C17_trial_evaluations_invisible : forall (St : Type) (f : functional St) lsize tsize h rq m m' L L' m1 m2,
  wf f lsize tsize -> List.Forall (fits tsize) h -> fits tsize rq -> List.Forall (fun r => rq_update r = false) h ->
  run f lsize h m = Ok m' -> perform f lsize rq m = Ok (L, m1) -> perform f lsize rq m' = Ok (L', m2) -> L' = L.
Proof. exact @repeatable. Qed.
Print Assumptions C17_trial_evaluations_invisible.

(** with it, every evaluated point's state becomes what the material returned from its previous state *)
Theorem C17_update_stores_material_output : forall (St : Type) (f : functional St) lsize tsize rq m L m' n Ig g G e q,
  wf f lsize tsize -> fits tsize rq -> rq_update rq = true -> perform f lsize rq m = Ok (L, m') ->
  nth_error (f_integrals f) n = Some Ig -> nth_error (i_geoms Ig) g = Some G ->
  (e < length (gk_elems G))%nat -> (q < gk_nq G)%nat ->
  m_q m' n g e q = snd (gk_qf G e q (rq_t rq) (qf_inputs G g (Es_of f (rq_in rq) Ig) e q) (m_q m n g e q)).
Proof. exact @updated_state. Qed.
Print Assumptions C17_update_stores_material_output.

(** and no other point's state changes *)
Theorem C17_other_points_untouched : forall (St : Type) (f : functional St) lsize tsize rq m L m' n g e q,
  wf f lsize tsize -> fits tsize rq -> perform f lsize rq m = Ok (L, m') ->
  (forall Ig G, nth_error (f_integrals f) n = Some Ig -> nth_error (i_geoms Ig) g = Some G ->
     (length (gk_elems G) <= e)%nat \/ (gk_nq G <= q)%nat) ->
  m_q m' n g e q = m_q m n g e q.
Proof. exact @untouched_state. Qed.
Print Assumptions C17_other_points_untouched.

Example ex_C17 : forall u, length u = 3%nat -> fits (fun _ => 3%nat) {| rq_t := 0; rq_wrt := None; rq_update := true; rq_in := fun _ => u |}.
Proof. intros u H w. exact H. Qed.
