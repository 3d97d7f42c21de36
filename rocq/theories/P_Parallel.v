(** * C75: dividing the mesh among processes changes no result *)
From Coq Require Import NArith ZArith Reals List Lia Bool Permutation.
From Verif Require Import Prelude DofCodec Sums Restriction Csr Kernels FunctionalModel FunctionalGrad FunctionalTotal Assembly FunctionalEx
  ParallelModel ParallelFacts ParallelSum ParallelMatrix ParallelEx ParallelQoiEx.
Import ListNotations.
Local Open Scope R_scope.

(** [divides ntest nt S parts] (ParallelModel.v): every element of every integral's domain on the whole mesh S belongs to exactly one part,
    where it has the same integrand and the same true dofs; local numberings are arbitrary, and integrals are dropped on parts without elements. *)

(** one evaluation gives the same residual (or quantity of interest), and leaves the same material state and derivatives at every element *)
Theorem C75_evaluation : forall St ntest nt (S : rank St) parts t wrt upd X mS ms, divides ntest nt S parts -> remember S parts mS ms ->
  exists T mS' ms', par_evaluate (map fst parts) t wrt upd ntest nt X ms = Ok (T, ms') /\ par_evaluate [S] t wrt upd ntest nt X [mS] = Ok (T, [mS']) /\
    remember S parts mS' ms'.
Proof. exact (fun St ntest nt S parts t wrt upd X mS ms Hd => @divided_evaluation St ntest nt S (proj1 Hd) parts t wrt upd X mS ms Hd). Qed.
Print Assumptions C75_evaluation.

(** so does every history of evaluations *)
Theorem C75_history : forall St ntest nt (S : rank St) parts qs mS ms, divides ntest nt S parts -> remember S parts mS ms ->
  exists Ts mS' ms', par_history (map fst parts) ntest nt qs ms = Ok (Ts, ms') /\ par_history [S] ntest nt qs [mS] = Ok (Ts, [mS']) /\
    remember S parts mS' ms'.
Proof. exact (fun St ntest nt S parts qs mS ms Hd => @divided_history St ntest nt S (proj1 Hd) parts qs mS ms Hd). Qed.
Print Assumptions C75_history.

Theorem C75_any_two_divisions : forall St ntest nt (S : rank St) parts parts' qs mS ms ms', divides ntest nt S parts -> divides ntest nt S parts' ->
  remember S parts mS ms -> remember S parts' mS ms' ->
  exists Ts m m', par_history (map fst parts) ntest nt qs ms = Ok (Ts, m) /\ par_history (map fst parts') ntest nt qs ms' = Ok (Ts, m').
Proof. exact (fun St ntest nt S parts parts' qs mS ms ms' => @two_divisions St ntest nt S parts parts' qs mS ms ms'). Qed.
Print Assumptions C75_any_two_divisions.
Example C75_divisions_nonvacuous : divides 3 (fun _ => 3%nat) whole three /\ divides 3 (fun _ => 3%nat) whole two /\
  remember whole three before_whole [fresh 0; before_second; fresh 0] /\ remember whole two before_whole [fresh 0; before_second] /\
  number whole 1 <> number first 1.
Proof. split; [exact three_divide|]. split; [exact two_divide|]. split; [exact three_remember|]. split; [exact two_remember|]. discriminate. Qed.

(** what the next theorems ask of the memory holds after an evaluation which differentiates *)
Theorem C75_differentiated : forall St (S : rank St) t w upd ntest nt X mS mS' T, sound S ->
  par_evaluate [S] t (Some w) upd ntest nt X [mS] = Ok (T, [mS']) -> all_written (local_functional S) w mS'.
Proof. exact @differentiated. Qed.
Print Assumptions C75_differentiated.

(** applying the gradient, without assembling it *)
Theorem C75_action : forall St ntest nt (S : rank St) parts w dx mS ms, divides ntest nt S parts ->
  (forall k pos, In (k, pos) parts -> sound_argument k w) -> sound_argument S w -> remember S parts mS ms -> all_written (local_functional S) w mS ->
  exists T, par_action (map fst parts) w ntest (nt w) dx ms = Ok T /\ par_action [S] w ntest (nt w) dx [mS] = Ok T.
Proof. exact (fun St ntest nt S parts w dx mS ms Hd => @divided_action St ntest nt S (proj1 Hd) parts w dx mS ms Hd). Qed.
Print Assumptions C75_action.

(** the assembled matrix has the same entries, if every process can build its table: it has elements, and every local dof is a dof of one *)
Theorem C75_matrix_partial : forall St ntest nt (S : rank St) parts w orders order mS ms, divides ntest nt S parts -> remember S parts mS ms ->
  all_written (local_functional S) w mS -> length orders = length parts ->
  (forall k o, In (k, o) (combine (map fst parts) orders) -> tabulated k w o) -> tabulated S w order ->
  exists As AS, par_assemble (map fst parts) w orders ms = Ok As /\ par_assemble [S] w [order] [mS] = Ok AS /\
    forall i j, (i < ntest)%nat -> (j < nt w)%nat -> par_matrix (map fst parts) As w i j = par_matrix [S] AS w i j.
Proof. exact (fun St ntest nt S parts w orders order mS ms => @divided_matrix St ntest nt S parts w orders order mS ms). Qed.
Print Assumptions C75_matrix_partial.
Example C75_matrix_nonvacuous : forall X, exists Ts mS ms As AS,
  par_history [whole] 3 (fun _ => 3%nat) (at_start X) [before_whole] = Ok (Ts, [mS]) /\
  par_history (map fst two) 3 (fun _ => 3%nat) (at_start X) [fresh 0; before_second] = Ok (Ts, ms) /\
  par_assemble (map fst two) 0 [keys first; keys second] ms = Ok As /\ par_assemble [whole] 0 [keys whole] [mS] = Ok AS /\
  forall i j, (i < 3)%nat -> (j < 3)%nat -> par_matrix (map fst two) As 0 i j = par_matrix [whole] AS 0 i j.
Proof. exact matrix_case. Qed.

(** On a process without elements, which evaluation and action of the gradient handle, assembling the matrix reads the first entry of an
    empty list (dof_numbering.hpp:336): the same run works undivided *)
Theorem C75_empty_process_refuted : exists (S : rank R) parts nt mS ms orders, divides 3 nt S parts /\ remember S parts mS ms /\
  all_written (local_functional S) 0 mS /\
  (forall k o, In (k, o) (combine (map fst parts) orders) -> Permutation o (map fst (lut_keys (emitted_all (blocks_of (local_functional k) 0 Elements))))) /\
  (exists o AS, par_assemble [S] 0 [o] [mS] = Ok AS) /\ (exists T, par_action (map fst parts) 0 3 (nt 0%nat) [1; 0; 0] ms = Ok T) /\
  par_assemble (map fst parts) 0 orders ms = UB.
Proof. exact empty_process. Qed.
Print Assumptions C75_empty_process_refuted.

(** the gradient of a quantity of interest, on every process, with or without elements *)
Theorem C75_quantity_gradient : forall St nt (S : rank St) parts w mS ms, divides 1 nt S parts -> remember S parts mS ms ->
  all_written (local_functional S) w mS -> (forall k pos, In (k, pos) parts -> gradient_ready k w) -> gradient_ready S w ->
  exists g, par_gradient (map fst parts) w (nt w) ms = Ok g /\ par_gradient [S] w (nt w) [mS] = Ok g.
Proof. exact (fun St nt S parts w mS ms Hd => @divided_gradient St 1 nt S parts w mS ms Hd eq_refl). Qed.
Print Assumptions C75_quantity_gradient.
Example C75_quantity_nonvacuous : forall X, exists Ts mS ms g,
  par_history [q_whole] 1 (fun _ => 3%nat) (at_start X) [fresh 0] = Ok (Ts, [mS]) /\
  par_history (map fst q_three) 1 (fun _ => 3%nat) (at_start X) [fresh 0; fresh 0; fresh 0] = Ok (Ts, ms) /\
  par_gradient (map fst q_three) 0 3 ms = Ok g /\ par_gradient [q_whole] 0 3 [mS] = Ok g.
Proof. exact gradient_case. Qed.
