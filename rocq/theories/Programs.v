(** * Programs which drive a functional, on one process and on many (C75)

    What a physics module does with its residual, whatever it is for: it evaluates it, or differentiates it with respect to one argument and
    assembles the matrix, at points of its choice, and goes on with what it gets.  Its own vectors are true-dof vectors, and its linear algebra
    is that of the whole system (dot products and linear solves over all processes, in real arithmetic). *)
From Coq Require Import NArith ZArith Reals List Lia Lra Bool Permutation FunctionalExtensionality.
From Verif Require Import Prelude DofCodec Sums Restriction Csr Kernels FunctionalModel FunctionalGrad FunctionalTotal Assembly Tensor BoundaryElim
  ParallelModel ParallelFacts ParallelSum ParallelMatrix.
Import ListNotations.
Local Open Scope R_scope.

Inductive program (A : Type) :=
| Done (a : A)
| Stop (why : outcome Empty_set)
| Evaluate (t : R) (upd : bool) (X : nat -> list R) (k : list R -> program A)
| Differentiate (t : R) (w : nat) (upd : bool) (X : nat -> list R) (k : list R -> mat -> program A).
Arguments Done {A}. Arguments Stop {A}. Arguments Evaluate {A}. Arguments Differentiate {A}.

Definition stopped {B} (why : outcome Empty_set) : outcome B := match why with Ok e => match e with end | Refused => Refused | UB => UB end.
Fixpoint after {A B} (p : program A) (h : A -> program B) : program B :=
  match p with
  | Done a => h a
  | Stop why => Stop why
  | Evaluate t upd X k => Evaluate t upd X (fun L => after (k L) h)
  | Differentiate t w upd X k => Differentiate t w upd X (fun L M => after (k L M) h)
  end.
(** the matrix of a gradient has as many rows and columns as there are true dofs *)
Definition clipped (rows cols : nat) (A : mat) : mat := fun i j => if (Nat.ltb i rows && Nat.ltb j cols)%bool then A i j else 0.

Section Drive.
Context {St : Type}.
Notation functional := (functional St). Notation mem := (mem St). Notation rank := (rank St).
Notation positions := (nat -> nat -> list nat).

(** on one process, where true and local dofs agree; [cs w] is the pattern of the gradient with respect to argument w *)
Fixpoint alone {A} (f : functional) (n : nat) (cs : nat -> csr) (p : program A) (m : mem) : outcome (A * mem) :=
  match p with
  | Done a => Ok (a, m)
  | Stop why => stopped why
  | Evaluate t upd X k => bindO (evaluate f t None upd X n m) (fun r => alone f n cs (k (fst r)) (snd r))
  | Differentiate t w upd X k =>
      bindO (evaluate f t (Some w) upd X n m) (fun r =>
      bindO (assemble f w (snd r) (cs w)) (fun V => alone f n cs (k (fst r) (csr_entry (cs w) V)) (snd r)))
  end.
(** on several; [orders w] are the arrangements of the keys of their lookup tables *)
Fixpoint together {A} (ks : list rank) (ntest : nat) (nt : nat -> nat) (orders : nat -> list (list entry)) (p : program A) (ms : list mem) : outcome (A * list mem) :=
  match p with
  | Done a => Ok (a, ms)
  | Stop why => stopped why
  | Evaluate t upd X k => bindO (par_evaluate ks t None upd ntest nt X ms) (fun r => together ks ntest nt orders (k (fst r)) (snd r))
  | Differentiate t w upd X k =>
      bindO (par_evaluate ks t (Some w) upd ntest nt X ms) (fun r =>
      bindO (par_assemble ks w (orders w) (snd r)) (fun As =>
      together ks ntest nt orders (k (fst r) (clipped ntest (nt w) (par_matrix ks As w))) (snd r)))
  end.

(** the program differentiates with respect to arguments in W only, and all its vectors have the right sizes *)
Fixpoint asks {A} (nt : nat -> nat) (W : nat -> Prop) (p : program A) : Prop :=
  match p with
  | Done _ => True
  | Stop _ => True
  | Evaluate t upd X k => (forall w, length (X w) = nt w) /\ forall L, asks nt W (k L)
  | Differentiate t w upd X k => W w /\ (forall v, length (X v) = nt v) /\ forall L M, asks nt W (k L M)
  end.
(** the processes can build their tables for these arguments *)
Definition tables_ready (W : nat -> Prop) (ks : list rank) (orders : nat -> list (list entry)) : Prop :=
  forall w, W w -> length (orders w) = length ks /\ forall k o, In (k, o) (combine ks (orders w)) -> tabulated k w o.

Lemma alone_after {A B} f n cs (p : program A) (h : A -> program B) : forall m,
  alone f n cs (after p h) m = bindO (alone f n cs p m) (fun q => alone f n cs (h (fst q)) (snd q)).
Proof.
  induction p as [a|why|t upd X k IH|t w upd X k IH]; intros m; cbn [after alone].
  - reflexivity.
  - destruct why as [[]| |]; reflexivity.
  - destruct (evaluate f t None upd X n m) as [r| |]; [|reflexivity|reflexivity]. cbn [bindO]. apply IH.
  - destruct (evaluate f t (Some w) upd X n m) as [r| |]; [|reflexivity|reflexivity]. cbn [bindO].
    destruct (assemble f w (snd r) (cs w)) as [V| |]; [|reflexivity|reflexivity]. cbn [bindO]. apply IH.
Qed.
Lemma asks_after {A B} nt W (p : program A) (h : A -> program B) : asks nt W p -> (forall a, asks nt W (h a)) -> asks nt W (after p h).
Proof.
  intros Hp Hh. induction p as [a|why|t upd X k IH|t w upd X k IH]; cbn [after asks] in *; auto.
  - destruct Hp as [H1 H2]. split; auto.
  - destruct Hp as (H1 & H2 & H3). auto.
Qed.

Definition same_result {A} (S : rank) (parts : list (rank * positions)) (x : outcome (A * list mem)) (y : outcome (A * list mem)) : Prop :=
  match x, y with
  | Ok (a, ms), Ok (b, [mS]) => a = b /\ remember S parts mS ms
  | Refused, Refused => True
  | UB, UB => True
  | _, _ => False
  end.
(** every such program gets the same on any division of the mesh *)
Theorem divided_program {A} ntest nt (S : rank) parts W orders orders1 (p : program A) : divides ntest nt S parts ->
  tables_ready W (map fst parts) orders -> tables_ready W [S] orders1 -> asks nt W p -> forall mS ms, remember S parts mS ms ->
  same_result S parts (together (map fst parts) ntest nt orders p ms) (together [S] ntest nt orders1 p [mS]).
Proof.
  intros Hd To T1 Ha. pose proof Hd as (HS & _). induction p as [a|why|t upd X k IH|t w upd X k IH]; intros mS ms Hm; cbn [together asks] in *.
  - cbn. auto.
  - destruct why as [[]| |]; exact Logic.I.
  - destruct (divided_evaluation ntest nt S HS parts t None upd X mS ms Hd Hm) as (T & mS' & ms' & E1 & E2 & Hm').
    rewrite E1, E2. cbn [bindO fst snd]. apply IH; [apply Ha|exact Hm'].
  - destruct Ha as (Hw & _ & Ha).
    destruct (divided_evaluation ntest nt S HS parts t (Some w) upd X mS ms Hd Hm) as (T & mS' & ms' & E1 & E2 & Hm').
    rewrite E1, E2. cbn [bindO fst snd].
    assert (Wr : all_written (local_functional S) w mS') by (eapply differentiated; eauto).
    destruct (To w Hw) as [L1 R1]. destruct (T1 w Hw) as [L2 R2].
    destruct (orders1 w) as [|o [|o' os]] eqn:Eo; cbn in L2; try lia.
    destruct (divided_matrix ntest nt S parts w (orders w) o mS' ms' Hd Hm' Wr) as (As & AS & A1 & A2 & A3).
    { now rewrite L1, map_length. } { exact R1. } { apply R2. now left. }
    rewrite A1, A2. cbn [bindO fst snd].
    replace (clipped ntest (nt w) (par_matrix (map fst parts) As w)) with (clipped ntest (nt w) (par_matrix [S] AS w)); [apply IH; auto|].
    apply functional_extensionality; intros i. apply functional_extensionality; intros j. unfold clipped.
    destruct (Nat.ltb_spec i ntest); [|reflexivity]. destruct (Nat.ltb_spec j (nt w)); [|reflexivity]. cbn [andb]. symmetry. now apply A3.
Qed.

(** ** the undivided mesh is one process whose local dofs are the true dofs, and which drops no integral *)
Definition diagonal (l i : nat) : R := if Nat.eqb l i then 1 else 0.
Definition undivided (S : rank) (f : functional) (n : nat) (tsize : nat -> nat) : Prop :=
  local_functional S = f /\ k_lsize S = n /\ k_tsize S = tsize /\ k_Ptest S = diagonal /\ k_Ptrial S = fun _ => diagonal.
Lemma diagonal_pick n i (F : nat -> R) : (i < n)%nat -> sumn n (fun l => diagonal l i * F l) = F i.
Proof.
  intros H. rewrite (sumn_ext n _ (fun l => if Nat.eqb l i then F l else 0)); [now apply sumn_delta|].
  intros l _. unfold diagonal. destruct (Nat.eqb l i); ring.
Qed.
Lemma diagonal_column n i (F : nat -> R) : (i < n)%nat -> sumn n (fun l => F l * diagonal l i) = F i.
Proof. intros H. rewrite <- (diagonal_pick n i F H). apply sumn_ext. intros l _. ring. Qed.
Lemma diagonal_row n i (F : nat -> R) : (i < n)%nat -> sumn n (fun l => diagonal i l * F l) = F i.
Proof. intros H. rewrite <- (diagonal_pick n i F H). apply sumn_ext. intros l _. unfold diagonal. now rewrite Nat.eqb_sym. Qed.
Lemma nth_all n (L : list R) : length L = n -> tab n (fun i => nth i L 0) = L.
Proof. intros H. apply (nth_ext _ _ 0 0); [now rewrite tab_length|]. intros i Hi. rewrite tab_length in Hi. now rewrite nth_tab. Qed.
Lemma undivided_input S f n tsize X : undivided S f n tsize -> (forall w, length (X w) = tsize w) -> local_input S tsize X = X.
Proof.
  intros (_ & _ & U3 & _ & U5) H. apply functional_extensionality. intros w. unfold local_input, prolong. rewrite U3, U5.
  transitivity (tab (tsize w) (fun i => nth i (X w) 0)); [|apply nth_all, H]. apply tab_ext. intros i Hi. now rewrite diagonal_row.
Qed.
Lemma undivided_evaluate S f n tsize t wrt upd X m : undivided S f n tsize -> wf f n tsize -> (forall w, length (X w) = tsize w) ->
  exists L m', evaluate f t wrt upd X n m = Ok (L, m') /\ par_evaluate [S] t wrt upd n tsize X [m] = Ok (L, [m']) /\
    m' = mem_sum f t wrt upd X 0 (f_integrals f) m.
Proof.
  intros U Wf Hx. pose proof U as (U1 & U2 & _ & U4 & _). assert (Wx : wf f n (fun w => length (X w))).
  { intros Ig HI. destruct (Wf Ig HI) as (A & B & C & D). split; [exact A|]. split; [|split; auto]. intros w r Hr. rewrite Hx. now apply (B w). }
  destruct (evaluate_spec f t wrt upd X n m Wx) as (L & E & HL & _). eexists L, _. split; [exact E|]. split; [|reflexivity].
  unfold par_evaluate. cbn [combine mapO fst snd]. rewrite U1, U2, (undivided_input S f n tsize X U Hx). rewrite E. cbn [bindO fst snd map].
  do 2 f_equal. transitivity (tab n (fun i => nth i L 0)); [|apply nth_all, HL]. apply tab_ext. intros i Hi. unfold back. cbn [combine suml fst snd]. rewrite U2, U4.
  rewrite diagonal_pick by exact Hi. ring.
Qed.
(** outside of the matrix there is nothing *)
Lemma csr_entry_outside (f : functional) w n nt c V i j : wf_assembly f w n nt -> valid_csr n (coupled (blocks_of f w Elements)) c ->
  (n <= i)%nat \/ (nt <= j)%nat -> csr_entry c V i j = 0.
Proof.
  intros (_ & Wt & _) (V1 & V2 & V3 & V4 & Vm & _ & Vc & _) H. unfold csr_entry.
  destruct (Nat.lt_ge_cases i n) as [Hi|Hi].
  - destruct H as [H|H]; [lia|]. apply sumn_zero. intros l Hl. set (lo := nth i (row_ptr c) 0%Z) in *. set (hi := nth (S i) (row_ptr c) 0%Z) in *.
    destruct (Nat.eqb_spec j (Z.to_nat (nth (Z.to_nat lo + l) (col_ind c) (-1)%Z))) as [E|_]; [|reflexivity]. exfalso.
    assert (Hlo : (0 <= lo)%Z).
    { unfold lo. clear - Hi Vm V1 V3. induction i as [|i IH]; [rewrite (nth_indep _ 0%Z (-1)%Z) by lia; lia|].
      specialize (IH ltac:(lia)). specialize (Vm i ltac:(lia)). lia. }
    assert (Hc : coupled (blocks_of f w Elements) (Z.of_nat i, nth (Z.to_nat lo + l) (col_ind c) (-1)%Z)).
    { apply Vc; [exact Hi|]. exists (lo + Z.of_nat l)%Z. split; [fold lo hi; lia|]. f_equal. lia. }
    destruct Hc as (te & tr & e & i' & j' & k' & l' & Hin & H1 & H2 & H3 & H4 & H5 & Ex). injection Ex as _ Ex.
    apply combine_nth in Hin as (q & _ & Hq). destruct (Wt Elements tr) as (_ & Hid); [eapply nth_error_In; exact Hq|].
    assert (Z.to_nat (L_id tr e l' j') < nt)%nat by (apply id_lt; auto). rewrite <- Ex in *. lia.
  - assert (E : nth (S i) (row_ptr c) 0%Z = 0%Z) by (apply nth_overflow; lia). rewrite E.
    destruct (Nat.eq_dec i n) as [->|Hn].
    + rewrite (nth_indep _ 0%Z (-1)%Z) by lia. rewrite V4, <- V2. replace (Z.to_nat _) with 0%nat by lia. reflexivity.
    + rewrite (nth_overflow (row_ptr c)) by lia. reflexivity.
Qed.
Lemma undivided_matrix S (f : functional) w n tsize c V : undivided S f n tsize -> wf_assembly f w n (tsize w) -> valid_csr n (coupled (blocks_of f w Elements)) c ->
  clipped n (tsize w) (par_matrix [S] [(c, V)] w) = csr_entry c V.
Proof.
  intros (_ & U2 & U3 & U4 & U5) Wa Vc. apply functional_extensionality; intros i. apply functional_extensionality; intros j. unfold clipped.
  destruct (Nat.ltb_spec i n) as [Hi|Hi]; [|cbn [andb]; symmetry; eapply csr_entry_outside; eauto].
  destruct (Nat.ltb_spec j (tsize w)) as [Hj|Hj]; [|cbn [andb]; symmetry; eapply csr_entry_outside; eauto]. cbn [andb].
  unfold par_matrix. cbn [combine suml fst snd]. unfold RAP. rewrite U2, U3, U4, U5. rewrite Rplus_0_r.
  rewrite (sumn_ext n _ (fun r => diagonal r i * csr_entry c V r j)); [exact (diagonal_pick n i (fun r => csr_entry c V r j) Hi)|].
  intros r _. exact (diagonal_column (tsize w) j (fun cc => diagonal r i * csr_entry c V r cc) Hj).
Qed.
(** the patterns which the single process builds *)
Definition patterns (W : nat -> Prop) (S : rank) (orders : nat -> list (list entry)) (cs : nat -> csr) : Prop :=
  forall w, W w -> exists o, orders w = [o] /\ tabulated S w o /\ local_table S w o = Ok (cs w).
Lemma patterns_ready W S orders cs : patterns W S orders cs -> tables_ready W [S] orders.
Proof. intros H w Hw. destruct (H w Hw) as (o & -> & T & _). split; [reflexivity|]. intros k o' [E|[]]. injection E as <- <-. exact T. Qed.
Theorem undivided_program {A} S f n tsize W orders cs (p : program A) : undivided S f n tsize -> wf f n tsize ->
  patterns W S orders cs -> asks tsize W p -> forall m,
  together [S] n tsize orders p [m] = bindO (alone f n cs p m) (fun q => Ok (fst q, [snd q])).
Proof.
  intros U Wf Pt Ha. pose proof U as (U1 & U2 & U3 & _). induction p as [a|why|t upd X k IH|t w upd X k IH]; intros m; cbn [together alone asks] in *.
  - reflexivity.
  - destruct why as [[]| |]; reflexivity.
  - destruct Ha as [Hx Ha]. destruct (undivided_evaluate S f n tsize t None upd X m U Wf Hx) as (L & m' & E1 & E2 & _).
    rewrite E1, E2. cbn [bindO fst snd]. now apply IH.
  - destruct Ha as (Hw & Hx & Ha). destruct (undivided_evaluate S f n tsize t (Some w) upd X m U Wf Hx) as (L & m' & E1 & E2 & Em).
    rewrite E1, E2. cbn [bindO fst snd]. destruct (Pt w Hw) as (o & Eo & Tr & Et).
    rewrite Eo in *. destruct (table_there _ w o Tr) as (c & C1 & C2). rewrite Et in C1. injection C1 as <-.
    destruct Tr as (Wa & _). rewrite U1, U2 in C2. rewrite U1, U2, U3 in Wa.
    unfold par_assemble. cbn [combine mapO fst snd]. rewrite Et. cbn [bindO]. rewrite U1.
    destruct (assemble f w m' (cs w)) as [V| |]; [|reflexivity|reflexivity]. cbn [bindO]. rewrite (undivided_matrix S f w n tsize (cs w) V U Wa C2). apply IH. apply Ha.
Qed.
(** so the run on one process says what every division gives *)
Definition agree {A} (S : rank) (parts : list (rank * positions)) (x : outcome (A * mem)) (y : outcome (A * list mem)) : Prop :=
  match x, y with
  | Ok (a, m), Ok (b, ms) => a = b /\ remember S parts m ms
  | Refused, Refused => True
  | UB, UB => True
  | _, _ => False
  end.
(** what is asked of the divided mesh *)
Record shared (W : nat -> Prop) (S : rank) (f : functional) (n : nat) (tsize : nat -> nat) (parts : list (rank * positions))
    (orders : nat -> list (list entry)) (cs : nat -> csr) : Prop := {
  sh_whole : undivided S f n tsize;
  sh_parts : divides n tsize S parts;
  sh_tables : tables_ready W (map fst parts) orders;
  sh_pattern : exists orders1, patterns W S orders1 cs;
}.
Theorem divided_run {A} W S f n tsize parts orders cs (p : program A) : shared W S f n tsize parts orders cs -> asks tsize W p ->
  forall m ms, remember S parts m ms -> agree S parts (alone f n cs p m) (together (map fst parts) n tsize orders p ms).
Proof.
  intros [U Hd To (orders1 & Pt)] Ha m ms Hm. assert (Wf : wf f n tsize).
  { destruct Hd as ((Wf & _) & _). destruct U as (<- & <- & <- & _). intros Ig HI. apply local_in in HI. exact (Wf Ig HI). }
  assert (X := divided_program n tsize S parts W orders orders1 p Hd To (patterns_ready W S orders1 cs Pt) Ha m ms Hm).
  rewrite (undivided_program S f n tsize W orders1 cs p U Wf Pt Ha m) in X.
  destruct (alone f n cs p m) as [[a m']| |]; destruct (together (map fst parts) n tsize orders p ms) as [[b ms']| |]; cbn in X |- *; try contradiction; auto.
  destruct X as [-> X]. auto.
Qed.
End Drive.
