(** * A functional on a mesh divided among processes (C75)

    Every process holds its part of the mesh, builds its own restrictions and integrals from it, evaluates them on its local (L)
    vectors, and the prolongation operators carry true (T) vectors to local ones and sums of local ones back
    (functional.hpp:406-432, 450-498, 569-667; functional_qoi.inl:15-38, 282-365, 422-475).
    A T-vector is the list of all true dofs, whichever process owns them; [k_Ptest], [k_Ptrial] are the rows of the prolongation
    matrices which belong to the local dofs of the process.  Sums over processes are taken in real arithmetic. *)
From Coq Require Import NArith ZArith Reals List Lia Lra Bool Permutation.
From Verif Require Import Prelude DofCodec Sums Restriction Csr Kernels FunctionalModel FunctionalGrad Assembly.
Import ListNotations.
Local Open Scope R_scope.

Record rank (St : Type) := {
  k_all : functional St;                 (* restrictions of this part; every integral the user adds, on this part *)
  k_count : dtype -> nat;                (* GetNE() and GetNBE() of this part *)
  k_lsize : nat;                         (* local dofs of the test space *)
  k_tsize : nat -> nat;                  (* local dofs of the trial spaces *)
  k_Ptest : nat -> nat -> R;             (* local test dof, true dof *)
  k_Ptrial : nat -> nat -> nat -> R;     (* argument, local dof, true dof *)
}.
Arguments k_all {St}. Arguments k_count {St}. Arguments k_lsize {St}. Arguments k_tsize {St}.
Arguments k_Ptest {St}. Arguments k_Ptrial {St}.

Section Parallel.
Context {St : Type}.
Notation gkernel := (gkernel St). Notation integral := (integral St).
Notation functional := (functional St). Notation mem := (mem St). Notation rank := (rank St).

(** AddDomainIntegral, AddBoundaryIntegral return at once on a part without (boundary) elements
    (functional.hpp:290, 307, 331, 345; functional_qoi.inl:163, 180, 206, 220) *)
Definition kept (k : rank) (Ig : integral) : bool := negb (Nat.eqb (k_count k (i_type Ig)) 0).
Definition local_functional (k : rank) : functional :=
  {| f_test := f_test (k_all k); f_trial := f_trial (k_all k); f_integrals := filter (kept k) (f_integrals (k_all k)) |}.
(** P_trial_[i]->Mult (functional.hpp:408, 453; functional_qoi.inl:284, 329) *)
Definition local_input (k : rank) (nt : nat -> nat) (X : nat -> list R) (w : nat) : list R :=
  prolong (k_tsize k w) (nt w) (k_Ptrial k w) (X w).
(** P_test_->MultTranspose (functional.hpp:431, 479), or MPI_Allreduce when [k_Ptest] is all ones (functional_qoi.inl:31-36):
    entry i of the sum over the processes *)
Definition back (ks : list rank) (Ls : list (list R)) (i : nat) : R :=
  suml (combine ks Ls) (fun p => sumn (k_lsize (fst p)) (fun l => k_Ptest (fst p) l i * nth l (snd p) 0)).

(** Functional::operator() on all processes (functional.hpp:450-498) *)
Definition par_evaluate (ks : list rank) (t : R) (wrt : option nat) (upd : bool) (ntest : nat) (nt : nat -> nat) (X : nat -> list R)
    (ms : list mem) : outcome (list R * list mem) :=
  bindO (mapO (fun km => evaluate (local_functional (fst km)) t wrt upd (local_input (fst km) nt X) (k_lsize (fst km)) (snd km)) (combine ks ms))
    (fun rs => Ok (tab ntest (back ks (map fst rs)), map snd rs)).
(** ActionOfGradient (functional.hpp:406-432) *)
Definition par_action (ks : list rank) (w ntest : nat) (ntr : nat) (dx : list R) (ms : list mem) : outcome (list R) :=
  bindO (mapO (fun km => action (local_functional (fst km)) w (snd km) (prolong (k_tsize (fst km) w) ntr (k_Ptrial (fst km) w) dx) (k_lsize (fst km))) (combine ks ms))
    (fun rs => Ok (tab ntest (back ks rs))).
(** Gradient::assemble (functional.hpp:569-667): the lookup table of the part's elements (dof_numbering.hpp:300-360; [order] is the
    iteration order of its hash map), the local matrix, and RAP over all processes *)
Definition local_table (k : rank) (w : nat) (order : list entry) : outcome csr :=
  init_table (k_lsize k) (lut_keys (emitted_all (blocks_of (local_functional k) w Elements))) order.
Definition par_assemble (ks : list rank) (w : nat) (orders : list (list entry)) (ms : list mem) : outcome (list (csr * list R)) :=
  mapO (fun p => let k := fst (fst p) in
    bindO (local_table k w (snd (fst p))) (fun c => bindO (assemble (local_functional k) w (snd p) c) (fun V => Ok (c, V)))) (combine (combine ks orders) ms).
Definition par_matrix (ks : list rank) (As : list (csr * list R)) (w i j : nat) : R :=
  suml (combine ks As) (fun p => let k := fst p in
    RAP (k_lsize k) (k_tsize k w) (k_Ptest k) (csr_entry (fst (snd p)) (snd (snd p))) (k_Ptrial k w) i j).
(** the assembled gradient of a quantity of interest (functional_qoi.inl:422-475) *)
Definition par_gradient (ks : list rank) (w ntr : nat) (ms : list mem) : outcome (list R) :=
  bindO (mapO (fun km => assemble_qoi (local_functional (fst km)) w (snd km) (k_tsize (fst km) w)) (combine ks ms))
    (fun gs => Ok (tab ntr (fun j => suml (combine ks gs) (fun p => sumn (k_tsize (fst p) w) (fun l => k_Ptrial (fst p) w l j * nth l (snd p) 0))))).

(** A history of evaluations *)
Fixpoint par_history (ks : list rank) (ntest : nat) (nt : nat -> nat) (qs : list request) (ms : list mem) : outcome (list (list R) * list mem) :=
  match qs with
  | [] => Ok ([], ms)
  | q :: rest => bindO (par_evaluate ks (rq_t q) (rq_wrt q) (rq_update q) ntest nt (rq_in q) ms) (fun r =>
      bindO (par_history ks ntest nt rest (snd r)) (fun rs => Ok (fst r :: fst rs, snd rs)))
  end.

(** ** What it is for processes to share a mesh *)
(** number, on a process, of the d-th integral the user adds *)
Definition number (k : rank) (d : nat) : nat := length (filter (kept k) (firstn d (f_integrals (k_all k)))).

(** the part of one process is consistent: positions in range, and its counts say what it holds *)
Definition sound (k : rank) : Prop :=
  wf (k_all k) (k_lsize k) (k_tsize k) /\
  (forall Ig g G rt, In Ig (f_integrals (k_all k)) -> nth_error (i_geoms Ig) g = Some G -> nth_error (f_test (k_all k) (i_type Ig)) g = Some rt ->
     es_c (gk_test G) = r_components rt /\ es_n (gk_test G) = r_nodes_per_elem rt /\ forall el, In el (gk_elems G) -> (el < r_num_elements rt)%nat) /\
  (forall Ig s w g G, In Ig (f_integrals (k_all k)) -> nth_error (i_active Ig) s = Some w -> nth_error (i_geoms Ig) g = Some G ->
     exists rr, nth_error (f_trial (k_all k) w (i_type Ig)) g = Some rr /\
       es_c (gk_trial G s) = r_components rr /\ es_n (gk_trial G s) = r_nodes_per_elem rr /\ forall el, In el (gk_elems G) -> (el < r_num_elements rr)%nat) /\
  (forall Ig G, In Ig (f_integrals (k_all k)) -> k_count k (i_type Ig) = 0%nat -> In G (i_geoms Ig) -> gk_elems G = []).

(** two elements have the same true dofs: their local dofs depend on the true ones in the same way *)
Definition same_dofs (nt c n : nat) (P P' : nat -> nat -> R) (r r' : restriction) (el el' : nat) : Prop :=
  forall i j T, (i < c)%nat -> (j < n)%nat -> (T < nt)%nat -> P (Z.to_nat (L_id r el i j)) T = P' (Z.to_nat (L_id r' el' i j)) T.
Definition same_deriv (c dim1 c' : nat) (D D' : deriv) : Prop :=
  forall i b j a, (i < c)%nat -> (b < dim1)%nat -> (j < c')%nat -> (a < dim1)%nat -> D i b j a = D' i b j a.
(** two elements have the same integrand at their quadrature points *)
Definition same_integrand (na : nat) (G G' : gkernel) (le le' : nat) : Prop :=
  forall q t u u' st, (q < gk_nq G)%nat -> (forall s i b, (s < na)%nat -> (i < es_c (gk_trial G s))%nat -> u s i b = u' s i b) ->
    (forall i b, (i < es_c (gk_test G))%nat -> (b < gk_dim1 G)%nat -> fst (gk_qf G le q t u st) i b = fst (gk_qf G' le' q t u' st) i b) /\
    snd (gk_qf G le q t u st) = snd (gk_qf G' le' q t u' st) /\
    forall s, (s < na)%nat -> same_deriv (es_c (gk_test G)) (gk_dim1 G) (es_c (gk_trial G s)) (gk_ad G s le q t u st) (gk_ad G' s le' q t u' st).

(** [pos d g]: for the elements of geometry g in the domain of the d-th integral on the part, in order, their positions in the
    domain on the whole mesh *)
Notation positions := (nat -> nat -> list nat).
Definition same_kind (G G' : gkernel) : Prop :=
  gk_dim1 G = gk_dim1 G' /\ gk_nq G = gk_nq G' /\ (forall q, gk_w G q = gk_w G' q) /\ gk_test G = gk_test G' /\ (forall s, gk_trial G s = gk_trial G' s).
Definition is_part (ntest : nat) (nt : nat -> nat) (S k : rank) (pos : positions) : Prop :=
  length (f_integrals (k_all k)) = length (f_integrals (k_all S)) /\
  forall d Ig Ig', nth_error (f_integrals (k_all k)) d = Some Ig -> nth_error (f_integrals (k_all S)) d = Some Ig' ->
    i_type Ig = i_type Ig' /\ i_active Ig = i_active Ig' /\ length (i_geoms Ig) = length (i_geoms Ig') /\
    forall g G G', nth_error (i_geoms Ig) g = Some G -> nth_error (i_geoms Ig') g = Some G' ->
      same_kind G G' /\ length (pos d g) = length (gk_elems G) /\
      forall le, (le < length (gk_elems G))%nat ->
        same_integrand (length (i_active Ig)) G G' le (nth le (pos d g) 0%nat) /\
        (forall rt rt', nth_error (f_test (k_all k) (i_type Ig)) g = Some rt -> nth_error (f_test (k_all S) (i_type Ig)) g = Some rt' ->
           same_dofs ntest (es_c (gk_test G)) (es_n (gk_test G)) (k_Ptest k) (k_Ptest S) rt rt' (nth le (gk_elems G) 0%nat) (nth (nth le (pos d g) 0%nat) (gk_elems G') 0%nat)) /\
        (forall s w rr rr', nth_error (i_active Ig) s = Some w -> nth_error (f_trial (k_all k) w (i_type Ig)) g = Some rr -> nth_error (f_trial (k_all S) w (i_type Ig)) g = Some rr' ->
           same_dofs (nt w) (es_c (gk_trial G s)) (es_n (gk_trial G s)) (k_Ptrial k w) (k_Ptrial S w) rr rr' (nth le (gk_elems G) 0%nat) (nth (nth le (pos d g) 0%nat) (gk_elems G') 0%nat)).
(** the parts together are the whole: every element of every domain is in exactly one part, once *)
Definition covers (S : rank) (parts : list (rank * positions)) : Prop :=
  forall d Ig g G, nth_error (f_integrals (k_all S)) d = Some Ig -> nth_error (i_geoms Ig) g = Some G ->
    Permutation (flat_map (fun p => snd p d g) parts) (seq 0 (length (gk_elems G))).
Definition divides (ntest : nat) (nt : nat -> nat) (S : rank) (parts : list (rank * positions)) : Prop :=
  sound S /\ (forall k pos, In (k, pos) parts -> sound k /\ is_part ntest nt S k pos) /\ covers S parts.

(** a process remembers at its elements what the undivided program remembers there *)
Definition same_stored (c dim1 c' : nat) (o o' : option deriv) : Prop :=
  match o, o' with Some D, Some D' => same_deriv c dim1 c' D D' | None, None => True | _, _ => False end.
Definition same_memory (S k : rank) (pos : positions) (mS mk : mem) : Prop :=
  forall d Ig g G le q, nth_error (f_integrals (k_all k)) d = Some Ig -> nth_error (i_geoms Ig) g = Some G ->
    (le < length (gk_elems G))%nat -> (q < gk_nq G)%nat ->
    m_q mk (number k d) g le q = m_q mS (number S d) g (nth le (pos d g) 0%nat) q /\
    forall s, (s < length (i_active Ig))%nat -> same_stored (es_c (gk_test G)) (gk_dim1 G) (es_c (gk_trial G s))
      (m_d mk (number k d) s g le q) (m_d mS (number S d) s g (nth le (pos d g) 0%nat) q).
Definition remember (S : rank) (parts : list (rank * positions)) (mS : mem) (ms : list mem) : Prop :=
  Forall2 (fun p mk => same_memory S (fst p) (snd p) mS mk) parts ms.
End Parallel.
