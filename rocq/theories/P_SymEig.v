(** * C58: eigendecomposition of symmetric 3x3 matrices, and the exponential, logarithm and square root built on it *)
From Coq Require Import Reals Lra Lia.
From Verif Require Import Sums Tensor SymEig SymEigFacts SymEigRotate SymEigMain SymEigStuck IsoFun IsoDeriv IsoEig IsoEigDeriv SymEigEx.
Local Open Scope R_scope.

(** for every symmetric matrix: no NaN, an orthogonal matrix of columns, numbers in ascending order that add up to the trace *)
Theorem C58_orthonormal : forall A, symmetric3 A -> exists e, eig_symm A = Some e /\ orthogonal (basis e) /\ ascending (lam e) /\
  c0 (lam e) + c1 (lam e) + c2 (lam e) = tr 3 A.
Proof. exact eig_symm_orthonormal. Qed.
Print Assumptions C58_orthonormal.

(** the numbers are the eigenvalues and the columns the eigenvectors, when the numbers are more than 2e-15 apart *)
Theorem C58_distinct_partial : forall A e, symmetric3 A -> eig_symm A = Some e ->
  2 * small_gap < c1 (lam e) - c0 (lam e) -> 2 * small_gap < c2 (lam e) - c1 (lam e) -> decomposes A e /\ spectrum A (lam e).
Proof. exact eig_symm_distinct. Qed.
Print Assumptions C58_distinct_partial.

(** when they merely differ, the numbers are the eigenvalues and no column is off by more than 2e-15 *)
Theorem C58_close_partial : forall A e, symmetric3 A -> eig_symm A = Some e ->
  c0 (lam e) <> c1 (lam e) -> c1 (lam e) <> c2 (lam e) ->
  spectrum A (lam e) /\ forall k, (k < 3)%nat -> misfit A e k <= 2 * small_gap.
Proof. exact eig_symm_close. Qed.
Print Assumptions C58_close_partial.

(** a matrix with a repeated eigenvalue, a I + b n n^T, is decomposed without error *)
Theorem C58_repeated : forall a b n e, dot3 n n = 1 -> eig_symm (uniaxial a b n) = Some e -> decomposes (uniaxial a b n) e.
Proof. exact eig_symm_uniaxial. Qed.
Print Assumptions C58_repeated.

(** a symmetric matrix with eigenvalues -325, 65 and 260 for which the code returns -325, 162.5 and 162.5 *)
Theorem C58_refuted : exists A, symmetric3 A /\ spectrum A (V (-325) 65 260) /\
  exists e, eig_symm A = Some e /\ lam e = V (-325) 162.5 162.5 /\ charpoly A 162.5 <> 0 /\ ~ decomposes A e.
Proof. exact witness_refutes. Qed.
Print Assumptions C58_refuted.

Example C58_stretched : exists e, eig_symm stretched = Some e /\ lam e = V (-5) 1 4 /\
  2 * small_gap < c1 (lam e) - c0 (lam e) /\ 2 * small_gap < c2 (lam e) - c1 (lam e).
Proof. exact stretched_gaps. Qed.

(** the value f(A) is Q f(L) Q^T for every orthogonal Q and every diagonal L with A Q = Q L *)
Theorem C58_function : forall A e f Q l, symmetric3 A -> eig_symm A = Some e -> decomposes A e -> orth 3 Q -> eigs 3 A Q l ->
  meq 3 (recompose e f) (comp 3 Q l f).
Proof. exact function_unique. Qed.
Print Assumptions C58_function.

Theorem C58_exp_det : forall A, symmetric3 A -> exists B, exp_symm A = Some B /\ symmetric3 B /\ det3 B = exp (tr 3 A).
Proof. exact exp_det. Qed.
Print Assumptions C58_exp_det.

Theorem C58_log : forall A, symmetric3 A -> exact_eig A -> positive_definite A ->
  exists L, log_symm A = Some L /\ symmetric3 L /\ tr 3 L = ln (det3 A).
Proof. exact log_defined. Qed.
Print Assumptions C58_log.

Theorem C58_exp_log : forall A, symmetric3 A -> exact_eig A -> forall L, log_symm A = Some L -> exact_eig L ->
  exists B, exp_symm L = Some B /\ meq 3 B A.
Proof. exact exp_log. Qed.
Print Assumptions C58_exp_log.

Theorem C58_log_exp : forall A, symmetric3 A -> exact_eig A -> forall B, exp_symm A = Some B -> exact_eig B ->
  exists L, log_symm B = Some L /\ meq 3 L A.
Proof. exact log_exp. Qed.
Print Assumptions C58_log_exp.

Theorem C58_sqrt : forall A, symmetric3 A -> exact_eig A -> positive_definite A ->
  exists B, sqrt_symm A = Some B /\ symmetric3 B /\ meq 3 (mmul 3 B B) A.
Proof. exact sqrt_works. Qed.
Print Assumptions C58_sqrt.

Example C58_values : symmetric3 (pulled 0) /\ exact_eig (pulled 0) /\ positive_definite (pulled 0) /\
  exists L, log_symm (pulled 0) = Some L /\ exact_eig L.
Proof. exact pulled_meets. Qed.

(** the derivatives: along every differentiable curve of matrices decomposed without error, also where eigenvalues coincide *)
Theorem C58_exp_derivative : forall A D F G, exact_curve A D -> near0 (fun t => exp_symm (A t) = Some (F t)) ->
  matrix_function_derivative exp_secant (A 0) D = Some G ->
  forall i j, (i < 3)%nat -> (j < 3)%nat -> derivable_pt_lim (fun t => F t i j) 0 (G i j).
Proof. exact exp_derivative. Qed.
Print Assumptions C58_exp_derivative.

Theorem C58_log_derivative : forall A D F G, exact_curve A D -> near0 (fun t => log_symm (A t) = Some (F t)) ->
  matrix_function_derivative log_secant (A 0) D = Some G ->
  forall i j, (i < 3)%nat -> (j < 3)%nat -> derivable_pt_lim (fun t => F t i j) 0 (G i j).
Proof. exact log_derivative. Qed.
Print Assumptions C58_log_derivative.

Theorem C58_sqrt_derivative : forall A D F G, exact_curve A D -> positive_definite (A 0) -> near0 (fun t => sqrt_symm (A t) = Some (F t)) ->
  matrix_function_derivative sqrt_secant (A 0) D = Some G ->
  forall i j, (i < 3)%nat -> (j < 3)%nat -> derivable_pt_lim (fun t => F t i j) 0 (G i j).
Proof. exact sqrt_derivative. Qed.
Print Assumptions C58_sqrt_derivative.

Example C58_curve : exact_curve pulled ident /\ positive_definite (pulled 0) /\
  exists E L S, near0 (fun t => exp_symm (pulled t) = Some (E t)) /\ near0 (fun t => log_symm (pulled t) = Some (L t)) /\
    near0 (fun t => sqrt_symm (pulled t) = Some (S t)).
Proof. exact pulled_curve_meets. Qed.
