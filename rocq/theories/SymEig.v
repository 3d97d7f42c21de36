(** * Eigendecomposition of a symmetric 3x3 matrix and functions of such a matrix (C58): the model

    /repo/src/serac/numerics/functional/tuple_tensor_dual_functions.hpp:757-1055.  Doubles are real numbers; the vectors of
    three doubles are triples.  [None]: a vector of length zero was normalised, which gives NaN. *)
From Coq Require Import Reals Lra Lia Bool.
From Verif Require Import Sums Tensor.
Local Open Scope R_scope.

(** ** vectors with three entries *)
Record v3 := V { c0 : R; c1 : R; c2 : R }.
Definition entry (u : v3) (i : nat) : R := match i with O => c0 u | S O => c1 u | _ => c2 u end.
(** tensor.hpp: difference, product with a number *)
Definition vsub (u w : v3) : v3 := V (c0 u - c0 w) (c1 u - c1 w) (c2 u - c2 w).
Definition vadd (u w : v3) : v3 := V (c0 u + c0 w) (c1 u + c1 w) (c2 u + c2 w).
Definition vscal (a : R) (u : v3) : v3 := V (a * c0 u) (a * c1 u) (a * c2 u).
(** tensor.hpp:744-752 dot of two vectors *)
Definition dot3 (u w : v3) : R := c0 u * c0 w + c1 u * c1 w + c2 u * c2 w.
(** tensor.hpp:924-930 cross *)
Definition cross3 (u w : v3) : v3 :=
  V (c1 u * c2 w - c2 u * c1 w) (c2 u * c0 w - c0 u * c2 w) (c0 u * c1 w - c1 u * c0 w).
(** tensor.hpp:1043-1049 norm of a vector *)
Definition norm3 (u : v3) : R := sqrt (dot3 u u).
(** tensor.hpp:1061-1065 normalize: A / norm(A) *)
Definition normalize (u : v3) : option v3 := if Req_EM_T (norm3 u) 0 then None else Some (vscal (/ norm3 u) u).
(** tensor.hpp:808-820 dot of a matrix and a vector *)
Definition mv3 (A : mat) (u : v3) : v3 :=
  V (A 0%nat 0%nat * c0 u + A 0%nat 1%nat * c1 u + A 0%nat 2%nat * c2 u)
    (A 1%nat 0%nat * c0 u + A 1%nat 1%nat * c1 u + A 1%nat 2%nat * c2 u)
    (A 2%nat 0%nat * c0 u + A 2%nat 1%nat * c1 u + A 2%nat 2%nat * c2 u).

(** ** lines 757-790 *)
(** 764-769 sgn *)
Definition sgn (x : R) : R := if Rlt_dec 0 x then 1 else if Rlt_dec x 0 then -1 else 0.
(** 778-790 argsort: three compare-and-swap steps on the order {0, 1, 2} *)
Definition argsort (v : v3) : nat * nat * nat :=
  let '(a, b) := if Rlt_dec (c1 v) (c0 v) then (1, 0)%nat else (0, 1)%nat in
  let '(b, c) := if Rlt_dec (c2 v) (entry v b) then (2%nat, b) else (b, 2%nat) in
  let '(a, b) := if Rlt_dec (entry v b) (entry v a) then (b, a) else (a, b) in
  (a, b, c).

(** ** lines 802-912 eig_symm, in four pieces *)
(** 811-824: the eigenvalue that is farthest from the others, of the deviator *)
Definition clamp (x : R) : R := Rmin (Rmax x (-1)) 1.
Definition lead (J2 J3 : R) : R :=
  let tmp := 0.5 * J3 * Rpower (3 / J2) 1.5 in
  let alpha := acos (clamp tmp) / 3 in
  if Rlt_dec (6 * alpha) PI then 2 * sqrt (J2 / 3) * cos alpha
  else 2 * sqrt (J2 / 3) * cos (alpha + 2 * PI / 3).
(** 834: row i of r *)
Definition shifted_row (B : mat) (eta : R) (i : nat) : v3 :=
  V (B 0%nat i - (if Nat.eqb i 0 then eta else 0)) (B 1%nat i - (if Nat.eqb i 1 then eta else 0))
    (B 2%nat i - (if Nat.eqb i 2 then eta else 0)).
(** 829-842: the first row of largest norm; norm_max starts at -1, so the row 0 is always taken first *)
Definition longest (r : nat -> v3) : nat :=
  let m := 0%nat in
  let m := if Rlt_dec (norm3 (r m)) (norm3 (r 1%nat)) then 1%nat else m in
  if Rlt_dec (norm3 (r m)) (norm3 (r 2%nat)) then 2%nat else m.
(** 847-848: the part of a row orthogonal to s0 *)
Definition without (s u : v3) : v3 := vsub u (vscal (dot3 u s) s).
(** 849, 886: [(norm(t1) > norm(t2)) ? t1 : t2] *)
Definition longer (t1 t2 : v3) : v3 := if Rlt_dec (norm3 t2) (norm3 t1) then t1 else t2.
(** 846-849: an orthonormal pair spanning the rows *)
Definition plane (r : nat -> v3) : option (v3 * v3) :=
  let m := longest r in
  match normalize (r m) with
  | None => None
  | Some s0 =>
    let t1 := without s0 (r (Nat.modulo (m + 1) 3)) in
    let t2 := without s0 (r (Nat.modulo (m + 2) 3)) in
    match normalize (longer t1 t2) with
    | None => None
    | Some s1 => Some (s0, s1)
    end
  end.
(** 862-867 *)
Definition half_gap (a11 a12 a21 a22 : R) : R :=
  0.5 * sgn (a11 - a22) * sqrt ((a11 - a22) * (a11 - a22) + 4 * a12 * a21).
(** 875-896: the remaining two columns *)
Definition small_gap : R := / 10 ^ 15.
Definition remaining (As0 As1 s0 s1 v0 : v3) (eta1 delta : R) : option (v3 * v3) :=
  if Rle_dec (Rabs delta) small_gap then Some (s0, s1)
  else
    let t1 := vsub As0 (vscal eta1 s0) in
    let t2 := vsub As1 (vscal eta1 s1) in
    match normalize (longer t1 t2) with
    | None => None
    | Some w =>
      match normalize (cross3 w v0) with
      | None => None
      | Some v1 =>
        match normalize (cross3 v0 v1) with
        | None => None
        | Some v2 => Some (v1, v2)
        end
      end
    end.
(** three numbers and three columns, before sorting *)
Record eigen := Eigen { lam : v3; q0 : v3; q1 : v3; q2 : v3 }.
Definition column (e : eigen) (i : nat) : v3 := match i with O => q0 e | S O => q1 e | _ => q2 e end.
(** 844-896 for the deviator [B] and its first eigenvalue *)
Definition deflate (B : mat) (eta0 : R) : option eigen :=
  match plane (shifted_row B eta0) with
  | None => None
  | Some (s0, s1) =>
    let v0 := cross3 s0 s1 in
    let As0 := mv3 B s0 in let As1 := mv3 B s1 in
    let a11 := dot3 s0 As0 in let a12 := dot3 s0 As1 in
    let a21 := dot3 s1 As0 in let a22 := dot3 s1 As1 in
    let delta := half_gap a11 a12 a21 a22 in
    let eta1 := 0.5 * (a11 + a22) - delta in
    let eta2 := 0.5 * (a11 + a22) + delta in
    match remaining As0 As1 s0 s1 v0 eta1 delta with
    | None => None
    | Some (v1, v2) => Some (Eigen (V eta0 eta1 eta2) v0 v1 v2)
    end
  end.
(** 810-897 *)
Definition second (A : mat) : R := 0.5 * inner 3 3 (dev 3 A) (dev 3 A).
Definition of_deviator (A : mat) : option eigen :=
  if Rlt_dec 0 (second A) then deflate (dev 3 A) (lead (second A) (det3 (dev 3 A)))
  else Some (Eigen (V 0 0 0) (V 1 0 0) (V 0 1 0) (V 0 0 1)).
(** 898-911 *)
Definition shift (t : R) (u : v3) : v3 := V (c0 u + t) (c1 u + t) (c2 u + t).
Definition sorted (e : eigen) : eigen :=
  let '(a, b, c) := argsort (lam e) in
  Eigen (V (entry (lam e) a) (entry (lam e) b) (entry (lam e) c)) (column e a) (column e b) (column e c).
Definition eig_symm (A : mat) : option eigen :=
  match of_deviator A with
  | None => None
  | Some e => Some (sorted (Eigen (shift (tr 3 A / 3) (lam e)) (q0 e) (q1 e) (q2 e)))
  end.

(** ** lines 962-1055 functions of a symmetric matrix *)
(** the matrix whose columns are the eigenvectors *)
Definition basis (e : eigen) : mat := fun i k => entry (column e k) i.
(** tensor.hpp diag *)
Definition diag3 (y : nat -> R) : mat := fun i j => if Nat.eqb i j then y i else 0.
(** 966-970: dot(Q, dot(diag(y), transpose(Q))) *)
Definition recompose (e : eigen) (f : R -> R) : mat :=
  mmul 3 (basis e) (mmul 3 (diag3 (fun k => f (entry (lam e) k))) (transpose (basis e))).
(** 963-977 without derivatives *)
Definition matrix_function (f : R -> R) (A : mat) : option mat := option_map (fun e => recompose e f) (eig_symm A).
(** 985-998: derivative in the direction dA *)
Definition matrix_function_derivative (g : R -> R -> R) (A dA : mat) : option mat :=
  option_map (fun e => fun i j =>
    sumn 3 (fun k => sumn 3 (fun l => sumn 3 (fun a => sumn 3 (fun b =>
      g (entry (lam e) a) (entry (lam e) b) * basis e k a * basis e l b * basis e i a * basis e j b * dA k l)))))
    (eig_symm A).
(** 1008-1055.  [std::log] of a number that is not positive is not a number: the model of [log_symm] refuses. *)
Definition positive_values (e : eigen) : Prop := 0 < c0 (lam e) /\ 0 < c1 (lam e) /\ 0 < c2 (lam e).
Definition positive_dec (e : eigen) : {positive_values e} + {~ positive_values e}.
Proof.
  unfold positive_values. destruct (Rlt_dec 0 (c0 (lam e))), (Rlt_dec 0 (c1 (lam e))), (Rlt_dec 0 (c2 (lam e)));
    (left; tauto) || (right; tauto).
Defined.
Definition log_symm (A : mat) : option mat :=
  match eig_symm A with Some e => if positive_dec e then Some (recompose e ln) else None | None => None end.
Definition exp_symm (A : mat) : option mat := matrix_function exp A.
(** the square root of a negative number is not a number *)
Definition nonneg_values (e : eigen) : Prop := 0 <= c0 (lam e) /\ 0 <= c1 (lam e) /\ 0 <= c2 (lam e).
Definition nonneg_dec (e : eigen) : {nonneg_values e} + {~ nonneg_values e}.
Proof.
  unfold nonneg_values. destruct (Rle_dec 0 (c0 (lam e))), (Rle_dec 0 (c1 (lam e))), (Rle_dec 0 (c2 (lam e)));
    (left; tauto) || (right; tauto).
Defined.
Definition sqrt_symm (A : mat) : option mat :=
  match eig_symm A with Some e => if nonneg_dec e then Some (recompose e sqrt) else None | None => None end.
(** 1010-1017, 1031-1038, 1052: the secants handed to the derivative *)
Definition log_secant (x y : R) : R := if Req_EM_T x y then 1 / x else ln (x / y) / (x / y - 1) / y.
Definition exp_secant (x y : R) : R := if Req_EM_T x y then exp x else exp y * (exp (x - y) - 1) / (x - y).
Definition sqrt_secant (x y : R) : R := 1 / (sqrt x + sqrt y).
