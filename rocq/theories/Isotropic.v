(** * Zero, isotropic and dense tensors in one expression (C86)

    /repo/src/serac/numerics/functional/tensor.hpp:120-262 (the sentinel [zero]) and the dense operations,
    isotropic_tensor.hpp:60-471, tuple_tensor_dual_functions.hpp:24-108 (scaling and division by a number).
    The overload an operator picks depends on the kinds of its operands; this file is that table.  Doubles are real
    numbers.  Square matrices of size [n], vectors of size [n]; tensors of rank 3 and dual numbers are left out. *)
From Coq Require Import Reals Lra Lia Bool List.
From Verif Require Import Sums Tensor.
Local Open Scope R_scope.

Notation ten := (nat -> nat -> nat -> nat -> R) (only parsing).

(** ** what a C++ expression can be *)
Inductive value :=
| Zero                                   (* zero: tensor.hpp:123-147 *)
| Num (x : R)                            (* double *)
| Vec (x : vec)                          (* tensor<double, n> *)
| Mat (A : mat)                          (* tensor<double, n, n> *)
| Ten (C : ten)                          (* tensor<double, n, n, n, n> *)
| Iso (v : R)                            (* isotropic_tensor<double, n, n>: isotropic_tensor.hpp:36-58 *)
| Iso4 (c1 c2 c3 : R)                    (* isotropic_tensor<double, n, n, n, n>: 361-375 *)
| NestV (x : vec) | NestM (A : mat).     (* isotropic_tensor<tensor<double, n>, n, n>, isotropic_tensor<tensor<double, n, n>, n, n> *)
(** [Absent]: no overload, or two equally good ones: the program is rejected by the compiler.  [Undefined]: a division by zero. *)
Inductive res := Value (v : value) | Absent | Undefined.

Inductive op1 := Neg | Sym | Antisym | Trace | Transp | Inv | Det | Norm | SqNorm | Dev.
Inductive op2 := Add | Sub | Mul | Div | Dot | DDot.

(** unary minus: tensor.hpp:179, 425-433, and double.  There is none for isotropic tensors. *)
Definition neg (v : value) : res :=
  match v with
  | Zero => Value Zero
  | Num x => Value (Num (- x))
  | Vec x => Value (Vec (fun i => - x i))
  | Mat A => Value (Mat (fun i j => - A i j))
  | Ten C => Value (Ten (fun i j k l => - C i j k l))
  | _ => Absent
  end.

(** operator+: tensor.hpp:160-174, 407-416; isotropic_tensor.hpp:97-103, 130-155 (mixed), 430-434 (rank 4) *)
Definition add (a b : value) : res :=
  match a, b with
  | Zero, b => Value b
  | a, Zero => Value a
  | Num x, Num y => Value (Num (x + y))
  | Vec x, Vec y => Value (Vec (fun i => x i + y i))
  | Mat A, Mat B => Value (Mat (fun i j => A i j + B i j))
  | Ten C, Ten D => Value (Ten (fun i j k l => C i j k l + D i j k l))
  | Iso v, Iso w => Value (Iso (v + w))
  | Iso v, Mat B => Value (Mat (fun i j => v * (if Nat.eqb i j then 1 else 0) + B i j))
  | Mat A, Iso w => Value (Mat (fun i j => A i j + w * (if Nat.eqb i j then 1 else 0)))
  | Iso4 a1 a2 a3, Iso4 b1 b2 b3 => Value (Iso4 (a1 + b1) (a2 + b2) (a3 + b3))
  | NestV x, NestV y => Value (NestV (fun i => x i + y i))
  | NestM A, NestM B => Value (NestM (fun i j => A i j + B i j))
  | _, _ => Absent
  end.

(** operator-: tensor.hpp:182-196, 444-453; isotropic_tensor.hpp:114-119, 168-193, 447-451 *)
Definition sub (a b : value) : res :=
  match a, b with
  | Zero, b => neg b
  | a, Zero => Value a
  | Num x, Num y => Value (Num (x - y))
  | Vec x, Vec y => Value (Vec (fun i => x i - y i))
  | Mat A, Mat B => Value (Mat (fun i j => A i j - B i j))
  | Ten C, Ten D => Value (Ten (fun i j k l => C i j k l - D i j k l))
  | Iso v, Iso w => Value (Iso (v - w))
  | Iso v, Mat B => Value (Mat (fun i j => v * (if Nat.eqb i j then 1 else 0) - B i j))
  | Mat A, Iso w => Value (Mat (fun i j => A i j - w * (if Nat.eqb i j then 1 else 0)))
  | Iso4 a1 a2 a3, Iso4 b1 b2 b3 => Value (Iso4 (a1 - b1) (a2 - b2) (a3 - b3))
  | NestV x, NestV y => Value (NestV (fun i => x i - y i))
  | NestM A, NestM B => Value (NestM (fun i j => A i j - B i j))
  | _, _ => Absent
  end.

(** scaling: tuple_tensor_dual_functions.hpp:24-65; isotropic_tensor.hpp:76-87 and 408-420 *)
Definition scaled (s : R) (v : value) : res :=
  match v with
  | Zero => Value Zero
  | Num x => Value (Num (x * s))
  | Vec x => Value (Vec (fun i => x i * s))
  | Mat A => Value (Mat (fun i j => A i j * s))
  | Ten C => Value (Ten (fun i j k l => C i j k l * s))
  | Iso v => Value (Iso (v * s))
  | Iso4 c1 c2 c3 => Value (Iso4 (c1 * s) (c2 * s) (c3 * s))
  | NestV x => Value (NestV (fun i => x i * s))
  | NestM A => Value (NestM (fun i j => A i j * s))
  end.

(** dot: tensor.hpp:251-262, 706-718, 744-770, 808-820; isotropic_tensor.hpp:206-220: I.value * A and A * I.value.
    There is none for two isotropic tensors, and dot(zero, zero) is ambiguous. *)
Definition dense_dot (n : nat) (a b : value) : res :=
  match a, b with
  | Vec x, Vec y => Value (Num (vdot n x y))
  | Vec x, Mat B => Value (Vec (vmat n x B))
  | Mat A, Vec y => Value (Vec (mvec n A y))
  | Mat A, Mat B => Value (Mat (mmul n A B))
  | _, _ => Absent
  end.
Definition dot (n : nat) (a b : value) : res :=
  match a, b with
  | Zero, Zero => Absent
  | Zero, _ | _, Zero => Value Zero
  | Iso v, Vec x => Value (Vec (fun i => v * x i))
  | Iso v, Mat A => Value (Mat (fun i j => v * A i j))
  | Iso v, Ten C => Value (Ten (fun i j k l => v * C i j k l))
  | Vec x, Iso v => Value (Vec (fun i => x i * v))
  | Mat A, Iso v => Value (Mat (fun i j => A i j * v))
  | Ten C, Iso v => Value (Ten (fun i j k l => C i j k l * v))
  | NestV x, b => dense_dot n (Vec x) b
  | NestM A, b => dense_dot n (Mat A) b
  | a, NestV y => dense_dot n a (Vec y)
  | a, NestM B => dense_dot n a (Mat B)
  | a, b => dense_dot n a b
  end.

(** operator*: tensor.hpp:200-215 (zero) and 998-1003 (dot); scaling as above.  [zero * isotropic] fits both
    tensor.hpp:205 and isotropic_tensor.hpp:77, neither is the better one.  In [tensor * isotropic] the template
    isotropic_tensor.hpp:76-80 takes the tensor for the scale: the result is an isotropic tensor whose value is a
    tensor.  In [isotropic * tensor] isotropic_tensor.hpp:83-87 would put a tensor in a double. *)
Definition mul (n : nat) (a b : value) : res :=
  match a, b with
  | Zero, (Iso _ | Iso4 _ _ _ | NestV _ | NestM _) => Absent
  | (Iso _ | Iso4 _ _ _ | NestV _ | NestM _), Zero => Absent
  | Zero, _ | _, Zero => Value Zero
  | Num s, b => scaled s b
  | a, Num s => scaled s a
  | Vec x, Iso v => Value (NestV (fun i => v * x i))
  | Mat A, Iso v => Value (NestM (fun i j => v * A i j))
  | Vec x, Vec y => dense_dot n (Vec x) (Vec y)
  | Vec x, Mat B => dense_dot n (Vec x) (Mat B)
  | Mat A, Vec y => dense_dot n (Mat A) (Vec y)
  | Mat A, Mat B => dense_dot n (Mat A) (Mat B)
  | _, _ => Absent
  end.

(** operator/: tensor.hpp:217-229 (zero over anything is zero, anything over zero is a static_assert),
    tuple_tensor_dual_functions.hpp:88-102.  The quotient of a number by a tensor (70-82) is left out. *)
Definition div (a b : value) : res :=
  match a, b with
  | _, Zero => Absent
  | Zero, _ => Value Zero
  | Num x, Num s => if Req_EM_T s 0 then Undefined else Value (Num (x / s))
  | Vec x, Num s => if Req_EM_T s 0 then Undefined else Value (Vec (fun i => x i / s))
  | Mat A, Num s => if Req_EM_T s 0 then Undefined else Value (Mat (fun i j => A i j / s))
  | Ten C, Num s => if Req_EM_T s 0 then Undefined else Value (Ten (fun i j k l => C i j k l / s))
  | _, _ => Absent
  end.

(** double_dot: tensor.hpp:944-994; isotropic_tensor.hpp:232-236 (I.value * tr(A)) and 465-469 (rank 4) *)
Definition ddot (n : nat) (a b : value) : res :=
  match a, b with
  | Mat A, Mat B => Value (Num (inner n n A B))
  | Ten C, Mat B => Value (Mat (double_dot4 n C B))
  | Iso v, Mat B => Value (Num (v * tr n B))
  | Iso4 c1 c2 c3, Mat B =>
      Value (Mat (fun i j => c1 * tr n B * 1 * (if Nat.eqb i j then 1 else 0) + c2 * sym B i j + c3 * antisym B i j))
  | NestV x, Mat B => Value (Vec (fun i => x i * tr n B))
  | NestM A, Mat B => Value (Mat (fun i j => A i j * tr n B))
  | _, _ => Absent
  end.

(** the functions of one tensor: tensor.hpp:1018-1054 (norms), 1087-1148 (tr, sym, antisym, dev), 1214-1253
    (transpose, det), 1592-1638 (inv; [n > 3], by linear_solve, left out); isotropic_tensor.hpp:246-343 *)
Definition unary (n : nat) (o : op1) (v : value) : res :=
  match o, v with
  | Neg, v => neg v
  | Sym, Mat A => Value (Mat (sym A))
  | Sym, Iso v => Value (Iso v)
  | Sym, NestV x => Value (NestV x)
  | Sym, NestM A => Value (NestM A)
  | Antisym, Mat A => Value (Mat (antisym A))
  | Antisym, (Iso _ | NestV _ | NestM _) => Value Zero
  | Trace, Mat A => Value (Num (tr n A))
  | Trace, Iso v => Value (Num (v * INR n))
  | Trace, NestV x => Value (Vec (fun i => x i * INR n))
  | Trace, NestM A => Value (Mat (fun i j => A i j * INR n))
  | Transp, Mat A => Value (Mat (transpose A))
  | Transp, Iso v => Value (Iso v)
  | Transp, NestV x => Value (NestV x)
  | Transp, NestM A => Value (NestM A)
  | Inv, Mat A => match n with
      | 2%nat => match inv2 A with Some B => Value (Mat B) | None => Undefined end
      | 3%nat => match inv3 A with Some B => Value (Mat B) | None => Undefined end
      | _ => Absent end
  | Inv, Iso v => if Req_EM_T v 0 then Undefined else Value (Iso (1 / v))
  | Inv, NestM A => if forallb (fun i => forallb (fun j => if Req_EM_T (A i j) 0 then false else true) (seq 0 n)) (seq 0 n)
                    then Value (NestM (fun i j => 1 / A i j)) else Undefined
  | Inv, NestV x => if forallb (fun i => if Req_EM_T (x i) 0 then false else true) (seq 0 n)
                    then Value (NestV (fun i => 1 / x i)) else Undefined
  | Det, Mat A => match n with 2%nat => Value (Num (det2 A)) | 3%nat => Value (Num (det3 A)) | _ => Absent end
  | Det, Iso v => Value (Num (v ^ n))
  | Norm, Zero => Value Zero
  | Norm, Vec x => Value (Num (sqrt (vdot n x x)))
  | Norm, Mat A => Value (Num (norm n n A))
  | Norm, Iso v => Value (Num (sqrt (v * v * INR n)))
  | SqNorm, Vec x => Value (Num (vdot n x x))
  | SqNorm, Mat A => Value (Num (squared_norm n n A))
  | SqNorm, Iso v => Value (Num (v * v * INR n))
  | SqNorm, NestM A => Value (Mat (fun i j => mmul n A A i j * INR n))
  | SqNorm, NestV x => Value (Num (vdot n x x * INR n))
  | Dev, Mat A => Value (Mat (dev n A))
  | _, _ => Absent
  end.
Definition binary (n : nat) (o : op2) (a b : value) : res :=
  match o with Add => add a b | Sub => sub a b | Mul => mul n a b | Div => div a b | Dot => dot n a b | DDot => ddot n a b end.

Inductive expr := Var (k : nat) | E1 (o : op1) (e : expr) | E2 (o : op2) (a b : expr).
Fixpoint eval (n : nat) (rho : nat -> value) (e : expr) : res :=
  match e with
  | Var k => Value (rho k)
  | E1 o e => match eval n rho e with Value v => unary n o v | r => r end
  | E2 o a b => match eval n rho a, eval n rho b with
                | Value v, Value w => binary n o v w
                | Absent, _ | _, Absent => Absent
                | _, _ => Undefined end
  end.

(** ** specification: what the expression means in index notation *)
Inductive ty := Scal | Vect | Matr | Four.
Definition sem (t : ty) : Type := match t with Scal => R | Vect => vec | Matr => mat | Four => ten end.
Definition same (n : nat) (t : ty) : sem t -> sem t -> Prop :=
  match t with
  | Scal => fun x y => x = y
  | Vect => fun x y => forall i, (i < n)%nat -> x i = y i
  | Matr => fun x y => forall i j, (i < n)%nat -> (j < n)%nat -> x i j = y i j
  | Four => fun x y => forall i j k l, (i < n)%nat -> (j < n)%nat -> (k < n)%nat -> (l < n)%nat -> x i j k l = y i j k l
  end.
Definition delta (i j : nat) : R := if Nat.eqb i j then 1 else 0.
(** the array a value stands for; zero stands for zeros of any shape *)
Definition stands (n : nat) (v : value) (t : ty) : sem t -> Prop :=
  match v, t return sem t -> Prop with
  | Zero, Scal => fun s => s = 0
  | Zero, Vect => fun s => same n Vect s (fun _ => 0)
  | Zero, Matr => fun s => same n Matr s (fun _ _ => 0)
  | Zero, Four => fun s => same n Four s (fun _ _ _ _ => 0)
  | Num x, Scal => fun s => s = x
  | Vec x, Vect => fun s => same n Vect s x
  | Mat A, Matr => fun s => same n Matr s A
  | Ten C, Four => fun s => same n Four s C
  | Iso v, Matr => fun s => same n Matr s (fun i j => v * delta i j)
  | Iso4 a b c, Four => fun s => same n Four s (fun i j k l => a * (delta i j * delta k l)
      + b * ((delta i k * delta j l + delta i l * delta j k) / 2) + c * ((delta i k * delta j l - delta i l * delta j k) / 2))
  | _, _ => fun _ => False
  end.

(** entrywise combination of two arrays of one shape, and of one array *)
Definition zip (t : ty) (f : R -> R -> R) : sem t -> sem t -> sem t :=
  match t with
  | Scal => fun x y => f x y
  | Vect => fun x y i => f (x i) (y i)
  | Matr => fun x y i j => f (x i j) (y i j)
  | Four => fun x y i j k l => f (x i j k l) (y i j k l)
  end.
Definition each (t : ty) (f : R -> R) (x : sem t) : sem t := zip t (fun a _ => f a) x x.

Definition determinant (n : nat) (A : mat) (d : R) : Prop :=
  let a (i j : nat) := A i j in
  (n = 2%nat /\ d = a 0%nat 0%nat * a 1%nat 1%nat - a 0%nat 1%nat * a 1%nat 0%nat) \/
  (n = 3%nat /\ d = a 0%nat 0%nat * (a 1%nat 1%nat * a 2%nat 2%nat - a 1%nat 2%nat * a 2%nat 1%nat)
                  - a 0%nat 1%nat * (a 1%nat 0%nat * a 2%nat 2%nat - a 1%nat 2%nat * a 2%nat 0%nat)
                  + a 0%nat 2%nat * (a 1%nat 0%nat * a 2%nat 1%nat - a 1%nat 1%nat * a 2%nat 0%nat)).
(** in Serac [A * B] is written for the product of two arrays as well as [dot(A, B)] *)
Definition product (o : op2) : Prop := o = Mul \/ o = Dot.

Inductive means (n : nat) (sigma : nat -> {t : ty & sem t}) : expr -> forall t, sem t -> Prop :=
| M_var k t s : sigma k = existT _ t s -> means n sigma (Var k) t s
| M_neg e t x : means n sigma e t x -> means n sigma (E1 Neg e) t (each t Ropp x)
| M_add a b t x y : means n sigma a t x -> means n sigma b t y -> means n sigma (E2 Add a b) t (zip t Rplus x y)
| M_sub a b t x y : means n sigma a t x -> means n sigma b t y -> means n sigma (E2 Sub a b) t (zip t Rminus x y)
| M_scale a b t x y : means n sigma a Scal x -> means n sigma b t y -> means n sigma (E2 Mul a b) t (each t (Rmult x) y)
| M_rscale a b t x y : means n sigma a t x -> means n sigma b Scal y -> means n sigma (E2 Mul a b) t (each t (Rmult y) x)
| M_div a b t x y : means n sigma a t x -> means n sigma b Scal y -> y <> 0 -> means n sigma (E2 Div a b) t (each t (fun u => u / y) x)
| M_vv o a b x y : product o -> means n sigma a Vect x -> means n sigma b Vect y -> means n sigma (E2 o a b) Scal (sumn n (fun k => x k * y k))
| M_vm o a b x y : product o -> means n sigma a Vect x -> means n sigma b Matr y -> means n sigma (E2 o a b) Vect (fun j => sumn n (fun k => x k * y k j))
| M_mv o a b x y : product o -> means n sigma a Matr x -> means n sigma b Vect y -> means n sigma (E2 o a b) Vect (fun i => sumn n (fun k => x i k * y k))
| M_mm o a b x y : product o -> means n sigma a Matr x -> means n sigma b Matr y -> means n sigma (E2 o a b) Matr (fun i j => sumn n (fun k => x i k * y k j))
| M_in a b x y : means n sigma a Matr x -> means n sigma b Matr y -> means n sigma (E2 DDot a b) Scal (sumn n (fun i => sumn n (fun j => x i j * y i j)))
| M_4m a b x y : means n sigma a Four x -> means n sigma b Matr y ->
    means n sigma (E2 DDot a b) Matr (fun i j => sumn n (fun k => sumn n (fun l => x i j k l * y k l)))
| M_sym e x : means n sigma e Matr x -> means n sigma (E1 Sym e) Matr (fun i j => (x i j + x j i) / 2)
| M_anti e x : means n sigma e Matr x -> means n sigma (E1 Antisym e) Matr (fun i j => (x i j - x j i) / 2)
| M_tr e x : means n sigma e Matr x -> means n sigma (E1 Trace e) Scal (sumn n (fun i => x i i))
| M_T e x : means n sigma e Matr x -> means n sigma (E1 Transp e) Matr (fun i j => x j i)
| M_inv e x y : means n sigma e Matr x -> (forall i j, (i < n)%nat -> (j < n)%nat -> sumn n (fun k => x i k * y k j) = delta i j) ->
    (forall i j, (i < n)%nat -> (j < n)%nat -> sumn n (fun k => y i k * x k j) = delta i j) -> means n sigma (E1 Inv e) Matr y
| M_det e x d : means n sigma e Matr x -> determinant n x d -> means n sigma (E1 Det e) Scal d
| M_norm_v e x : means n sigma e Vect x -> means n sigma (E1 Norm e) Scal (sqrt (sumn n (fun i => x i * x i)))
| M_norm_m e x : means n sigma e Matr x -> means n sigma (E1 Norm e) Scal (sqrt (sumn n (fun i => sumn n (fun j => x i j * x i j))))
| M_sq_v e x : means n sigma e Vect x -> means n sigma (E1 SqNorm e) Scal (sumn n (fun i => x i * x i))
| M_sq_m e x : means n sigma e Matr x -> means n sigma (E1 SqNorm e) Scal (sumn n (fun i => sumn n (fun j => x i j * x i j)))
| M_dev e x : means n sigma e Matr x -> (0 < n)%nat -> means n sigma (E1 Dev e) Matr (fun i j => x i j - sumn n (fun k => x k k) / INR n * delta i j).

(** nowhere in the evaluation does [*] get a dense tensor on its left and an isotropic one on its right *)
Fixpoint plain (n : nat) (rho : nat -> value) (e : expr) : Prop :=
  match e with
  | Var k => match rho k with NestV _ | NestM _ => False | _ => True end
  | E1 _ e => plain n rho e
  | E2 o a b => plain n rho a /\ plain n rho b /\
      match o, eval n rho a, eval n rho b with Mul, Value (Vec _ | Mat _), Value (Iso _) => False | _, _, _ => True end
  end.
(** every variable is a number or a dense tensor *)
Definition dense (v : value) : Prop := match v with Num _ | Vec _ | Mat _ | Ten _ => True | _ => False end.
