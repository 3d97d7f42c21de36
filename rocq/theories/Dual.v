(** * Dual numbers (C15)

    Forward-mode automatic differentiation: serac::dual, every overload of
    /repo/src/serac/numerics/functional/dual.hpp.  Expressions built from those overloads are a syntax tree;
    it is evaluated once with ordinary doubles and once with duals, choosing the overload of each operation
    from the static types (double or dual) of its operands as C++ does.

    Simplifications: doubles are real numbers; [None] stands for a NaN or an infinity.  The gradient type is any
    number of real components, [nat -> R] (in the code a double, a tensor or a tuple of them; every overload acts on
    the components alike). *)
From Coq Require Import Reals Lra Lia ZArith Bool List.
From Coquelicot Require Import Coquelicot.
Local Open Scope R_scope.

(** dual.hpp:28-47: a number is an ordinary double or a dual {value, gradient} *)
Inductive num := Dbl (v : R) | Dua (v : R) (g : nat -> R).

(** dual.hpp:414-432 get_value, get_gradient (a plain double has gradient zero, dual.hpp:434-437) *)
Definition get_value (x : num) : R := match x with Dbl v => v | Dua v _ => v end.
Definition get_gradient (x : num) : nat -> R := match x with Dbl _ => fun _ => 0 | Dua _ g => g end.

Definition obind {A B} (x : option A) (f : A -> option B) : option B :=
  match x with Some a => f a | None => None end.

(** ** The C++ library functions on doubles *)
Definition std_div (a b : R) : option R := if Req_EM_T b 0 then None else Some (a / b).
Definition std_sqrt (x : R) : option R := if Rlt_dec x 0 then None else Some (sqrt x).
Definition std_log (x : R) : option R := if Rlt_dec 0 x then Some (ln x) else None.
Definition std_asin (x : R) : option R :=
  if Rlt_dec x (-1) then None else if Rlt_dec 1 x then None else Some (asin x).
Definition std_acos (x : R) : option R :=
  if Rlt_dec x (-1) then None else if Rlt_dec 1 x then None else Some (acos x).
Definition std_abs (x : R) : R := if Rlt_dec x 0 then - x else x.
Definition std_max (a b : R) : R := if Rlt_dec a b then b else a.
Definition std_min (a b : R) : R := if Rlt_dec b a then b else a.
Definition std_atan2 (y x : R) : R :=
  if Rlt_dec 0 x then atan (y / x)
  else if Rlt_dec x 0 then (if Rlt_dec y 0 then atan (y / x) - PI else atan (y / x) + PI)
  else if Rlt_dec 0 y then PI / 2 else if Rlt_dec y 0 then - (PI / 2) else 0.
Definition std_pow (a b : R) : option R :=
  if Rlt_dec 0 a then Some (Rpower a b)
  else if Req_EM_T b (IZR (Int_part b)) then
         (if Req_EM_T a 0 then (if Rlt_dec b 0 then None else Some (powerRZ a (Int_part b)))
          else Some (powerRZ a (Int_part b)))
       else if Req_EM_T a 0 then (if Rlt_dec 0 b then Some 0 else None) else None.

(** ** Operations *)
Inductive unop := Neg | Abs | Sqrt | Cos | Sin | Atan | Asin | Acos | Exp | Log | Log1p.
Inductive binop := Add | Sub | Mul | Div | Max | Min | Atan2 | Pow.

(** the same operation on plain doubles (built-in operators and the functions of <cmath>) *)
Definition un_std (u : unop) (v : R) : option R :=
  match u with
  | Neg => Some (- v) | Abs => Some (std_abs v) | Sqrt => std_sqrt v | Cos => Some (cos v) | Sin => Some (sin v)
  | Atan => Some (atan v) | Asin => std_asin v | Acos => std_acos v | Exp => Some (exp v) | Log => std_log v
  | Log1p => std_log (1 + v)
  end.

Definition bin_std (b : binop) (x y : R) : option R :=
  match b with
  | Add => Some (x + y) | Sub => Some (x - y) | Mul => Some (x * y) | Div => std_div x y
  | Max => Some (std_max x y) | Min => Some (std_min x y) | Atan2 => Some (std_atan2 x y) | Pow => std_pow x y
  end.

(** gradient / double, componentwise *)
Definition gdiv (g : nat -> R) (s : R) : option (nat -> R) :=
  if Req_EM_T s 0 then None else Some (fun d => g d / s).

(** dual.hpp:80-84 (negation), 216-226 (abs), 276-372 (sqrt, cos, sin, atan, asin, acos, exp, log, log1p) *)
Definition un_dual (u : unop) (v : R) (g : nat -> R) : option num :=
  match u with
  | Neg => Some (Dua (- v) (fun d => - g d))
  | Abs => if Rle_dec 0 v then Some (Dua v g) else Some (Dua (- v) (fun d => - g d))
  | Sqrt => obind (std_sqrt v) (fun s => obind (gdiv g (2 * s)) (fun h => Some (Dua s h)))
  | Cos => Some (Dua (cos v) (fun d => - g d * sin v))
  | Sin => Some (Dua (sin v) (fun d => g d * cos v))
  | Atan => obind (gdiv g (1 + v * v)) (fun h => Some (Dua (atan v) h))
  | Asin => obind (std_asin v) (fun w => obind (std_sqrt (1 - v * v)) (fun s =>
            obind (gdiv g s) (fun h => Some (Dua w h))))
  | Acos => obind (std_acos v) (fun w => obind (std_sqrt (1 - v * v)) (fun s =>
            obind (gdiv (fun d => - g d) s) (fun h => Some (Dua w h))))
  | Exp => Some (Dua (exp v) (fun d => exp v * g d))
  | Log => obind (std_log v) (fun w => obind (gdiv g v) (fun h => Some (Dua w h)))
  | Log1p => obind (std_log (1 + v)) (fun w => obind (gdiv g (1 + v)) (fun h => Some (Dua w h)))
  end.

(** dual (op) dual: dual.hpp:72-77, 100-105, 121-126, 142-147, 244-249, 270-274, 309-315, 374-382 *)
Definition bin_dd (b : binop) (x : R) (g : nat -> R) (y : R) (h : nat -> R) : option num :=
  match b with
  | Add => Some (Dua (x + y) (fun d => g d + h d))
  | Sub => Some (Dua (x - y) (fun d => g d - h d))
  | Mul => Some (Dua (x * y) (fun d => y * g d + x * h d))
  | Div => obind (std_div x y) (fun v => obind (gdiv g y) (fun p => obind (gdiv (fun d => x * h d) (y * y)) (fun q =>
           Some (Dua v (fun d => p d - q d)))))
  | Max => Some (if Rlt_dec y x then Dua x g else Dua y h)
  | Min => Some (if Rlt_dec x y then Dua x g else Dua y h)
  | Atan2 => obind (gdiv (fun d => g d * y) (y * y + x * x)) (fun p =>
             obind (gdiv (fun d => h d * x) (y * y + x * x)) (fun q =>
             Some (Dua (std_atan2 x y) (fun d => p d - q d))))
  | Pow => obind (std_pow x y) (fun v => obind (std_pow x (y - 1)) (fun w => obind (std_log x) (fun l =>
           Some (Dua v (fun d => w * (g d * y + h d * x * l))))))
  end.

(** dual (op) double: dual.hpp:58-63, 86-91, 107-112, 128-133, 228-234, 254-260, 326-332, 393-401 *)
Definition bin_ds (b : binop) (x : R) (g : nat -> R) (y : R) : option num :=
  match b with
  | Add => Some (Dua (x + y) g)
  | Sub => Some (Dua (x - y) g)
  | Mul => Some (Dua (x * y) (fun d => g d * y))
  | Div => obind (std_div x y) (fun v => obind (gdiv g y) (fun p => Some (Dua v p)))
  | Max => Some (if Rlt_dec y x then Dua x g else Dua y (fun d => 0 * g d))
  | Min => Some (if Rlt_dec x y then Dua x g else Dua y (fun d => 0 * g d))
  | Atan2 => obind (gdiv (fun d => g d * y) (y * y + x * x)) (fun p => Some (Dua (std_atan2 x y) p))
  | Pow => obind (std_pow x y) (fun v => obind (std_pow x (y - 1)) (fun w => Some (Dua v (fun d => y * w * g d))))
  end.

(** double (op) dual: dual.hpp:65-70, 93-98, 114-119, 135-140, 236-242, 262-268, 317-324, 384-391 *)
Definition bin_sd (b : binop) (x : R) (y : R) (h : nat -> R) : option num :=
  match b with
  | Add => Some (Dua (x + y) h)
  | Sub => Some (Dua (x - y) (fun d => - h d))
  | Mul => Some (Dua (x * y) (fun d => x * h d))
  | Div => obind (std_div x y) (fun v => obind (std_div x (y * y)) (fun q => Some (Dua v (fun d => - q * h d))))
  | Max => Some (if Rlt_dec y x then Dua x (fun d => 0 * h d) else Dua y h)
  | Min => Some (if Rlt_dec x y then Dua x (fun d => 0 * h d) else Dua y h)
  | Atan2 => obind (gdiv (fun d => - h d * x) (y * y + x * x)) (fun p => Some (Dua (std_atan2 x y) p))
  | Pow => obind (std_pow x y) (fun v => obind (std_log x) (fun l => Some (Dua v (fun d => v * h d * l))))
  end.

Definition apply_un (u : unop) (x : num) : option num :=
  match x with Dbl v => option_map Dbl (un_std u v) | Dua v g => un_dual u v g end.

Definition apply_bin (b : binop) (x y : num) : option num :=
  match x, y with
  | Dbl v, Dbl w => option_map Dbl (bin_std b v w)
  | Dua v g, Dua w h => bin_dd b v g w h
  | Dua v g, Dbl w => bin_ds b v g w
  | Dbl v, Dua w h => bin_sd b v w h
  end.

(** dual.hpp:37-44, assignment of a double to a dual variable: the gradient becomes zero *)
Definition to_dual (x : num) : num := match x with Dbl v => Dua v (fun _ => 0) | Dua v g => Dua v g end.

(** ** Expressions: the body of a q-function *)
Inductive expr :=
| Var (i : nat) | Cst (c : R)
| Un (u : unop) (a : expr)
| Bin (b : binop) (a c : expr)
| Sel (a c t f : expr)  (** [if (a < c) r = t; else r = f;] comparisons look at the values only, dual.hpp:149-177 *).

Fixpoint eval (e : expr) (x : nat -> R) : option R :=
  match e with
  | Var i => Some (x i)
  | Cst c => Some c
  | Un u a => obind (eval a x) (un_std u)
  | Bin b a c => obind (eval a x) (fun v => obind (eval c x) (bin_std b v))
  | Sel a c t f => obind (eval a x) (fun v => obind (eval c x) (fun w =>
                   if Rlt_dec v w then eval t x else eval f x))
  end.

(** static type of an expression: dual or double *)
Fixpoint is_dual (k : nat -> bool) (e : expr) : bool :=
  match e with
  | Var i => k i
  | Cst _ => false
  | Un _ a => is_dual k a
  | Bin _ a c => is_dual k a || is_dual k c
  | Sel _ _ t f => is_dual k t || is_dual k f
  end.

Definition kind (x : num) : bool := match x with Dbl _ => false | Dua _ _ => true end.

Fixpoint deval (e : expr) (x : nat -> num) : option num :=
  match e with
  | Var i => Some (x i)
  | Cst c => Some (Dbl c)
  | Un u a => obind (deval a x) (apply_un u)
  | Bin b a c => obind (deval a x) (fun v => obind (deval c x) (apply_bin b v))
  | Sel a c t f => obind (deval a x) (fun v => obind (deval c x) (fun w =>
                   option_map (fun r => if is_dual (fun i => kind (x i)) t || is_dual (fun i => kind (x i)) f
                                        then to_dual r else r)
                     (if Rlt_dec (get_value v) (get_value w) then deval t x else deval f x)))
  end.

(** ** Where each operation is differentiable *)
Definition un_smooth (u : unop) (v : R) : Prop :=
  match u with
  | Abs => v <> 0 | Sqrt => 0 < v | Asin | Acos => -1 < v < 1 | Log => 0 < v | Log1p => -1 < v
  | Neg | Cos | Sin | Atan | Exp => True
  end.

(** [kx], [ky]: is the first, second operand a dual?  A double operand does not vary. *)
Definition bin_smooth (b : binop) (kx ky : bool) (x y : R) : Prop :=
  match b with
  | Add | Sub | Mul => True
  | Div => y <> 0
  | Max | Min => x <> y
  | Atan2 => y > 0 \/ x <> 0
  | Pow => 0 < x \/ (ky = false /\ exists z, y = IZR z /\ (x <> 0 \/ (1 <= z)%Z))
  end.

(** every operation performed on varying operands is differentiable at the point [x] *)
Fixpoint smooth (k : nat -> bool) (x : nat -> R) (e : expr) : Prop :=
  match e with
  | Var _ | Cst _ => True
  | Un u a => smooth k x a /\ (is_dual k a = true -> forall v, eval a x = Some v -> un_smooth u v)
  | Bin b a c => smooth k x a /\ smooth k x c /\
      (is_dual k a || is_dual k c = true -> forall v w, eval a x = Some v -> eval c x = Some w ->
         bin_smooth b (is_dual k a) (is_dual k c) v w)
  | Sel a c t f => smooth k x a /\ smooth k x c /\
      forall v w, eval a x = Some v -> eval c x = Some w ->
        (is_dual k a || is_dual k c = true -> v <> w) /\
        (v < w -> smooth k x t) /\ (~ v < w -> smooth k x f)
  end.

(** ** The inputs move along a curve whose velocity is component [d] of the input gradients *)
Definition moves (ins : nat -> num) (d : nat) (x : R -> nat -> R) (t0 : R) : Prop :=
  forall i, x t0 i = get_value (ins i) /\
    match ins i with
    | Dbl v => forall t, x t i = v
    | Dua v g => is_derive (fun t => x t i) t0 (g d)
    end.

(** ** Proofs *)
Definition rel (F : R -> option R) (t0 : R) (d : nat) (r : num) : Prop :=
  match r with
  | Dbl v => locally t0 (fun t => F t = Some v)
  | Dua v g => exists G, locally t0 (fun t => F t = Some (G t)) /\ G t0 = v /\ is_derive G t0 (g d)
  end.

Ltac sp := repeat match goal with |- _ /\ _ => split end; try reflexivity.

Lemma rel_value F t0 d r : rel F t0 d r -> F t0 = Some (get_value r).
Proof.
  destruct r as [v|v g]; simpl.
  - intros H; exact (locally_singleton _ _ H).
  - intros [G [H [E _]]]. rewrite <- E. exact (locally_singleton _ _ H).
Qed.

(** a curve for either kind *)
Lemma rel_curve F t0 d r : rel F t0 d r ->
  exists G, locally t0 (fun t => F t = Some (G t)) /\ G t0 = get_value r /\ is_derive G t0 (get_gradient r d).
Proof.
  destruct r as [v|v g]; simpl; [|now auto].
  intros H. exists (fun _ => v). sp; [exact H|].
  apply (is_derive_const (K := R_AbsRing) (V := R_NormedModule)).
Qed.

Lemma locally_comp (G : R -> R) (t0 : R) l (P : R -> Prop) :
  is_derive G t0 l -> locally (G t0) P -> locally t0 (fun t => P (G t)).
Proof.
  intros HG HP.
  assert (C : continuous G t0) by (apply (ex_derive_continuous (K := R_AbsRing) (V := R_NormedModule)); now exists l).
  exact (C P HP).
Qed.

Lemma locally_gt v c : c < v -> locally v (fun y => c < y).
Proof. intros H. apply (open_gt c v H). Qed.
Lemma locally_lt v c : v < c -> locally v (fun y => y < c).
Proof. intros H. apply (open_lt c v H). Qed.

Lemma locally_curve_lt (G H : R -> R) (t0 : R) l m : is_derive G t0 l -> is_derive H t0 m -> G t0 < H t0 ->
  locally t0 (fun t => G t < H t).
Proof.
  intros DG DH HL.
  assert (A := locally_comp G t0 l _ DG (locally_lt (G t0) ((G t0 + H t0) / 2) ltac:(lra))).
  assert (B := locally_comp H t0 m _ DH (locally_gt (H t0) ((G t0 + H t0) / 2) ltac:(lra))).
  generalize (filter_and _ _ A B). apply filter_imp. intros t [a b]. lra.
Qed.

Lemma d_ext (f : R -> R) (x l l' : R) : is_derive f x l -> l = l' -> is_derive f x l'.
Proof. now intros H <-. Qed.
Lemma d_plus (f g : R -> R) x l m : is_derive f x l -> is_derive g x m -> is_derive (fun t => f t + g t) x (l + m).
Proof. rewrite !is_derive_Reals. intros; now apply derivable_pt_lim_plus. Qed.
Lemma d_minus (f g : R -> R) x l m : is_derive f x l -> is_derive g x m -> is_derive (fun t => f t - g t) x (l - m).
Proof. rewrite !is_derive_Reals. intros; now apply derivable_pt_lim_minus. Qed.
Lemma d_opp (f : R -> R) x l : is_derive f x l -> is_derive (fun t => - f t) x (- l).
Proof. rewrite !is_derive_Reals. intros; now apply derivable_pt_lim_opp. Qed.
Lemma d_mult (f g : R -> R) x l m : is_derive f x l -> is_derive g x m ->
  is_derive (fun t => f t * g t) x (l * g x + f x * m).
Proof. rewrite !is_derive_Reals. intros; now apply derivable_pt_lim_mult. Qed.
Lemma d_div (f g : R -> R) x l m : is_derive f x l -> is_derive g x m -> g x <> 0 ->
  is_derive (fun t => f t / g t) x ((l * g x - m * f x) / (g x * g x)).
Proof. rewrite !is_derive_Reals. intros. now apply derivable_pt_lim_div. Qed.
Lemma d_comp (f g : R -> R) x l m : is_derive f x l -> is_derive g (f x) m -> is_derive (fun t => g (f t)) x (m * l).
Proof. rewrite !is_derive_Reals. intros. now apply (derivable_pt_lim_comp f g). Qed.
Lemma d_ext_loc (f g : R -> R) (t0 l : R) :
  locally t0 (fun t => f t = g t) -> is_derive f t0 l -> is_derive g t0 l.
Proof. apply is_derive_ext_loc. Qed.
Lemma d_const c x : is_derive (fun _ : R => c) x 0.
Proof. apply (is_derive_const (K := R_AbsRing) (V := R_NormedModule)). Qed.
Lemma d_id x : is_derive (fun t : R => t) x 1.
Proof. apply (is_derive_id (K := R_AbsRing)). Qed.

Lemma locally_neq_div (H : R -> R) t0 m : is_derive H t0 m -> H t0 <> 0 -> locally t0 (fun t => H t <> 0).
Proof.
  intros D N. destruct (Rlt_dec 0 (H t0)) as [P|P].
  - generalize (locally_comp H t0 m _ D (locally_gt _ 0 P)). apply filter_imp. intros; lra.
  - generalize (locally_comp H t0 m _ D (locally_lt (H t0) 0 ltac:(lra))). apply filter_imp. intros; lra.
Qed.

Ltac ltd := repeat match goal with |- context [Rlt_dec ?a ?b] => destruct (Rlt_dec a b); try lra end.

Lemma gdiv_ok g s : s <> 0 -> gdiv g s = Some (fun d => g d / s).
Proof. intros H. unfold gdiv. destruct (Req_EM_T s 0); [contradiction|reflexivity]. Qed.

Lemma std_div_ok a s : s <> 0 -> std_div a s = Some (a / s).
Proof. intros H. unfold std_div. destruct (Req_EM_T s 0); [contradiction|reflexivity]. Qed.

Lemma std_sqrt_ok v : 0 <= v -> std_sqrt v = Some (sqrt v).
Proof. intros H. unfold std_sqrt. ltd; reflexivity. Qed.

Lemma std_log_ok v : 0 < v -> std_log v = Some (ln v).
Proof. intros H. unfold std_log. ltd; reflexivity. Qed.

Lemma d_asin v : -1 < v < 1 -> is_derive asin v (1 / sqrt (1 - v * v)).
Proof.
  intros H. apply is_derive_Reals. change (v * v) with (Rsqr v). rewrite <- (derive_pt_asin v H).
  unfold derive_pt. destruct (derivable_pt_asin v H) as [l Hl]. exact Hl.
Qed.

Lemma d_acos v : -1 < v < 1 -> is_derive acos v (-1 / sqrt (1 - v * v)).
Proof.
  intros H. apply is_derive_Reals. change (v * v) with (Rsqr v). rewrite <- (derive_pt_acos v H).
  unfold derive_pt. destruct (derivable_pt_acos v H) as [l Hl]. exact Hl.
Qed.

Lemma unary_ok u v : un_smooth u v ->
  exists w dv fn, un_std u v = Some w /\
    (forall g, exists h, un_dual u v g = Some (Dua w h) /\ forall d, h d = dv * g d) /\
    locally v (fun y => un_std u y = Some (fn y)) /\ fn v = w /\ is_derive fn v dv.
Proof.
  assert (T : forall fn : R -> R, locally v (fun y => Some (fn y) = Some (fn y))) by (intros; now apply filter_forall).
  destruct u; simpl; intros S.
  - exists (- v), (-1), (fun y => - y). sp; auto.
    + intros g; eexists; split; [reflexivity|]. intros; simpl; ring.
    + eapply d_ext; [apply d_opp, d_id|reflexivity].
  - destruct (Rlt_dec 0 v) as [P|P].
    + exists v, 1, (fun y => y). sp.
      * unfold std_abs; ltd; reflexivity.
      * intros g; destruct (Rle_dec 0 v); [|lra]. eexists; split; [reflexivity|]. intros; simpl; ring.
      * generalize (locally_gt v 0 P). apply filter_imp. intros y Hy. unfold std_abs; ltd; reflexivity.
      * apply d_id.
    + exists (- v), (-1), (fun y => - y). sp.
      * unfold std_abs; ltd; reflexivity.
      * intros g; destruct (Rle_dec 0 v); [lra|]. eexists; split; [reflexivity|]. intros; simpl; ring.
      * generalize (locally_lt v 0 ltac:(lra)). apply filter_imp. intros y Hy. unfold std_abs; ltd; reflexivity.
      * eapply d_ext; [apply d_opp, d_id|reflexivity].
  - assert (Q := sqrt_lt_R0 v S).
    exists (sqrt v), (/ (2 * sqrt v)), sqrt. sp.
    + now apply std_sqrt_ok, Rlt_le.
    + intros g. rewrite std_sqrt_ok by lra. simpl. rewrite gdiv_ok by lra. simpl. eexists; split; [reflexivity|].
      intros; simpl. field. lra.
    + generalize (locally_gt v 0 S). apply filter_imp. intros y Hy. apply std_sqrt_ok; lra.
    + apply is_derive_Reals. now apply derivable_pt_lim_sqrt.
  - exists (cos v), (- sin v), cos. sp; auto.
    + intros g; eexists; split; [reflexivity|]. intros; simpl; ring.
    + apply is_derive_Reals, derivable_pt_lim_cos.
  - exists (sin v), (cos v), sin. sp; auto.
    + intros g; eexists; split; [reflexivity|]. intros; simpl; ring.
    + apply is_derive_Reals, derivable_pt_lim_sin.
  - exists (atan v), (/ (1 + v * v)), atan.
    assert (N : 1 + v * v <> 0) by nra.
    sp; auto.
    + intros g. rewrite gdiv_ok by exact N. simpl. eexists; split; [reflexivity|]. intros; simpl; field; exact N.
    + eapply d_ext; [apply is_derive_Reals, derivable_pt_lim_atan|]. f_equal. ring.
  - assert (N : 0 < 1 - v * v) by nra. assert (Q := sqrt_lt_R0 _ N).
    exists (asin v), (/ sqrt (1 - v * v)), asin. sp.
    + unfold std_asin; ltd; reflexivity.
    + intros g. unfold std_asin; ltd. simpl. rewrite std_sqrt_ok by lra. simpl. rewrite gdiv_ok by lra. simpl.
      eexists; split; [reflexivity|]. intros; simpl; field; lra.
    + generalize (filter_and _ _ (locally_gt v (-1) (proj1 S)) (locally_lt v 1 (proj2 S))).
      apply filter_imp. intros y Hy. unfold std_asin; ltd; reflexivity.
    + eapply d_ext; [apply d_asin; exact S|]. field. lra.
  - assert (N : 0 < 1 - v * v) by nra. assert (Q := sqrt_lt_R0 _ N).
    exists (acos v), (- / sqrt (1 - v * v)), acos. sp.
    + unfold std_acos; ltd; reflexivity.
    + intros g. unfold std_acos; ltd. simpl. rewrite std_sqrt_ok by lra. simpl. rewrite gdiv_ok by lra. simpl.
      eexists; split; [reflexivity|]. intros; simpl; field; lra.
    + generalize (filter_and _ _ (locally_gt v (-1) (proj1 S)) (locally_lt v 1 (proj2 S))).
      apply filter_imp. intros y Hy. unfold std_acos; ltd; reflexivity.
    + eapply d_ext; [apply d_acos; exact S|]. field. lra.
  - exists (exp v), (exp v), exp. sp; auto.
    + intros g; eexists; split; [reflexivity|]. intros; simpl; ring.
    + apply is_derive_Reals, derivable_pt_lim_exp.
  - exists (ln v), (/ v), ln. sp.
    + now apply std_log_ok.
    + intros g. rewrite std_log_ok by exact S. simpl. rewrite gdiv_ok by lra. simpl. eexists; split; [reflexivity|].
      intros; simpl; field; lra.
    + generalize (locally_gt v 0 S). apply filter_imp. intros y Hy. now apply std_log_ok.
    + apply is_derive_Reals, derivable_pt_lim_ln; exact S.
  - exists (ln (1 + v)), (/ (1 + v)), (fun y => ln (1 + y)). sp.
    + apply std_log_ok; lra.
    + intros g. rewrite std_log_ok by lra. simpl. rewrite gdiv_ok by lra. simpl. eexists; split; [reflexivity|].
      intros; simpl; field; lra.
    + generalize (locally_gt v (-1) S). apply filter_imp. intros y Hy. apply std_log_ok; lra.
    + eapply d_ext; [apply (d_comp (fun y => 1 + y) ln); [apply d_plus; [apply d_const|apply d_id]|]|].
      * apply is_derive_Reals, derivable_pt_lim_ln. lra.
      * ring.
Qed.

(** atan2 away from the branch cut *)
Lemma atan2_pos_y y x : 0 < y -> std_atan2 y x = PI / 2 - atan (x / y).
Proof.
  intros Hy. unfold std_atan2. ltd.
  - replace (y / x) with (/ (x / y)) by (field; lra). rewrite atan_inv; [reflexivity|]. apply Rdiv_lt_0_compat; lra.
  - replace (y / x) with (- / (- x / y)) by (field; lra). rewrite atan_opp, atan_inv by (apply Rdiv_lt_0_compat; lra).
    replace (- x / y) with (- (x / y)) by (field; lra). rewrite atan_opp. lra.
  - replace x with 0 by lra. replace (0 / y) with 0 by (field; lra). rewrite atan_0. lra.
Qed.

Lemma atan2_neg_y y x : y < 0 -> std_atan2 y x = - (PI / 2) - atan (x / y).
Proof.
  intros Hy. unfold std_atan2. ltd.
  - replace (y / x) with (- / (x / - y)) by (field; lra). rewrite atan_opp, atan_inv by (apply Rdiv_lt_0_compat; lra).
    replace (x / - y) with (- (x / y)) by (field; lra). rewrite atan_opp. lra.
  - replace (y / x) with (/ (x / y)) by (field; lra). rewrite atan_inv; [lra|].
    replace (x / y) with (- x / - y) by (field; lra). apply Rdiv_lt_0_compat; lra.
  - replace x with 0 by lra. replace (0 / y) with 0 by (field; lra). rewrite atan_0. lra.
Qed.

(** integer powers *)
Lemma Int_part_IZR z : Int_part (IZR z) = z.
Proof.
  unfold Int_part. assert (z + 1 = up (IZR z))%Z as <-; [|lia].
  apply tech_up; rewrite plus_IZR; lra.
Qed.

Lemma std_pow_pos a b : 0 < a -> std_pow a b = Some (Rpower a b).
Proof. intros H. unfold std_pow. ltd; reflexivity. Qed.

Lemma powerRZ_Rpower' a z : 0 < a -> powerRZ a z = Rpower a (IZR z).
Proof. apply powerRZ_Rpower. Qed.

Lemma std_pow_int a z : a <> 0 \/ (0 <= z)%Z -> std_pow a (IZR z) = Some (powerRZ a z).
Proof.
  intros H. unfold std_pow. destruct (Rlt_dec 0 a) as [P|P].
  - now rewrite <- powerRZ_Rpower'.
  - rewrite Int_part_IZR. destruct (Req_EM_T (IZR z) (IZR z)); [|contradiction].
    destruct (Req_EM_T a 0) as [Ea|Ea]; [|reflexivity].
    destruct H as [H|H]; [contradiction|]. destruct (Rlt_dec (IZR z) 0) as [L|L]; [|reflexivity].
    apply (lt_IZR z 0) in L. lia.
Qed.

Lemma d_pow_nat a n : is_derive (fun y => y ^ n) a (INR n * a ^ pred n).
Proof. apply is_derive_Reals, derivable_pt_lim_pow. Qed.

Lemma d_powerRZ a z : a <> 0 \/ (1 <= z)%Z -> is_derive (fun y => powerRZ y z) a (IZR z * powerRZ a (z - 1)).
Proof.
  intros H. destruct z as [|p|p].
  - simpl. eapply d_ext; [apply d_const|]. ring.
  - replace (IZR (Z.pos p)) with (INR (Pos.to_nat p)) by (rewrite INR_IZR_INZ, positive_nat_Z; reflexivity).
    replace (powerRZ a (Z.pos p - 1)) with (a ^ pred (Pos.to_nat p)).
    + exact (d_pow_nat a (Pos.to_nat p)).
    + rewrite pow_powerRZ. f_equal. lia.
  - destruct H as [H|H]; [|lia].
    assert (Hn : a ^ Pos.to_nat p <> 0) by now apply pow_nonzero.
    assert (E : powerRZ a (Z.neg p - 1) = / (a ^ S (Pos.to_nat p))).
    { replace (Z.neg p - 1)%Z with (- Z.of_nat (S (Pos.to_nat p)))%Z by lia.
      rewrite powerRZ_neg', <- pow_powerRZ. reflexivity. }
    rewrite E.
    eapply d_ext with (l := - (INR (Pos.to_nat p) * a ^ pred (Pos.to_nat p)) / (a ^ Pos.to_nat p * a ^ Pos.to_nat p)).
    + change (fun y => powerRZ y (Z.neg p)) with (fun y => / (y ^ Pos.to_nat p)).
      eapply d_ext with (l := (0 * a ^ Pos.to_nat p - INR (Pos.to_nat p) * a ^ pred (Pos.to_nat p) * 1)
                              / (a ^ Pos.to_nat p * a ^ Pos.to_nat p)).
      * apply (is_derive_ext (fun y => 1 / y ^ Pos.to_nat p)); [intros t; exact (Rmult_1_l _)|].
        apply (d_div (fun _ => 1) (fun y => y ^ Pos.to_nat p)); [apply d_const|apply d_pow_nat|exact Hn].
      * f_equal. ring.
    + replace (IZR (Z.neg p)) with (- INR (Pos.to_nat p)).
      2:{ rewrite INR_IZR_INZ, positive_nat_Z. now rewrite <- opp_IZR. }
      destruct (Pos.to_nat p) as [|n] eqn:En; [lia|]. simpl pred.
      rewrite <- !tech_pow_Rmult in *. field. split; [|exact H].
      intros Z0. apply Hn. rewrite Z0. ring.
Qed.

Lemma std_pow_locally a z : a <> 0 \/ (1 <= z)%Z ->
  locally a (fun y => std_pow y (IZR z) = Some (powerRZ y z)).
Proof.
  intros [H|H].
  - generalize (locally_neq_div (fun y => y) a 1 (d_id a) H). apply filter_imp. intros y Hy. apply std_pow_int; now left.
  - apply filter_forall. intros y. apply std_pow_int. right; lia.
Qed.

(** two moving operands *)
Definition smooth2 (b : binop) (x y : R) : Prop := bin_smooth b true true x y.

Lemma curve2 b v w : smooth2 b v w ->
  exists r D1 D2, bin_std b v w = Some r /\
  forall G H t0 p q, G t0 = v -> H t0 = w -> is_derive G t0 p -> is_derive H t0 q ->
    exists K, locally t0 (fun t => bin_std b (G t) (H t) = Some (K t)) /\ K t0 = r /\
              is_derive K t0 (D1 * p + D2 * q) /\
    match b with
    | Add => D1 = 1 /\ D2 = 1
    | Sub => D1 = 1 /\ D2 = -1
    | Mul => D1 = w /\ D2 = v
    | Div => D1 = / w /\ D2 = - v / (w * w)
    | Max => r = (if Rlt_dec w v then v else w) /\ D1 = (if Rlt_dec w v then 1 else 0) /\ D2 = (if Rlt_dec w v then 0 else 1)
    | Min => r = (if Rlt_dec v w then v else w) /\ D1 = (if Rlt_dec v w then 1 else 0) /\ D2 = (if Rlt_dec v w then 0 else 1)
    | Atan2 => w * w + v * v <> 0 /\ D1 = w / (w * w + v * v) /\ D2 = - v / (w * w + v * v)
    | Pow => 0 < v /\ D1 = w * Rpower v (w - 1) /\ D2 = Rpower v w * ln v
    end.
Proof.
  assert (T : forall t0 (K : R -> R), locally t0 (fun t => Some (K t) = Some (K t)))
    by (intros; now apply filter_forall).
  unfold smooth2. destruct b; simpl; intros S.
  - exists (v + w), 1, 1. split; [reflexivity|]. intros G H t0 p q EG EH DG DH.
    exists (fun t => G t + H t). split; [apply T|]. split; [now rewrite EG, EH|]. split; [|auto].
    eapply d_ext; [apply d_plus; eassumption|ring].
  - exists (v - w), 1, (-1). split; [reflexivity|]. intros G H t0 p q EG EH DG DH.
    exists (fun t => G t - H t). split; [apply T|]. split; [now rewrite EG, EH|]. split; [|auto].
    eapply d_ext; [apply d_minus; eassumption|ring].
  - exists (v * w), w, v. split; [reflexivity|]. intros G H t0 p q EG EH DG DH.
    exists (fun t => G t * H t). split; [apply T|]. split; [now rewrite EG, EH|]. split; [|auto].
    eapply d_ext; [apply d_mult; eassumption|rewrite EG, EH; ring].
  - exists (v / w), (/ w), (- v / (w * w)). split; [now apply std_div_ok|]. intros G H t0 p q EG EH DG DH.
    exists (fun t => G t / H t). split; [|split; [now rewrite EG, EH|]].
    + assert (N : H t0 <> 0) by now rewrite EH. generalize (locally_neq_div H t0 q DH N). apply filter_imp.
      intros t Ht. now apply std_div_ok.
    + split; [|auto]. eapply d_ext; [apply d_div; try eassumption; now rewrite EH|]. rewrite EG, EH. field. exact S.
  - destruct (Rlt_dec w v) as [P|P].
    + exists v, 1, 0. split; [unfold std_max; ltd; reflexivity|]. intros G H t0 p q EG EH DG DH.
      exists G. split; [|split; [exact EG|]].
      * generalize (locally_curve_lt H G t0 q p DH DG ltac:(lra)). apply filter_imp. intros t Ht.
        unfold std_max; ltd; reflexivity.
      * split; [|auto]. eapply d_ext; [eassumption|ring].
    + exists w, 0, 1. split; [unfold std_max; ltd; reflexivity|]. intros G H t0 p q EG EH DG DH.
      exists H. split; [|split; [exact EH|]].
      * generalize (locally_curve_lt G H t0 p q DG DH ltac:(lra)). apply filter_imp. intros t Ht.
        unfold std_max; ltd; reflexivity.
      * split; [|auto]. eapply d_ext; [eassumption|ring].
  - destruct (Rlt_dec v w) as [P|P].
    + exists v, 1, 0. split; [unfold std_min; ltd; reflexivity|]. intros G H t0 p q EG EH DG DH.
      exists G. split; [|split; [exact EG|]].
      * generalize (locally_curve_lt G H t0 p q DG DH ltac:(lra)). apply filter_imp. intros t Ht.
        unfold std_min; ltd; reflexivity.
      * split; [|auto]. eapply d_ext; [eassumption|ring].
    + exists w, 0, 1. split; [unfold std_min; ltd; reflexivity|]. intros G H t0 p q EG EH DG DH.
      exists H. split; [|split; [exact EH|]].
      * generalize (locally_curve_lt H G t0 q p DH DG ltac:(lra)). apply filter_imp. intros t Ht.
        unfold std_min; ltd; reflexivity.
      * split; [|auto]. eapply d_ext; [eassumption|ring].
  - assert (N : w * w + v * v <> 0) by (destruct S as [S|S]; [nra|]; assert (0 < v * v) by (apply Rsqr_pos_lt; exact S); nra).
    exists (std_atan2 v w), (w / (w * w + v * v)), (- v / (w * w + v * v)). split; [reflexivity|].
    intros G H t0 p q EG EH DG DH. exists (fun t => std_atan2 (G t) (H t)).
    split; [apply T|]. split; [now rewrite EG, EH|]. split; [|auto].
    destruct (Rlt_dec 0 w) as [Pw|Pw]; [|destruct (Rlt_dec 0 v) as [Pv|Pv]].
    + apply (d_ext_loc (fun t => atan (G t / H t))).
      * generalize (locally_comp H t0 q _ DH (locally_gt (H t0) 0 ltac:(lra))). apply filter_imp. intros t Ht.
        unfold std_atan2. ltd; reflexivity.
      * eapply d_ext; [apply (d_comp (fun t => G t / H t) atan); [apply d_div; try eassumption; lra|]|].
        -- apply is_derive_Reals, derivable_pt_lim_atan.
        -- rewrite EG, EH. unfold Rsqr. field. sp; try nra; lra.
    + apply (d_ext_loc (fun t => PI / 2 - atan (H t / G t))).
      * generalize (locally_comp G t0 p _ DG (locally_gt (G t0) 0 ltac:(lra))). apply filter_imp. intros t Ht.
        now rewrite atan2_pos_y.
      * eapply d_ext; [apply d_minus; [apply d_const|apply (d_comp (fun t => H t / G t) atan);
          [apply d_div; try eassumption; lra|apply is_derive_Reals, derivable_pt_lim_atan]]|].
        rewrite EG, EH. unfold Rsqr. field. sp; try nra; lra.
    + assert (Nv : v < 0) by (destruct S; lra).
      apply (d_ext_loc (fun t => - (PI / 2) - atan (H t / G t))).
      * generalize (locally_comp G t0 p _ DG (locally_lt (G t0) 0 ltac:(lra))). apply filter_imp. intros t Ht.
        now rewrite atan2_neg_y.
      * eapply d_ext; [apply d_minus; [apply d_const|apply (d_comp (fun t => H t / G t) atan);
          [apply d_div; try eassumption; lra|apply is_derive_Reals, derivable_pt_lim_atan]]|].
        rewrite EG, EH. unfold Rsqr. field. sp; try nra; lra.
  - destruct S as [S|[S _]]; [|discriminate].
    exists (Rpower v w), (w * Rpower v (w - 1)), (Rpower v w * ln v). split; [now apply std_pow_pos|].
    intros G H t0 p q EG EH DG DH. exists (fun t => Rpower (G t) (H t)). split; [|split; [now rewrite EG, EH|]].
    + generalize (locally_comp G t0 p _ DG (locally_gt (G t0) 0 ltac:(lra))). apply filter_imp. intros t Ht.
      now apply std_pow_pos.
    + split; [|auto]. unfold Rpower at 1.
      eapply d_ext; [apply (d_comp (fun t => H t * ln (G t)) exp);
        [apply d_mult; [eassumption|apply (d_comp G ln); [eassumption|apply is_derive_Reals, derivable_pt_lim_ln; lra]]
        |apply is_derive_Reals, derivable_pt_lim_exp]|].
      rewrite EG, EH. cbv beta. rewrite ?EG. fold (Rpower v w).
      assert (EP : Rpower v w = Rpower v (w - 1) * v).
      { rewrite <- (Rpower_1 v S) at 3. rewrite <- Rpower_plus. f_equal. ring. }
      rewrite EP. field. lra.
Qed.

Lemma binary_dd b v w g h : bin_smooth b true true v w ->
  exists r k, bin_std b v w = Some r /\ bin_dd b v g w h = Some (Dua r k) /\
  forall d G H t0, G t0 = v -> H t0 = w -> is_derive G t0 (g d) -> is_derive H t0 (h d) ->
    exists K, locally t0 (fun t => bin_std b (G t) (H t) = Some (K t)) /\ K t0 = r /\ is_derive K t0 (k d).
Proof.
  intros S. destruct (curve2 b v w S) as [r [D1 [D2 [E C]]]].
  assert (Facts := C (fun _ => v) (fun _ => w) 0 0 0 eq_refl eq_refl (d_const v 0) (d_const w 0)).
  destruct Facts as [_ [_ [_ [_ F]]]].
  assert (Fin : forall k, bin_dd b v g w h = Some (Dua r k) -> (forall d, k d = D1 * g d + D2 * h d) ->
    exists r' k', bin_std b v w = Some r' /\ bin_dd b v g w h = Some (Dua r' k') /\
    forall d G H t0, G t0 = v -> H t0 = w -> is_derive G t0 (g d) -> is_derive H t0 (h d) ->
    exists K, locally t0 (fun t => bin_std b (G t) (H t) = Some (K t)) /\ K t0 = r' /\ is_derive K t0 (k' d)).
  { intros k Ek Hk. exists r, k. split; [exact E|]. split; [exact Ek|]. intros d G H t0 EG EH DG DH.
    destruct (C G H t0 _ _ EG EH DG DH) as [K [L [V [DK _]]]]. exists K. rewrite Hk. auto. }
  destruct b; cbn [bin_dd bin_std] in *.
  - injection E as <-. destruct F as [-> ->]. eapply Fin; [reflexivity|]. intros; simpl; ring.
  - injection E as <-. destruct F as [-> ->]. eapply Fin; [reflexivity|]. intros; simpl; ring.
  - injection E as <-. destruct F as [-> ->]. eapply Fin; [reflexivity|]. intros; simpl; ring.
  - simpl in S. assert (w * w <> 0) by nra. rewrite std_div_ok in * by exact S. injection E as <-.
    destruct F as [-> ->]. eapply Fin.
    + simpl. rewrite !gdiv_ok by assumption. reflexivity.
    + intros; simpl. field. exact S.
  - injection E as E. destruct F as [F0 [-> ->]]. rewrite F0 in *. destruct (Rlt_dec w v) as [Hl|Hl].
    + eapply Fin; [reflexivity|]. intros; simpl; ring.
    + eapply Fin; [reflexivity|]. intros; simpl; ring.
  - injection E as E. destruct F as [F0 [-> ->]]. rewrite F0 in *. destruct (Rlt_dec v w) as [Hl|Hl].
    + eapply Fin; [reflexivity|]. intros; simpl; ring.
    + eapply Fin; [reflexivity|]. intros; simpl; ring.
  - injection E as <-. destruct F as [N [-> ->]]. eapply Fin.
    + rewrite !gdiv_ok by exact N. reflexivity.
    + intros; simpl. field. exact N.
  - destruct F as [P [-> ->]]. rewrite std_pow_pos in * by exact P. injection E as <-. eapply Fin.
    + simpl. rewrite std_pow_pos, std_log_ok by exact P. reflexivity.
    + intros d; simpl.
      assert (EP : Rpower v w = Rpower v (w - 1) * v).
      { rewrite <- (Rpower_1 v P) at 3. rewrite <- Rpower_plus. f_equal. ring. }
      rewrite EP. ring.
Qed.

Lemma binary_ds b v w g : bin_smooth b true false v w ->
  exists r k, bin_std b v w = Some r /\ bin_ds b v g w = Some (Dua r k) /\
  forall d G t0, G t0 = v -> is_derive G t0 (g d) ->
    exists K, locally t0 (fun t => bin_std b (G t) w = Some (K t)) /\ K t0 = r /\ is_derive K t0 (k d).
Proof.
  intros S.
  assert (Pp : (b = Pow /\ ~ 0 < v) \/ bin_smooth b true true v w).
  { destruct b; simpl in *; auto. destruct S as [S|S]; auto. destruct (Rlt_dec 0 v); auto. }
  destruct Pp as [[-> NP]|S2].
  { simpl in S. destruct S as [S|[_ [z [-> Hz]]]]; [contradiction|]. simpl.
    replace (IZR z - 1) with (IZR (z - 1)) by (rewrite minus_IZR; reflexivity).
    rewrite std_pow_int by (destruct Hz; [now left|right; lia]). simpl.
    rewrite std_pow_int by (destruct Hz; [now left|right; lia]). simpl.
    eexists; eexists. split; [reflexivity|]. split; [reflexivity|]. intros d G t0 EG DG.
    exists (fun t => powerRZ (G t) z). split; [|split; [now rewrite EG|]].
    - apply (locally_comp G t0 _ (fun y => std_pow y (IZR z) = Some (powerRZ y z)) DG). rewrite EG.
      now apply std_pow_locally.
    - simpl. apply (d_comp G (fun y => powerRZ y z)); [exact DG|]. rewrite EG. now apply d_powerRZ. }
  destruct (binary_dd b v w g (fun _ => 0) S2) as [r [k [E [Ek C]]]].
  assert (C' : forall d G t0, G t0 = v -> is_derive G t0 (g d) ->
    exists K, locally t0 (fun t => bin_std b (G t) w = Some (K t)) /\ K t0 = r /\ is_derive K t0 (k d)).
  { intros d G t0 EG DG. exact (C d G (fun _ => w) t0 EG eq_refl DG (d_const w t0)). }
  assert (Fin : forall k', bin_ds b v g w = Some (Dua r k') -> (forall d, k' d = k d) ->
    exists r' k', bin_std b v w = Some r' /\ bin_ds b v g w = Some (Dua r' k') /\
    forall d G t0, G t0 = v -> is_derive G t0 (g d) ->
    exists K, locally t0 (fun t => bin_std b (G t) w = Some (K t)) /\ K t0 = r' /\ is_derive K t0 (k' d)).
  { intros k' E' H'. exists r, k'. sp; auto. intros d G t0 EG DG. rewrite H'. now apply C'. }
  clear C C'. destruct b; cbn [bin_dd bin_ds bin_std] in *.
  - injection Ek as <- <-. eapply Fin; [reflexivity|]. intros; simpl; ring.
  - injection Ek as <- <-. eapply Fin; [reflexivity|]. intros; simpl; ring.
  - injection Ek as <- <-. eapply Fin; [reflexivity|]. intros; simpl; ring.
  - simpl in S2. assert (w * w <> 0) by nra. rewrite std_div_ok in * by exact S2. simpl in Ek. rewrite !gdiv_ok in Ek by assumption.
    injection Ek as <- <-. eapply Fin; [simpl; rewrite gdiv_ok by exact S2; reflexivity|].
    intros; simpl; field; exact S2.
  - destruct (Rlt_dec w v); injection Ek as <- <-; (eapply Fin; [reflexivity|]); intros; simpl; ring.
  - destruct (Rlt_dec v w); injection Ek as <- <-; (eapply Fin; [reflexivity|]); intros; simpl; ring.
  - assert (N : w * w + v * v <> 0).
    { simpl in S2. destruct S2 as [S2|S2]; [nra|]. assert (0 < v * v) by (apply Rsqr_pos_lt; exact S2). nra. }
    rewrite !gdiv_ok in * by exact N. injection Ek as <- <-. eapply Fin; [reflexivity|]. intros; simpl; field; exact N.
  - simpl in S2. destruct S2 as [S2|[S2 _]]; [|discriminate].
    rewrite !std_pow_pos, std_log_ok in * by exact S2. simpl in Ek. injection Ek as <- <-.
    eapply Fin; [simpl; reflexivity|]. intros; simpl; ring.
Qed.

Lemma binary_sd b v w h : bin_smooth b false true v w ->
  exists r k, bin_std b v w = Some r /\ bin_sd b v w h = Some (Dua r k) /\
  forall d H t0, H t0 = w -> is_derive H t0 (h d) ->
    exists K, locally t0 (fun t => bin_std b v (H t) = Some (K t)) /\ K t0 = r /\ is_derive K t0 (k d).
Proof.
  intros S.
  assert (S2 : bin_smooth b true true v w) by (destruct b; exact S).
  destruct (binary_dd b v w (fun _ => 0) h S2) as [r [k [E [Ek C]]]].
  assert (C' : forall d H t0, H t0 = w -> is_derive H t0 (h d) ->
    exists K, locally t0 (fun t => bin_std b v (H t) = Some (K t)) /\ K t0 = r /\ is_derive K t0 (k d)).
  { intros d H t0 EH DH. exact (C d (fun _ => v) H t0 eq_refl EH (d_const v t0) DH). }
  assert (Fin : forall k', bin_sd b v w h = Some (Dua r k') -> (forall d, k' d = k d) ->
    exists r' k', bin_std b v w = Some r' /\ bin_sd b v w h = Some (Dua r' k') /\
    forall d H t0, H t0 = w -> is_derive H t0 (h d) ->
    exists K, locally t0 (fun t => bin_std b v (H t) = Some (K t)) /\ K t0 = r' /\ is_derive K t0 (k' d)).
  { intros k' E' H'. exists r, k'. sp; auto. intros d H t0 EH DH. rewrite H'. now apply C'. }
  clear C C'. destruct b; cbn [bin_dd bin_sd bin_std] in *.
  - injection Ek as <- <-. eapply Fin; [reflexivity|]. intros; simpl; ring.
  - injection Ek as <- <-. eapply Fin; [reflexivity|]. intros; simpl; ring.
  - injection Ek as <- <-. eapply Fin; [reflexivity|]. intros; simpl; ring.
  - simpl in S2. assert (w * w <> 0) by nra. rewrite !std_div_ok in * by assumption. simpl in Ek. rewrite !gdiv_ok in Ek by assumption.
    injection Ek as <- <-. eapply Fin; [simpl; reflexivity|].
    intros; simpl; field; exact S2.
  - destruct (Rlt_dec w v); injection Ek as <- <-; (eapply Fin; [reflexivity|]); intros; simpl; ring.
  - destruct (Rlt_dec v w); injection Ek as <- <-; (eapply Fin; [reflexivity|]); intros; simpl; ring.
  - assert (N : w * w + v * v <> 0).
    { simpl in S2. destruct S2 as [S2|S2]; [nra|]. assert (0 < v * v) by (apply Rsqr_pos_lt; exact S2). nra. }
    rewrite !gdiv_ok in * by exact N. injection Ek as <- <-. eapply Fin; [reflexivity|]. intros; simpl; field; exact N.
  - simpl in S2. destruct S2 as [S2|[S2 _]]; [|discriminate].
    rewrite !std_pow_pos, std_log_ok in * by exact S2. simpl in Ek. injection Ek as <- <-.
    eapply Fin; [simpl; reflexivity|]. intros; simpl.
    assert (EP : Rpower v w = Rpower v (w - 1) * v).
    { rewrite <- (Rpower_1 v S2) at 3. rewrite <- Rpower_plus. f_equal. ring. }
    rewrite EP. ring.
Qed.

Lemma rel_to_dual F t0 d r : rel F t0 d r -> rel F t0 d (to_dual r).
Proof.
  destruct r as [v|v g]; simpl; auto. intros H. exists (fun _ => v). sp; auto. apply d_const.
Qed.

(** the main induction *)
Lemma dual_correct e ins : forall v,
  eval e (fun i => get_value (ins i)) = Some v ->
  smooth (fun i => kind (ins i)) (fun i => get_value (ins i)) e ->
  exists r, deval e ins = Some r /\ get_value r = v /\ kind r = is_dual (fun i => kind (ins i)) e /\
    forall d x t0, moves ins d x t0 -> rel (fun t => eval e (x t)) t0 d r.
Proof.
  set (k := fun i => kind (ins i)). set (x0 := fun i => get_value (ins i)).
  induction e as [i|c|u a IHa|b a IHa c IHc|a IHa c IHc t IHt f IHf]; intros v Ev Sm.
  - injection Ev as <-. exists (ins i). sp. intros d x t0 M. destruct (M i) as [M0 M1].
    cbn [eval]. destruct (ins i) as [w|w g] eqn:Ei; simpl in *.
    + apply filter_forall. intros t. now rewrite M1.
    + exists (fun t => x t i). sp; auto. now apply filter_forall.
  - injection Ev as <-. exists (Dbl c). sp. intros d x t0 M. cbn [eval rel]. now apply filter_forall.
  - cbn [eval smooth] in *. destruct Sm as [Sa Su]. destruct (eval a x0) as [va|] eqn:Ea; [|discriminate].
    destruct (IHa va eq_refl Sa) as [ra [Da [Va [Ka Ra]]]]. cbn [deval is_dual]. rewrite Da. cbn [obind] in *.
    fold k in Ka |- *. rewrite <- Ka in *.
    destruct ra as [w|w g]; cbn [get_value apply_un kind] in *; subst w.
    + rewrite Ev. exists (Dbl v). sp. intros d x t0 M. specialize (Ra d x t0 M). cbn [rel] in *.
      generalize Ra. apply filter_imp. intros t ->. exact Ev.
    + destruct (unary_ok u va (Su eq_refl va eq_refl)) as [w [dv [fn [E [Hg [L [Ef Df]]]]]]].
      destruct (Hg g) as [h [Eh Hh]]. rewrite Eh. rewrite E in Ev. injection Ev as <-.
      exists (Dua w h). sp. intros d x t0 M. destruct (Ra d x t0 M) as [G [LG [EG DG]]]. cbn [rel].
      exists (fun t => fn (G t)). rewrite EG. sp; auto.
      * rewrite <- EG in L. generalize (filter_and _ _ LG (locally_comp G t0 _ _ DG L)). apply filter_imp.
        intros t [-> H]. exact H.
      * rewrite Hh. apply (d_comp G fn); [exact DG|]. now rewrite EG.
  - cbn [eval smooth] in *. destruct Sm as [Sa [Sc Sb]].
    destruct (eval a x0) as [va|] eqn:Ea; [|discriminate]. cbn [obind] in Ev.
    destruct (eval c x0) as [vc|] eqn:Ec; [|discriminate]. cbn [obind] in Ev.
    destruct (IHa va eq_refl Sa) as [ra [Da [Va [Ka Ra]]]].
    destruct (IHc vc eq_refl Sc) as [rc [Dc [Vc [Kc Rc]]]].
    cbn [deval is_dual]. rewrite Da, Dc. cbn [obind]. fold k in Ka, Kc |- *. rewrite <- Ka, <- Kc in *.
    destruct ra as [w|w g]; cbn [get_value kind] in *; subst w;
    destruct rc as [w|w h]; cbn [get_value kind orb] in *; subst w; cbn [apply_bin].
    + rewrite Ev. exists (Dbl v). sp. intros d x t0 M. specialize (Ra d x t0 M). specialize (Rc d x t0 M).
      cbn [rel] in *. generalize (filter_and _ _ Ra Rc). apply filter_imp. intros t [-> ->]. exact Ev.
    + destruct (binary_sd b va vc h (Sb eq_refl va vc eq_refl eq_refl)) as [r [kk [E [Ek C]]]].
      rewrite Ek. rewrite E in Ev. injection Ev as <-. exists (Dua r kk). sp. intros d x t0 M.
      specialize (Ra d x t0 M). cbn [rel] in Ra. destruct (Rc d x t0 M) as [H [LH [EH DH]]].
      destruct (C d H t0 EH DH) as [K [LK [EK DK]]]. exists K. sp; auto.
      generalize (filter_and _ _ Ra (filter_and _ _ LH LK)). apply filter_imp. intros t [-> [-> H0]]. exact H0.
    + destruct (binary_ds b va vc g (Sb eq_refl va vc eq_refl eq_refl)) as [r [kk [E [Ek C]]]].
      rewrite Ek. rewrite E in Ev. injection Ev as <-. exists (Dua r kk). sp. intros d x t0 M.
      specialize (Rc d x t0 M). cbn [rel] in Rc. destruct (Ra d x t0 M) as [G [LG [EG DG]]].
      destruct (C d G t0 EG DG) as [K [LK [EK DK]]]. exists K. sp; auto.
      generalize (filter_and _ _ Rc (filter_and _ _ LG LK)). apply filter_imp. intros t [Hc [-> H0]].
      cbn [obind]. rewrite Hc. exact H0.
    + destruct (binary_dd b va vc g h (Sb eq_refl va vc eq_refl eq_refl)) as [r [kk [E [Ek C]]]].
      rewrite Ek. rewrite E in Ev. injection Ev as <-. exists (Dua r kk). sp. intros d x t0 M.
      destruct (Ra d x t0 M) as [G [LG [EG DG]]]. destruct (Rc d x t0 M) as [H [LH [EH DH]]].
      destruct (C d G H t0 EG EH DG DH) as [K [LK [EK DK]]]. exists K. sp; auto.
      generalize (filter_and _ _ LG (filter_and _ _ LH LK)). apply filter_imp. intros t [-> [Hc H0]].
      cbn [obind]. rewrite Hc. exact H0.
  - cbn [eval smooth] in *. destruct Sm as [Sa [Sc Sb]].
    destruct (eval a x0) as [va|] eqn:Ea; [|discriminate]. cbn [obind] in Ev.
    destruct (eval c x0) as [vc|] eqn:Ec; [|discriminate]. cbn [obind] in Ev.
    destruct (IHa va eq_refl Sa) as [ra [Da [Va [Ka Ra]]]].
    destruct (IHc vc eq_refl Sc) as [rc [Dc [Vc [Kc Rc]]]].
    destruct (Sb va vc eq_refl eq_refl) as [Sne [St Sf]]. clear Sb.
    cbn [deval is_dual]. rewrite Da, Dc. cbn [obind]. rewrite Va, Vc. fold k in Ka, Kc |- *. rewrite <- Ka, <- Kc in Sne.
    assert (Near : forall d x t0, moves ins d x t0 ->
      locally t0 (fun s => exists p q, eval a (x s) = Some p /\ eval c (x s) = Some q /\ (p < q <-> va < vc))).
    { intros d x t0 M. specialize (Ra d x t0 M). specialize (Rc d x t0 M).
      destruct (orb (kind ra) (kind rc)) eqn:Ek.
      - apply rel_curve in Ra. apply rel_curve in Rc.
        destruct Ra as [G [LG [EG DG]]]. destruct Rc as [H [LH [EH DH]]]. rewrite Va in EG. rewrite Vc in EH.
        destruct (Rtotal_order va vc) as [O|[O|O]].
        + assert (L := locally_curve_lt G H t0 _ _ DG DH ltac:(lra)).
          generalize (filter_and _ _ LG (filter_and _ _ LH L)). apply filter_imp.
          intros s [e1 [e2 e3]]. exists (G s), (H s). sp; auto; lra.
        + exfalso. now apply Sne.
        + assert (L := locally_curve_lt H G t0 _ _ DH DG ltac:(lra)).
          generalize (filter_and _ _ LG (filter_and _ _ LH L)). apply filter_imp.
          intros s [e1 [e2 e3]]. exists (G s), (H s). sp; auto; lra.
      - destruct ra; [|discriminate]. destruct rc; [|discriminate]. simpl in Va, Vc. subst. cbn [rel] in *.
        generalize (filter_and _ _ Ra Rc). apply filter_imp. intros s [e1 e2]. exists va, vc. tauto. }
    destruct (Rlt_dec va vc) as [Hl|Hl].
    + destruct (IHt v Ev (St Hl)) as [r [Dt [Vt [Kt Rt]]]]. rewrite Dt. cbn [option_map].
      eexists. split; [reflexivity|]. split; [|split].
      * destruct (orb (is_dual k t) (is_dual k f)); destruct r; exact Vt.
      * fold k in Kt. destruct (orb (is_dual k t) (is_dual k f)) eqn:Eo; [destruct r; reflexivity|].
        rewrite Kt. now apply orb_false_iff in Eo.
      * intros d x t0 M.
        assert (R0 : rel (fun s => eval (Sel a c t f) (x s)) t0 d r).
        { specialize (Rt d x t0 M). specialize (Near d x t0 M). destruct r as [w|w g]; cbn [rel] in *.
          - generalize (filter_and _ _ Near Rt). apply filter_imp.
            intros s [[p [q [e1 [e2 e3]]]] e4]. cbn [eval]. rewrite e1, e2. cbn [obind].
            destruct (Rlt_dec p q); [exact e4|tauto].
          - destruct Rt as [G [LG HG]]. exists G. split; [|exact HG].
            generalize (filter_and _ _ Near LG). apply filter_imp.
            intros s [[p [q [e1 [e2 e3]]]] e4]. cbn [eval]. rewrite e1, e2. cbn [obind].
            destruct (Rlt_dec p q); [exact e4|tauto]. }
        fold (eval (Sel a c t f)). destruct (orb (is_dual k t) (is_dual k f)); [now apply rel_to_dual|exact R0].
    + destruct (IHf v Ev (Sf Hl)) as [r [Dt [Vt [Kt Rt]]]]. rewrite Dt. cbn [option_map].
      eexists. split; [reflexivity|]. split; [|split].
      * destruct (orb (is_dual k t) (is_dual k f)); destruct r; exact Vt.
      * fold k in Kt. destruct (orb (is_dual k t) (is_dual k f)) eqn:Eo; [destruct r; reflexivity|].
        rewrite Kt. now apply orb_false_iff in Eo.
      * intros d x t0 M.
        assert (R0 : rel (fun s => eval (Sel a c t f) (x s)) t0 d r).
        { specialize (Rt d x t0 M). specialize (Near d x t0 M). destruct r as [w|w g]; cbn [rel] in *.
          - generalize (filter_and _ _ Near Rt). apply filter_imp.
            intros s [[p [q [e1 [e2 e3]]]] e4]. cbn [eval]. rewrite e1, e2. cbn [obind].
            destruct (Rlt_dec p q); [tauto|exact e4].
          - destruct Rt as [G [LG HG]]. exists G. split; [|exact HG].
            generalize (filter_and _ _ Near LG). apply filter_imp.
            intros s [[p [q [e1 [e2 e3]]]] e4]. cbn [eval]. rewrite e1, e2. cbn [obind].
            destruct (Rlt_dec p q); [tauto|exact e4]. }
        destruct (orb (is_dual k t) (is_dual k f)); [now apply rel_to_dual|exact R0].
Qed.

(** the form used in the property: one curve for the whole expression *)
Theorem exact_derivative e ins v :
  eval e (fun i => get_value (ins i)) = Some v ->
  smooth (fun i => kind (ins i)) (fun i => get_value (ins i)) e ->
  exists r, deval e ins = Some r /\ get_value r = v /\
    forall d x t0, moves ins d x t0 ->
      exists G, locally t0 (fun t => eval e (x t) = Some (G t)) /\ G t0 = v /\ is_derive G t0 (get_gradient r d).
Proof.
  intros E S. destruct (dual_correct e ins v E S) as [r [D [V [_ R0]]]]. exists r. split; [exact D|]. split; [exact V|].
  intros d x t0 M. rewrite <- V. apply rel_curve. now apply R0.
Qed.

(** dual.hpp:411-412 and tuple_tensor_dual_functions.hpp:340-349 make_dual: input [i] has gradient e_i *)
Definition seed (x : nat -> R) (i : nat) : num := Dua (x i) (fun j => if Nat.eqb j i then 1 else 0).

(** input [j] replaced by [s] *)
Definition with_input (x : nat -> R) (j : nat) (s : R) (i : nat) : R := if Nat.eqb i j then s else x i.

Theorem seeded_gradient e x v :
  eval e x = Some v -> smooth (fun _ => true) x e ->
  exists r, deval e (seed x) = Some r /\ get_value r = v /\
    forall j, exists G, locally (x j) (fun s => eval e (with_input x j s) = Some (G s)) /\ G (x j) = v /\
      is_derive G (x j) (get_gradient r j).
Proof.
  intros E S. destruct (exact_derivative e (seed x) v E S) as [r [D [V H]]].
  exists r. split; [exact D|]. split; [exact V|]. intros j. apply H. intros i. split.
  - unfold with_input, seed. simpl. destruct (Nat.eqb_spec i j) as [->|N]; reflexivity.
  - unfold seed, with_input. rewrite (PeanoNat.Nat.eqb_sym i j). destruct (Nat.eqb j i); [apply d_id|apply d_const].
Qed.

(** ** Ties of max, min and abs: right whenever the result is differentiable at all *)
Lemma d_unique (f : R -> R) x l m : is_derive f x l -> is_derive f x m -> l = m.
Proof. rewrite !is_derive_Reals. apply uniqueness_limite. Qed.

Lemma d_minimum (f : R -> R) x l : is_derive f x l -> (forall y, f x <= f y) -> l = 0.
Proof.
  rewrite is_derive_Reals. intros H M. assert (P : derivable_pt f x) by (exists l; exact H).
  rewrite <- (derive_pt_eq_0 f x l P H). apply (deriv_minimum f (x - 1) (x + 1) x P); [lra|lra|]. intros; apply M.
Qed.

Lemma max_tie (G H : R -> R) t0 p q l : G t0 = H t0 -> is_derive G t0 p -> is_derive H t0 q ->
  is_derive (fun t => std_max (G t) (H t)) t0 l -> l = q /\ l = p.
Proof.
  intros E DG DH DM. split.
  - assert (A := d_minimum _ _ _ (d_minus _ _ _ _ _ DM DH)). cbv beta in A.
    cut (l - q = 0); [lra|]. apply A. intros y. unfold std_max. ltd.
  - assert (A := d_minimum _ _ _ (d_minus _ _ _ _ _ DM DG)). cbv beta in A.
    cut (l - p = 0); [lra|]. apply A. intros y. unfold std_max. ltd.
Qed.

Lemma min_tie (G H : R -> R) t0 p q l : G t0 = H t0 -> is_derive G t0 p -> is_derive H t0 q ->
  is_derive (fun t => std_min (G t) (H t)) t0 l -> l = q /\ l = p.
Proof.
  intros E DG DH DM. split.
  - assert (A := d_minimum _ _ _ (d_minus _ _ _ _ _ DH DM)). cbv beta in A.
    cut (q - l = 0); [lra|]. apply A. intros y. unfold std_min. ltd.
  - assert (A := d_minimum _ _ _ (d_minus _ _ _ _ _ DG DM)). cbv beta in A.
    cut (p - l = 0); [lra|]. apply A. intros y. unfold std_min. ltd.
Qed.

Lemma abs_zero (G : R -> R) t0 p l : G t0 = 0 -> is_derive G t0 p ->
  is_derive (fun t => std_abs (G t)) t0 l -> l = p.
Proof.
  intros E DG DM. assert (A := d_minimum _ _ _ (d_minus _ _ _ _ _ DM DG)). cbv beta in A.
  cut (l - p = 0); [lra|]. apply A. intros y. unfold std_abs. ltd.
Qed.

Lemma ties_right (b : binop) v g w h (G H : R -> R) t0 d l :
  (b = Max \/ b = Min) -> G t0 = v -> H t0 = w -> is_derive G t0 (g d) -> is_derive H t0 (h d) ->
  is_derive (fun t => match b with Max => std_max (G t) (H t) | _ => std_min (G t) (H t) end) t0 l ->
  exists r, bin_dd b v g w h = Some r /\ bin_std b v w = Some (get_value r) /\ get_gradient r d = l.
Proof.
  intros Hb EG EH DG DH DM.
  destruct (Req_EM_T v w) as [Evw|Nvw].
  - assert (EGH : G t0 = H t0) by lra. destruct Hb as [-> | ->].
    + destruct (max_tie G H t0 _ _ l EGH DG DH DM) as [A B].
      eexists; split; [reflexivity|]. unfold bin_std, std_max. destruct (Rlt_dec w v); [lra|].
      destruct (Rlt_dec v w); [lra|]. simpl. rewrite Evw. auto.
    + destruct (min_tie G H t0 _ _ l EGH DG DH DM) as [A B].
      eexists; split; [reflexivity|]. unfold bin_std, std_min. destruct (Rlt_dec w v); [lra|].
      destruct (Rlt_dec v w); [lra|]. simpl. rewrite Evw. auto.
  - assert (S : bin_smooth b true true v w) by (destruct Hb as [-> | ->]; exact Nvw).
    destruct (binary_dd b v w g h S) as [r [k [E [Ek C]]]]. destruct (C d G H t0 EG EH DG DH) as [K [LK [EK DK]]].
    exists (Dua r k). split; [exact Ek|]. split; [exact E|]. simpl. eapply d_unique; [|exact DM].
    eapply d_ext_loc; [|exact DK]. generalize LK. apply filter_imp. intros t Ht.
    destruct Hb as [-> | ->]; simpl in Ht; injection Ht as Ht; auto.
Qed.

Lemma abs_right v g (G : R -> R) t0 d l :
  G t0 = v -> is_derive G t0 (g d) -> is_derive (fun t => std_abs (G t)) t0 l ->
  exists r, un_dual Abs v g = Some r /\ un_std Abs v = Some (get_value r) /\ get_gradient r d = l.
Proof.
  intros EG DG DM. destruct (Req_EM_T v 0) as [Z|N].
  - subst v. cbn [un_dual un_std]. unfold std_abs. destruct (Rle_dec 0 (G t0)); [|lra]. destruct (Rlt_dec (G t0) 0); [lra|].
    eexists; split; [reflexivity|]. split; [reflexivity|]. simpl. symmetry. exact (abs_zero G t0 _ _ Z DG DM).
  - destruct (unary_ok Abs v N) as [w [dv [fn [E [Hg [L [Ef Df]]]]]]]. destruct (Hg g) as [h [Eh Hh]].
    exists (Dua w h). split; [exact Eh|]. split; [exact E|]. simpl. rewrite Hh. rewrite <- EG in L, Df.
    eapply d_unique; [|exact DM]. eapply d_ext_loc; [|exact (d_comp G fn t0 _ _ DG Df)].
    generalize (locally_comp G t0 _ _ DG L). apply filter_imp. intros t Ht. simpl in Ht. injection Ht as Ht. auto.
Qed.

(** ** Points of differentiability where the overloads return NaN *)
Lemma pow_zero_exponent :
  (forall x, eval (Bin Pow (Var 0) (Cst 0)) x = Some 1) /\
  (forall g, deval (Bin Pow (Var 0) (Cst 0)) (fun _ => Dua 0 g) = None).
Proof.
  assert (P : forall a, std_pow a 0 = Some 1).
  { intros a. change 0 with (IZR 0). rewrite (std_pow_int a 0); [reflexivity|right; lia]. }
  split.
  - intros x. simpl. apply P.
  - intros g. simpl. rewrite P. simpl. replace (0 - 1) with (IZR (-1)) by (simpl; lra). unfold std_pow.
    rewrite Int_part_IZR. destruct (Rlt_dec 0 0); [lra|]. destruct (Req_EM_T (IZR (-1)) (IZR (-1))); [|lra].
    destruct (Req_EM_T 0 0); [|lra]. destruct (Rlt_dec (IZR (-1)) 0); [reflexivity|lra].
Qed.

Lemma std_pow_zero_base b : 0 < b -> std_pow 0 b = Some 0.
Proof.
  intros H. unfold std_pow. destruct (Rlt_dec 0 0); [lra|]. destruct (Req_EM_T 0 0); [|lra].
  destruct (Req_EM_T b (IZR (Int_part b))) as [E|E].
  - destruct (Rlt_dec b 0); [lra|]. assert (Hz : (0 < Int_part b)%Z) by (apply lt_IZR; lra).
    destruct (Int_part b) as [|p|p]; try lia. simpl. rewrite pow_i; [reflexivity|lia].
  - destruct (Rlt_dec 0 b); [reflexivity|lra].
Qed.

Lemma pow_zero_base : forall y, 0 < y ->
  (forall x : nat -> R, 0 < x O -> eval (Bin Pow (Cst 0) (Var 0)) x = Some 0) /\
  (forall g, deval (Bin Pow (Cst 0) (Var 0)) (fun _ => Dua y g) = None).
Proof.
  intros y Hy. split.
  - intros x Hx. simpl. now apply std_pow_zero_base.
  - intros g. simpl. rewrite std_pow_zero_base by exact Hy. simpl. unfold std_log. destruct (Rlt_dec 0 0); [lra|reflexivity].
Qed.

(** ** A non-trivial smooth expression: sqrt(x*x + y*y) * log(x) + max(x, pow(y, 3.0)), at (3, -2) *)
Definition demo : expr :=
  Bin Add (Bin Mul (Un Sqrt (Bin Add (Bin Mul (Var 0) (Var 0)) (Bin Mul (Var 1) (Var 1)))) (Un Log (Var 0)))
          (Bin Max (Var 0) (Bin Pow (Var 1) (Cst 3))).

Lemma demo_smooth : let x := fun i => match i with O => 3 | _ => -2 end in
  (exists v, eval demo x = Some v) /\ smooth (fun _ => true) x demo.
Proof.
  assert (P : std_pow (-2) 3 = Some (-8)).
  { change 3 with (IZR 3). rewrite (std_pow_int (-2) 3); [|right; lia]. f_equal. simpl. lra. }
  intros x. assert (S1 : std_sqrt (3 * 3 + -2 * -2) = Some (sqrt (3 * 3 + -2 * -2))) by (apply std_sqrt_ok; lra).
  assert (S2 : std_log 3 = Some (ln 3)) by (apply std_log_ok; lra).
  unfold demo. split.
  - cbn [eval obind un_std bin_std x]. rewrite S1. cbn [obind]. rewrite S2. cbn [obind]. rewrite P.
    cbn [obind bin_std]. eexists; reflexivity.
  - cbn [smooth eval obind un_std bin_std x is_dual un_smooth bin_smooth]. repeat split; auto.
    + intros _ v Hv. injection Hv as <-. lra.
    + intros _ v Hv. injection Hv as <-. lra.
    + intros _ v w Hv Hw. injection Hv as <-. injection Hw as <-. right. split; [reflexivity|]. exists 3%Z.
      split; [reflexivity|]. left. lra.
    + intros _ v w Hv. rewrite P. intros Hw. injection Hv as <-. injection Hw as <-. lra.
Qed.
