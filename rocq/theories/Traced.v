(** * Q-functions run on dual numbers (C82): from the arithmetic of dual.hpp (Dual.v) to the derivatives of a functional (FunctionalGrad.v)

    evaluation_kernel_impl (domain_integral_kernels.hpp:154-221, boundary_integral_kernels.hpp) makes the interpolated values of ONE argument
    dual (promote_each_to_dual_when and make_dual, tuple_tensor_dual_functions.hpp:137-197, 222-236), runs the transformations to and from
    the physical element and the user's q-function on them, and stores get_gradient of the outputs. *)
From Coq Require Import NArith ZArith Reals List Lia Lra Bool FunctionalExtensionality.
From Coquelicot Require Import Coquelicot.
From Verif Require Import Prelude DofCodec Sums Restriction Kernels FunctionalModel FunctionalGrad FunctionalTotal Dual.
Import ListNotations.
Local Open Scope R_scope.

(** ** The gradient of an expression depends linearly on those of its variables *)
Definition row (l : list (nat * R)) (w : nat -> R) : R := fold_right (fun p acc => snd p * w (fst p) + acc) 0 l.
Definition scaled (c : R) (l : list (nat * R)) : list (nat * R) := map (fun p => (fst p, c * snd p)) l.
Lemma row_app l l' w : row (l ++ l') w = row l w + row l' w.
Proof. unfold row. induction l as [|p l IH]; cbn [app fold_right]; [ring|]. rewrite IH. ring. Qed.
Lemma row_scaled c l w : row (scaled c l) w = c * row l w.
Proof. unfold row, scaled. induction l as [|p l IH]; cbn [map fold_right fst snd]; [ring|]. rewrite IH. ring. Qed.
Lemma row_plus l f g : row l (fun k => f k + g k) = row l f + row l g.
Proof. unfold row. induction l as [|p l IH]; cbn [fold_right]; [ring|]. rewrite IH. ring. Qed.
Lemma row_scal l c f : row l (fun k => c * f k) = c * row l f.
Proof. unfold row. induction l as [|p l IH]; cbn [fold_right]; [ring|]. rewrite IH. ring. Qed.
Lemma row_ext l f g : (forall k, f k = g k) -> row l f = row l g.
Proof. intros H. unfold row. induction l as [|p l IH]; cbn [fold_right]; [reflexivity|]. now rewrite IH, H. Qed.
Lemma row_zero l : row l (fun _ => 0) = 0.
Proof. unfold row. induction l as [|p l IH]; cbn [fold_right]; [reflexivity|]. rewrite IH. ring. Qed.
Lemma row_sumn l n (f : nat -> nat -> R) : row l (fun k => sumn n (fun i => f i k)) = sumn n (fun i => row l (f i)).
Proof.
  induction n as [|n IH]; [rewrite (row_ext l _ (fun _ => 0)) by reflexivity; apply row_zero|].
  cbn [sumn]. rewrite <- IH. now rewrite <- row_plus.
Qed.

(** each operation *)
Lemma un_linear u v : (forall g, un_dual u v g = None) \/ exists v' c, forall g, exists g', un_dual u v g = Some (Dua v' g') /\ forall d, g' d = c * g d.
Proof.
  destruct u; cbn [un_dual].
  - right. exists (- v), (-1). intros g. eexists. split; [reflexivity|]. intros d; cbv beta. ring.
  - right. destruct (Rle_dec 0 v).
    + exists v, 1. intros g. eexists. split; [reflexivity|]. intros d; cbv beta. ring.
    + exists (- v), (-1). intros g. eexists. split; [reflexivity|]. intros d; cbv beta. ring.
  - destruct (std_sqrt v) as [s|]; cbn [obind]; [|now left]. unfold gdiv. destruct (Req_EM_T (2 * s) 0); [now left|]. right. exists s, (/ (2 * s)).
    intros g. eexists. split; [reflexivity|]. intros d; cbv beta. field. lra.
  - right. exists (cos v), (- sin v). intros g. eexists. split; [reflexivity|]. intros d; cbv beta. ring.
  - right. exists (sin v), (cos v). intros g. eexists. split; [reflexivity|]. intros d; cbv beta. ring.
  - unfold gdiv. destruct (Req_EM_T (1 + v * v) 0); [now left|]. right. exists (atan v), (/ (1 + v * v)). intros g. eexists. split; [reflexivity|]. intros d; cbv beta. now field.
  - destruct (std_asin v) as [w|]; cbn [obind]; [|now left]. destruct (std_sqrt (1 - v * v)) as [s|]; cbn [obind]; [|now left].
    unfold gdiv. destruct (Req_EM_T s 0); [now left|]. right. exists w, (/ s). intros g. eexists. split; [reflexivity|]. intros d; cbv beta. now field.
  - destruct (std_acos v) as [w|]; cbn [obind]; [|now left]. destruct (std_sqrt (1 - v * v)) as [s|]; cbn [obind]; [|now left].
    unfold gdiv. destruct (Req_EM_T s 0); [now left|]. right. exists w, (- / s). intros g. eexists. split; [reflexivity|]. intros d; cbv beta. now field.
  - right. exists (exp v), (exp v). intros g. eexists. split; [reflexivity|]. intros d; cbv beta. ring.
  - destruct (std_log v) as [w|]; cbn [obind]; [|now left]. unfold gdiv. destruct (Req_EM_T v 0); [now left|]. right. exists w, (/ v).
    intros g. eexists. split; [reflexivity|]. intros d; cbv beta. now field.
  - destruct (std_log (1 + v)) as [w|]; cbn [obind]; [|now left]. unfold gdiv. destruct (Req_EM_T (1 + v) 0); [now left|]. right. exists w, (/ (1 + v)).
    intros g. eexists. split; [reflexivity|]. intros d; cbv beta. now field.
Qed.
Lemma dd_linear b x y : (forall g h, bin_dd b x g y h = None) \/
  exists v c1 c2, forall g h, exists g', bin_dd b x g y h = Some (Dua v g') /\ forall d, g' d = c1 * g d + c2 * h d.
Proof.
  destruct b; cbn [bin_dd].
  - right. exists (x + y), 1, 1. intros g h. eexists. split; [reflexivity|]. intros d; cbv beta. ring.
  - right. exists (x - y), 1, (-1). intros g h. eexists. split; [reflexivity|]. intros d; cbv beta. ring.
  - right. exists (x * y), y, x. intros g h. eexists. split; [reflexivity|]. intros d; cbv beta. ring.
  - unfold std_div. destruct (Req_EM_T y 0) as [|N]; cbn [obind]; [now left|]. unfold gdiv. destruct (Req_EM_T y 0); [contradiction|]. cbn [obind].
    destruct (Req_EM_T (y * y) 0) as [|N']; [now left|]. right. exists (x / y), (/ y), (- x / (y * y)). intros g h. eexists. split; [reflexivity|]. intros d; cbv beta. now field.
  - right. destruct (Rlt_dec y x).
    + exists x, 1, 0. intros g h. eexists. split; [reflexivity|]. intros d; cbv beta. ring.
    + exists y, 0, 1. intros g h. eexists. split; [reflexivity|]. intros d; cbv beta. ring.
  - right. destruct (Rlt_dec x y).
    + exists x, 1, 0. intros g h. eexists. split; [reflexivity|]. intros d; cbv beta. ring.
    + exists y, 0, 1. intros g h. eexists. split; [reflexivity|]. intros d; cbv beta. ring.
  - unfold gdiv. destruct (Req_EM_T (y * y + x * x) 0) as [|N]; [now left|]. right. exists (std_atan2 x y), (y / (y * y + x * x)), (- x / (y * y + x * x)).
    intros g h. eexists. split; [reflexivity|]. intros d; cbv beta. now field.
  - destruct (std_pow x y) as [v|]; cbn [obind]; [|now left]. destruct (std_pow x (y - 1)) as [w|]; cbn [obind]; [|now left].
    destruct (std_log x) as [l|]; cbn [obind]; [|now left]. right. exists v, (w * y), (w * x * l). intros g h. eexists. split; [reflexivity|]. intros d; cbv beta. ring.
Qed.
Lemma ds_linear b x y : (forall g, bin_ds b x g y = None) \/ exists v c, forall g, exists g', bin_ds b x g y = Some (Dua v g') /\ forall d, g' d = c * g d.
Proof.
  destruct b; cbn [bin_ds].
  - right. exists (x + y), 1. intros g. eexists. split; [reflexivity|]. intros d; cbv beta. ring.
  - right. exists (x - y), 1. intros g. eexists. split; [reflexivity|]. intros d; cbv beta. ring.
  - right. exists (x * y), y. intros g. eexists. split; [reflexivity|]. intros d; cbv beta. ring.
  - unfold std_div, gdiv. destruct (Req_EM_T y 0) as [|N]; cbn [obind]; [now left|]. right. exists (x / y), (/ y). intros g. eexists. split; [reflexivity|]. intros d; cbv beta. now field.
  - right. destruct (Rlt_dec y x).
    + exists x, 1. intros g. eexists. split; [reflexivity|]. intros d; cbv beta. ring.
    + exists y, 0. intros g. eexists. split; [reflexivity|]. intros d; cbv beta. ring.
  - right. destruct (Rlt_dec x y).
    + exists x, 1. intros g. eexists. split; [reflexivity|]. intros d; cbv beta. ring.
    + exists y, 0. intros g. eexists. split; [reflexivity|]. intros d; cbv beta. ring.
  - unfold gdiv. destruct (Req_EM_T (y * y + x * x) 0) as [|N]; [now left|]. right. exists (std_atan2 x y), (y / (y * y + x * x)).
    intros g. eexists. split; [reflexivity|]. intros d; cbv beta. now field.
  - destruct (std_pow x y) as [v|]; cbn [obind]; [|now left]. destruct (std_pow x (y - 1)) as [w|]; cbn [obind]; [|now left].
    right. exists v, (y * w). intros g. eexists. split; [reflexivity|]. intros d; cbv beta. ring.
Qed.
Lemma sd_linear b x y : (forall h, bin_sd b x y h = None) \/ exists v c, forall h, exists g', bin_sd b x y h = Some (Dua v g') /\ forall d, g' d = c * h d.
Proof.
  destruct b; cbn [bin_sd].
  - right. exists (x + y), 1. intros g. eexists. split; [reflexivity|]. intros d; cbv beta. ring.
  - right. exists (x - y), (-1). intros g. eexists. split; [reflexivity|]. intros d; cbv beta. ring.
  - right. exists (x * y), x. intros g. eexists. split; [reflexivity|]. intros d; cbv beta. ring.
  - unfold std_div. destruct (Req_EM_T y 0) as [|N]; cbn [obind]; [now left|]. destruct (Req_EM_T (y * y) 0) as [|N']; cbn [obind]; [now left|].
    right. exists (x / y), (- (x / (y * y))). intros g. eexists. split; [reflexivity|]. intros d; cbv beta. ring.
  - right. destruct (Rlt_dec y x).
    + exists x, 0. intros g. eexists. split; [reflexivity|]. intros d; cbv beta. ring.
    + exists y, 1. intros g. eexists. split; [reflexivity|]. intros d; cbv beta. ring.
  - right. destruct (Rlt_dec x y).
    + exists x, 0. intros g. eexists. split; [reflexivity|]. intros d; cbv beta. ring.
    + exists y, 1. intros g. eexists. split; [reflexivity|]. intros d; cbv beta. ring.
  - unfold gdiv. destruct (Req_EM_T (y * y + x * x) 0) as [|N]; [now left|]. right. exists (std_atan2 x y), (- x / (y * y + x * x)).
    intros g. eexists. split; [reflexivity|]. intros d; cbv beta. now field.
  - destruct (std_pow x y) as [v|]; cbn [obind]; [|now left]. destruct (std_log x) as [w|]; cbn [obind]; [|now left].
    right. exists v, (v * w). intros g. eexists. split; [reflexivity|]. intros d; cbv beta. ring.
Qed.

(** numbers of given value and kind *)
Definition shaped (x : nat -> R) (k : nat -> bool) (ins : nat -> num) : Prop := forall i, get_value (ins i) = x i /\ kind (ins i) = k i.
Definition acts (x : nat -> R) (k : nat -> bool) (e : expr) (v : R) (l : list (nat * R)) : Prop :=
  forall ins, shaped x k ins -> exists r, deval e ins = Some r /\ get_value r = v /\ kind r = is_dual k e /\
    forall d, get_gradient r d = row l (fun i => get_gradient (ins i) d).
Lemma gradient_dbl r : kind r = false -> r = Dbl (get_value r).
Proof. now destruct r. Qed.
Lemma gradient_dua r : kind r = true -> r = Dua (get_value r) (get_gradient r).
Proof. now destruct r. Qed.
Lemma shaped_dual x k ins e : shaped x k ins -> is_dual (fun i => kind (ins i)) e = is_dual k e.
Proof. intros H. induction e as [i|c|u a IHa|b a IHa c IHc|a IHa c IHc t IHt f IHf]; cbn; auto; [apply H| |]; congruence. Qed.
Lemma get_value_to_dual r : get_value (to_dual r) = get_value r.
Proof. now destruct r. Qed.
Lemma get_gradient_to_dual r d : get_gradient (to_dual r) d = get_gradient r d.
Proof. now destruct r. Qed.

Theorem deval_acts x k e : (forall ins, shaped x k ins -> deval e ins = None) \/ exists v l, acts x k e v l.
Proof.
  induction e as [i|c|u a IHa|b a IHa c IHc|a IHa c IHc t IHt f IHf].
  - right. exists (x i), [(i, 1)]. intros ins H. exists (ins i). split; [reflexivity|]. split; [apply H|]. split; [apply H|]. intros d. cbn. ring.
  - right. exists c, []. intros ins H. exists (Dbl c). repeat split.
  - destruct IHa as [Na|(va & la & Ha)]; [left; intros ins H; cbn [deval]; now rewrite Na|].
    destruct (is_dual k a) eqn:Ka.
    + destruct (un_linear u va) as [N|(v & c & L)].
      * left. intros ins H. destruct (Ha ins H) as (r & E & V & K & G). cbn [deval]. rewrite E. cbn [obind]. rewrite Ka in K. rewrite (gradient_dua r K), V. apply N.
      * right. exists v, (scaled c la). intros ins H. destruct (Ha ins H) as (r & E & V & K & G). destruct (L (get_gradient r)) as (g' & E' & G').
        exists (Dua v g'). cbn [deval]. rewrite E. cbn [obind]. rewrite Ka in K. rewrite (gradient_dua r K), V. split; [exact E'|]. split; [reflexivity|].
        split; [cbn [kind is_dual]; now rewrite Ka|]. intros d. cbn [get_gradient]. rewrite G', G, row_scaled. reflexivity.
    + destruct (un_std u va) as [v|] eqn:Eu.
      * right. exists v, []. intros ins H. destruct (Ha ins H) as (r & E & V & K & G). exists (Dbl v). cbn [deval]. rewrite E. cbn [obind].
        rewrite Ka in K. rewrite (gradient_dbl r K), V. cbn [apply_un]. rewrite Eu. repeat split. cbn [kind is_dual]. now rewrite Ka.
      * left. intros ins H. destruct (Ha ins H) as (r & E & V & K & G). cbn [deval]. rewrite E. cbn [obind].
        rewrite Ka in K. rewrite (gradient_dbl r K), V. cbn [apply_un]. now rewrite Eu.
  - destruct IHa as [Na|(va & la & Ha)]; [left; intros ins H; cbn [deval]; now rewrite Na|].
    destruct IHc as [Nc|(vc & lc & Hc)]; [left; intros ins H; destruct (Ha ins H) as (r & E & _); cbn [deval]; rewrite E; cbn [obind]; now rewrite Nc|].
    assert (Gen : forall v l, (forall r r', get_value r = va -> kind r = is_dual k a -> get_value r' = vc -> kind r' = is_dual k c ->
        exists q, apply_bin b r r' = Some q /\ get_value q = v /\ kind q = (is_dual k a || is_dual k c)%bool /\
          forall d w, get_gradient r d = row la w -> get_gradient r' d = row lc w -> get_gradient q d = row l w) -> acts x k (Bin b a c) v l).
    { intros v l HG ins H. destruct (Ha ins H) as (r & E & V & K & G). destruct (Hc ins H) as (r' & E' & V' & K' & G').
      destruct (HG r r' V K V' K') as (q & Q1 & Q2 & Q3 & Q4). exists q. cbn [deval]. rewrite E. cbn [obind]. rewrite E'. cbn [obind].
      repeat split; auto. }
    assert (Bad : (forall r r', get_value r = va -> kind r = is_dual k a -> get_value r' = vc -> kind r' = is_dual k c -> apply_bin b r r' = None) ->
        forall ins, shaped x k ins -> deval (Bin b a c) ins = None).
    { intros HB ins H. destruct (Ha ins H) as (r & E & V & K & G). destruct (Hc ins H) as (r' & E' & V' & K' & G'). cbn [deval]. rewrite E. cbn [obind]. rewrite E'. cbn [obind]. now apply HB. }
    destruct (is_dual k a) eqn:Ka; destruct (is_dual k c) eqn:Kc.
    + destruct (dd_linear b va vc) as [N|(v & c1 & c2 & L)].
      * left. apply Bad. intros r r' V K V' K'. rewrite (gradient_dua r K), (gradient_dua r' K'), V, V'. apply N.
      * right. exists v, (scaled c1 la ++ scaled c2 lc). apply Gen. intros r r' V K V' K'. destruct (L (get_gradient r) (get_gradient r')) as (g' & E & G).
        exists (Dua v g'). split; [rewrite (gradient_dua r K), (gradient_dua r' K'), V, V'; exact E|]. repeat split. intros d w W1 W2. cbn [get_gradient].
        rewrite G, row_app, !row_scaled, W1, W2. reflexivity.
    + destruct (ds_linear b va vc) as [N|(v & c1 & L)].
      * left. apply Bad. intros r r' V K V' K'. rewrite (gradient_dua r K), (gradient_dbl r' K'), V, V'. apply N.
      * right. exists v, (scaled c1 la). apply Gen. intros r r' V K V' K'. destruct (L (get_gradient r)) as (g' & E & G).
        exists (Dua v g'). split; [rewrite (gradient_dua r K), (gradient_dbl r' K'), V, V'; exact E|]. repeat split. intros d w W1 W2. cbn [get_gradient].
        rewrite G, row_scaled, W1. reflexivity.
    + destruct (sd_linear b va vc) as [N|(v & c1 & L)].
      * left. apply Bad. intros r r' V K V' K'. rewrite (gradient_dbl r K), (gradient_dua r' K'), V, V'. apply N.
      * right. exists v, (scaled c1 lc). apply Gen. intros r r' V K V' K'. destruct (L (get_gradient r')) as (g' & E & G).
        exists (Dua v g'). split; [rewrite (gradient_dbl r K), (gradient_dua r' K'), V, V'; exact E|]. repeat split. intros d w W1 W2. cbn [get_gradient].
        rewrite G, row_scaled, W2. reflexivity.
    + destruct (bin_std b va vc) as [v|] eqn:Eb.
      * right. exists v, []. apply Gen. intros r r' V K V' K'. exists (Dbl v). split; [rewrite (gradient_dbl r K), (gradient_dbl r' K'), V, V'; cbn [apply_bin]; now rewrite Eb|]. repeat split.
      * left. apply Bad. intros r r' V K V' K'. rewrite (gradient_dbl r K), (gradient_dbl r' K'), V, V'. cbn [apply_bin]. now rewrite Eb.
  - destruct IHa as [Na|(va & la & Ha)]; [left; intros ins H; cbn [deval]; now rewrite Na|].
    destruct IHc as [Nc|(vc & lc & Hc)]; [left; intros ins H; destruct (Ha ins H) as (r & E & _); cbn [deval]; rewrite E; cbn [obind]; now rewrite Nc|].
    set (e := if Rlt_dec va vc then t else f).
    assert (IH : (forall ins, shaped x k ins -> deval e ins = None) \/ (exists v l, acts x k e v l)) by (unfold e; destruct (Rlt_dec va vc); assumption).
    assert (D : forall ins, shaped x k ins -> deval (Sel a c t f) ins = option_map (fun r => if (is_dual k t || is_dual k f)%bool then to_dual r else r) (deval e ins)).
    { intros ins H. destruct (Ha ins H) as (r & E & V & _). destruct (Hc ins H) as (r' & E' & V' & _). cbn [deval]. rewrite E. cbn [obind]. rewrite E'. cbn [obind].
      rewrite V, V', !(shaped_dual x k ins) by exact H. unfold e. now destruct (Rlt_dec va vc). }
    destruct IH as [N|(v & l & L)]; [left; intros ins H; rewrite D by exact H; now rewrite N|].
    right. exists v, l. intros ins H. destruct (L ins H) as (r & E & V & K & G). rewrite D, E by exact H. cbn [option_map]. eexists. split; [reflexivity|].
    destruct (is_dual k t || is_dual k f)%bool eqn:KK.
    + rewrite get_value_to_dual. split; [exact V|]. split; [cbn [is_dual]; rewrite KK; now destruct r|]. intros d. now rewrite get_gradient_to_dual.
    + split; [exact V|]. split; [|exact G]. cbn [is_dual]. rewrite KK. rewrite K. apply orb_false_iff in KK as [K1 K2]. unfold e. destruct (Rlt_dec va vc); assumption.
Qed.

(** fewer dual operands need no more smoothness *)
Lemma is_dual_mono (k k' : nat -> bool) e : (forall i, k' i = true -> k i = true) -> is_dual k' e = true -> is_dual k e = true.
Proof.
  intros H. induction e as [i|c|u a IHa|b a IHa c IHc|a IHa c IHc t IHt f IHf]; cbn [is_dual]; auto; rewrite !orb_true_iff; tauto.
Qed.
Lemma bin_smooth_mono b kx ky kx' ky' v w : (kx' = true -> kx = true) -> (ky' = true -> ky = true) -> bin_smooth b kx ky v w -> bin_smooth b kx' ky' v w.
Proof.
  intros _ Hy. destruct b; cbn [bin_smooth]; auto. intros [A|(A & B)]; [now left|]. right. split; [|exact B]. destruct ky'; [|reflexivity]. rewrite Hy in A; congruence.
Qed.
Lemma smooth_mono (k k' : nat -> bool) x e : (forall i, k' i = true -> k i = true) -> smooth k x e -> smooth k' x e.
Proof.
  intros H. assert (M := fun e => is_dual_mono k k' e H). induction e as [i|c|u a IHa|b a IHa c IHc|a IHa c IHc t IHt f IHf]; cbn [smooth]; auto.
  - intros [A B]. split; [auto|]. intros D. apply B. now apply M.
  - intros (A & B & C). split; [auto|]. split; [auto|]. intros D v w E1 E2.
    assert (D' : (is_dual k a || is_dual k c)%bool = true) by (apply orb_true_iff in D; apply orb_true_iff; destruct D; [left|right]; now apply M).
    eapply bin_smooth_mono; [apply M|apply M|]. now apply C.
  - intros (A & B & C). split; [auto|]. split; [auto|]. intros v w E1 E2. destruct (C v w E1 E2) as (C1 & C2 & C3). repeat split.
    + intros D. apply C1. apply orb_true_iff in D. apply orb_true_iff. destruct D; [left|right]; now apply M.
    + intros L. apply IHt. now apply C2.
    + intros L. apply IHf. now apply C3.
Qed.

(** ** A q-function written with this arithmetic *)
Section Written.
Context {St : Type}.
Notation gkernel := (gkernel St). Notation functional := (functional St). Notation mem := (mem St).

(** variable i of an expression is entry a of component j of argument s, where [place i = (s, j, a)]: a = 0 for the value, a > 0 for the derivatives *)
Definition placement := nat -> nat * nat * nat.
Definition read (place : placement) (v : nat -> slots) (i : nat) : R := let '(s, j, a) := place i in v s j a.
(** promote_each_to_dual_when: argument s becomes dual, entry a of component j with the unit gradient in direction j * dim1 + a *)
Definition chosen (place : placement) (s i : nat) : bool := Nat.eqb (fst (fst (place i))) s.
Definition promoted (dim1 : nat) (place : placement) (v : nat -> slots) (s i : nat) : num :=
  let '(s', j, a) := place i in
  if Nat.eqb s' s then Dua (v s' j a) (fun d => if Nat.eqb d (j * dim1 + a) then 1 else 0) else Dbl (v s' j a).
(** the variables are entries of the arguments of the q-function *)
Definition placed (G : gkernel) (nargs : nat) (place : placement) : Prop :=
  forall i, let '(s, j, a) := place i in (s < nargs)%nat /\ (j < es_c (gk_trial G s))%nat /\ (a < gk_dim1 G)%nat.
(** what the kernel does at a point with time t and state st is given by expressions: outputs where the expression is defined (the code gives a NaN
    elsewhere), and as derivatives what the same expression gives on dual numbers *)
Definition written (G : gkernel) (place : placement) (body : nat -> nat -> R -> St -> nat -> nat -> expr) : Prop :=
  (forall e q t v st i b y, eval (body e q t st i b) (read place v) = Some y -> fst (gk_qf G e q t v st) i b = y) /\
  (forall s e q t v st i b r, deval (body e q t st i b) (promoted (gk_dim1 G) place v s) = Some r ->
     forall j a, (j < es_c (gk_trial G s))%nat -> (a < gk_dim1 G)%nat -> gk_ad G s e q t v st i b j a = get_gradient r (j * gk_dim1 G + a)%nat).

Lemma promoted_shaped dim1 place v s : shaped (read place v) (chosen place s) (promoted dim1 place v s).
Proof.
  intros i. unfold promoted, read, chosen. destruct (place i) as [[s' j] a]. cbn [fst]. destruct (Nat.eqb s' s); cbn; auto.
Qed.
Lemma unit_index dim1 j a j' a' : (a < dim1)%nat -> (a' < dim1)%nat -> Nat.eqb (j * dim1 + a) (j' * dim1 + a') = (Nat.eqb j j' && Nat.eqb a a')%bool.
Proof.
  intros Ha Ha'. destruct (Nat.eqb_spec j j') as [->|Nj].
  - cbn [andb]. destruct (Nat.eqb_spec a a') as [->|Na]; [apply Nat.eqb_refl|]. apply Nat.eqb_neq. lia.
  - cbn [andb]. apply Nat.eqb_neq. intros E. apply Nat.lt_gt_cases in Nj as [L|L]; nia.
Qed.
(** a direction of argument s is a combination of the unit gradients *)
Lemma sum_units dim1 C (d : slots) j a : (j < C)%nat -> (a < dim1)%nat ->
  d j a = sumn C (fun j' => sumn dim1 (fun a' => d j' a' * (if Nat.eqb (j' * dim1 + a') (j * dim1 + a) then 1 else 0))).
Proof.
  intros Hj Ha. symmetry. rewrite (sumn_ext C _ (fun j' => if Nat.eqb j' j then d j a else 0)).
  - now apply (sumn_delta C j (fun _ => d j a)).
  - intros j' _. rewrite (sumn_ext dim1 _ (fun a' => if Nat.eqb a' a then (if Nat.eqb j' j then d j a else 0) else 0)).
    + now apply (sumn_delta dim1 a (fun _ => if Nat.eqb j' j then d j a else 0)).
    + intros a' Ha'. rewrite unit_index by assumption. destruct (Nat.eqb_spec j' j) as [->|]; cbn [andb]; destruct (Nat.eqb_spec a' a) as [->|]; ring.
Qed.

(** *** one argument *)
Lemma written_argument (G : gkernel) nargs place body s e q t v st d i b : placed G nargs place -> written G place body ->
  (exists y, eval (body e q t st i b) (read place v) = Some y) -> smooth (chosen place s) (read place v) (body e q t st i b) ->
  is_derive (fun eps => fst (gk_qf G e q t (shift_slots v s d eps) st) i b) 0 (chain_rule (gk_trial G s) (gk_dim1 G) (gk_ad G s e q t v st) d i b).
Proof.
  intros P [W1 W2] (y & Y) Sm. set (E := body e q t st i b) in *. set (x := read place v) in *.
  destruct (deval_acts x (chosen place s) E) as [N|(y' & l & A)].
  { exfalso. destruct (exact_derivative E (promoted (gk_dim1 G) place v s) y) as (r & D & _).
    - rewrite (functional_extensionality _ x); [exact Y|]. intros k. apply promoted_shaped.
    - replace (fun k => kind (promoted (gk_dim1 G) place v s k)) with (chosen place s) by (apply functional_extensionality; intros k; symmetry; apply promoted_shaped).
      rewrite (functional_extensionality _ x); [exact Sm|]. intros k. apply promoted_shaped.
    - rewrite N in D by apply promoted_shaped. discriminate. }
  (* all variables of argument s move with d *)
  set (ins := fun k => let '(s', j, a) := place k in if Nat.eqb s' s then Dua (v s' j a) (fun _ => d j a) else Dbl (v s' j a)).
  assert (Si : shaped x (chosen place s) ins).
  { intros k. unfold ins, x, read, chosen. destruct (place k) as [[s' j] a]. cbn [fst]. destruct (Nat.eqb s' s); cbn; auto. }
  destruct (exact_derivative E ins y) as (r & D & V & H).
  { rewrite (functional_extensionality _ x); [exact Y|]. intros k. apply Si. }
  { replace (fun k => kind (ins k)) with (chosen place s) by (apply functional_extensionality; intros k; symmetry; apply Si).
    rewrite (functional_extensionality _ x); [exact Sm|]. intros k. apply Si. }
  destruct (H 0%nat (fun eps => read place (shift_slots v s d eps)) 0) as (g & L & _ & Dg).
  { intros k. unfold ins, read, shift_slots. destruct (place k) as [[s' j] a]. destruct (Nat.eqb s' s) eqn:Es.
    - apply Nat.eqb_eq in Es. subst s'. cbn [get_value]. split; [ring|]. auto_derive; [exact Logic.I|ring].
    - cbn [get_value]. split; reflexivity. }
  apply (is_derive_ext_loc g). { apply (filter_imp (fun eps => eval E (read place (shift_slots v s d eps)) = Some (g eps))); [|exact L]. intros eps He. symmetry. now apply W1. }
  replace (chain_rule _ _ _ _ _ _) with (get_gradient r 0%nat); [exact Dg|].
  destruct (A ins Si) as (r1 & D1 & _ & _ & G1). rewrite D in D1. injection D1 as <-. rewrite G1.
  destruct (A (promoted (gk_dim1 G) place v s) (promoted_shaped _ _ _ _)) as (r2 & D2 & _ & _ & G2).
  unfold chain_rule. rewrite (sumn_ext (es_c (gk_trial G s)) _ (fun j => sumn (gk_dim1 G) (fun a => d j a * row l (fun k => get_gradient (promoted (gk_dim1 G) place v s k) (j * gk_dim1 G + a))))).
  2:{ intros j Hj. apply sumn_ext. intros a Ha. rewrite (W2 s e q t v st i b r2 D2 j a Hj Ha), G2. ring. }
  rewrite (row_ext l _ (fun k => sumn (es_c (gk_trial G s)) (fun j => sumn (gk_dim1 G) (fun a => d j a * get_gradient (promoted (gk_dim1 G) place v s k) (j * gk_dim1 G + a))))).
  - rewrite row_sumn. apply sumn_ext. intros j _. rewrite row_sumn. apply sumn_ext. intros a _. now rewrite row_scal.
  - intros k. unfold ins, promoted. assert (Pk := P k). destruct (place k) as [[s' j] a]. destruct (Nat.eqb s' s) eqn:Es; cbn [get_gradient].
    + apply Nat.eqb_eq in Es. subst s'. now apply sum_units.
    + symmetry. apply sumn_zero. intros j' _. apply sumn_zero. intros a' _. ring.
Qed.

(** *** all arguments together *)
Definition everything (_ : nat) : bool := true.
Lemma written_joint (G : gkernel) nargs place body e q t v st i b : placed G nargs place -> written G place body ->
  (exists y, eval (body e q t st i b) (read place v) = Some y) -> smooth everything (read place v) (body e q t st i b) ->
  forall (c : R -> nat -> slots) (d : nat -> slots), (forall s j a, is_derive (fun eps => c eps s j a) 0 (d s j a)) -> c 0 = v ->
  is_derive (fun eps => fst (gk_qf G e q t (c eps) st) i b) 0
    (sumn nargs (fun s => chain_rule (gk_trial G s) (gk_dim1 G) (gk_ad G s e q t v st) (d s) i b)).
Proof.
  intros P W (y & Y) Sm c d Hc H0. set (E := body e q t st i b) in *. set (x := read place v) in *.
  destruct W as [W1 W2].
  assert (Al : forall ins, shaped x everything ins -> exists r, deval E ins = Some r /\ get_value r = y /\ forall dd z t0, moves ins dd z t0 ->
      exists g, locally t0 (fun eps => eval E (z eps) = Some (g eps)) /\ g t0 = y /\ is_derive g t0 (get_gradient r dd)).
  { intros ins Si. apply exact_derivative.
    - rewrite (functional_extensionality _ x); [exact Y|]. intros k. apply Si.
    - replace (fun k => kind (ins k)) with everything by (apply functional_extensionality; intros k; symmetry; apply Si).
      rewrite (functional_extensionality _ x); [exact Sm|]. intros k. apply Si. }
  assert (Sh : forall w : nat -> R, shaped x everything (fun k => Dua (x k) (fun _ => w k))) by (intros w k; split; reflexivity).
  destruct (deval_acts x everything E) as [N|(y' & l & A)].
  { exfalso. destruct (Al _ (Sh (fun _ => 0))) as (r & D & _). rewrite N in D by apply Sh. discriminate. }
  (* the derivative along any motion of the variables *)
  assert (Rw : forall w (z : R -> nat -> R), (forall k, z 0 k = x k) -> (forall k, is_derive (fun eps => z eps k) 0 (w k)) ->
      exists g, locally 0 (fun eps => eval E (z eps) = Some (g eps)) /\ is_derive g 0 (row l w)).
  { intros w z Z0 Z1. destruct (Al _ (Sh w)) as (r & D & _ & H). destruct (H 0%nat z 0) as (g & L & _ & Dg).
    - intros k. split; [apply Z0|apply Z1].
    - exists g. split; [exact L|]. destruct (A _ (Sh w)) as (r1 & D1 & _ & _ & G1). rewrite D in D1. injection D1 as <-. rewrite G1 in Dg. exact Dg. }
  destruct (Rw (fun k => let '(s, j, a) := place k in d s j a) (fun eps => read place (c eps))) as (g & L & Dg).
  { intros k. unfold x, read. now rewrite H0. }
  { intros k. unfold read. destruct (place k) as [[s j] a]. apply Hc. }
  apply (is_derive_ext_loc g). { apply (filter_imp (fun eps => eval E (read place (c eps)) = Some (g eps))); [|exact L]. intros eps He. symmetry. now apply W1. }
  replace (sumn nargs _) with (row l (fun k => let '(s, j, a) := place k in d s j a)); [exact Dg|].
  (* each stored derivative is the derivative along a unit motion *)
  set (one := fun s j a k => let '(s', j', a') := place k in if (Nat.eqb s' s && Nat.eqb (j * gk_dim1 G + a) (j' * gk_dim1 G + a'))%bool then 1 else 0).
  assert (Un : forall s j a, (j < es_c (gk_trial G s))%nat -> (a < gk_dim1 G)%nat -> gk_ad G s e q t v st i b j a = row l (one s j a)).
  { intros s j a Hj Ha. assert (Ss := smooth_mono everything (chosen place s) x E (fun _ _ => eq_refl) Sm).
    destruct (exact_derivative E (promoted (gk_dim1 G) place v s) y) as (r & D & _ & H).
    { rewrite (functional_extensionality _ x); [exact Y|]. intros k. apply promoted_shaped. }
    { replace (fun k => kind (promoted (gk_dim1 G) place v s k)) with (chosen place s) by (apply functional_extensionality; intros k; symmetry; apply promoted_shaped).
      rewrite (functional_extensionality _ x); [exact Ss|]. intros k. apply promoted_shaped. }
    rewrite (W2 s e q t v st i b r D j a Hj Ha).
    set (z := fun (eps : R) k => x k + eps * one s j a k).
    destruct (H (j * gk_dim1 G + a)%nat z 0) as (g1 & L1 & _ & D1).
    { intros k. unfold z, x, read, promoted, one. destruct (place k) as [[s' j'] a']. destruct (Nat.eqb s' s) eqn:Es; cbn [andb get_value].
      - split; [ring|]. auto_derive; [exact Logic.I|ring].
      - split; [ring|]. intros eps. ring. }
    destruct (Rw (one s j a) z) as (g2 & L2 & D2).
    { intros k. unfold z. ring. } { intros k. unfold z. auto_derive; [exact Logic.I|ring]. }
    apply (d_unique g1 0); [exact D1|]. apply (is_derive_ext_loc g2); [|exact D2].
    generalize (filter_and _ _ L1 L2). apply filter_imp. intros eps [E1 E2]. rewrite E1 in E2. now injection E2. }
  unfold chain_rule.
  rewrite (sumn_ext nargs _ (fun s => sumn (es_c (gk_trial G s)) (fun j => sumn (gk_dim1 G) (fun a => d s j a * row l (one s j a))))).
  2:{ intros s _. apply sumn_ext. intros j Hj. apply sumn_ext. intros a Ha. rewrite Un by assumption. ring. }
  rewrite (row_ext l _ (fun k => sumn nargs (fun s => sumn (es_c (gk_trial G s)) (fun j => sumn (gk_dim1 G) (fun a => d s j a * one s j a k))))).
  - rewrite row_sumn. apply sumn_ext. intros s _. rewrite row_sumn. apply sumn_ext. intros j _. rewrite row_sumn. apply sumn_ext. intros a _. now rewrite row_scal.
  - intros k. unfold one. assert (Pk := P k). destruct (place k) as [[s' j'] a']. destruct Pk as (P1 & P2 & P3). symmetry.
    rewrite (sumn_ext nargs _ (fun s => if Nat.eqb s s' then d s' j' a' else 0)); [now apply (sumn_delta nargs s' (fun _ => d s' j' a'))|].
    intros s _. rewrite Nat.eqb_sym. destruct (Nat.eqb_spec s s') as [->|Ns].
    + cbn [andb]. now rewrite <- (sum_units (gk_dim1 G) (es_c (gk_trial G s')) (d s') j' a' P2 P3).
    + cbn [andb]. apply sumn_zero. intros j _. apply sumn_zero. intros a _. ring.
Qed.

(** ** A functional all of whose q-functions are written this way *)
Definition body_of := nat -> nat -> nat -> nat -> R -> St -> nat -> nat -> expr.   (* by integral and geometry *)
Definition all_written (f : functional) (place : nat -> nat -> placement) (body : body_of) : Prop :=
  forall n Ig g G, nth_error (f_integrals f) n = Some Ig -> nth_error (i_geoms Ig) g = Some G ->
    placed G (length (i_active Ig)) (place n g) /\ written G (place n g) (body n g).
(** no operation on the varying numbers is done where it is not differentiable: argument w varies, or all of them *)
Definition regular (f : functional) (w : option nat) (place : nat -> nat -> placement) (body : body_of) (t : R) (Ls : nat -> list R) (m : mem) : Prop :=
  forall n Ig g G e q, nth_error (f_integrals f) n = Some Ig -> nth_error (i_geoms Ig) g = Some G -> (e < length (gk_elems G))%nat -> (q < gk_nq G)%nat ->
    forall i b, let x := read (place n g) (qf_inputs G g (Es_of f Ls Ig) e q) in let ex := body n g e q t (m_q m n g e q) i b in
    (exists y, eval ex x = Some y) /\
    match w with
    | Some w => forall s, index_of (i_active Ig) w = Some s -> smooth (chosen (place n g) s) x ex
    | None => smooth everything x ex
    end.
Theorem ad_is_correct f place body w t Ls m : all_written f place body -> regular f (Some w) place body t Ls m -> ad_correct_at f w t Ls m.
Proof.
  intros W Rg n Ig s g G e q Hn Hs HG He Hq v d i b. destruct (W n Ig g G Hn HG) as [P W']. destruct (Rg n Ig g G e q Hn HG He Hq i b) as [Y Sm].
  exact (written_argument G _ (place n g) (body n g) s e q t v (m_q m n g e q) d i b P W' Y (Sm s Hs)).
Qed.
Theorem ad_is_joint f place body t Ls m : all_written f place body -> regular f None place body t Ls m -> ad_joint f t Ls m.
Proof.
  intros W Rg n Ig g G e q Hn HG He Hq v c d Hc H0 i b. destruct (W n Ig g G Hn HG) as [P W']. destruct (Rg n Ig g G e q Hn HG He Hq i b) as [Y Sm].
  exact (written_joint G _ (place n g) (body n g) e q t v (m_q m n g e q) i b P W' Y Sm c d Hc H0).
Qed.
End Written.

(** ** What this gives for histories of evaluations, for several arguments and for tangents *)
From Verif Require Import Csr Assembly Tensor BoundaryElim Newton QuasiStatic QuasiBalance.
Theorem traced_gradient {St} (f : functional St) place body lsize tsize w rq dx h1 h2 (m0 mend : mem St) :
  wf f lsize tsize -> List.Forall (fits tsize) (h1 ++ rq :: h2) -> length dx = tsize w ->
  rq_wrt rq = Some w -> List.Forall (fun r => rq_wrt r <> Some w) h2 ->
  run f lsize (h1 ++ rq :: h2) m0 = Ok mend -> all_written f place body ->
  exists mbefore, run f lsize h1 m0 = Ok mbefore /\
  (regular f (Some w) place body (rq_t rq) (rq_in rq) mbefore ->
   exists (res : R -> list R) (act : list R),
    (forall eps, exists m', evaluate f (rq_t rq) None false (shiftL (rq_in rq) w dx eps) lsize mbefore = Ok (res eps, m')) /\
    action f w mend dx lsize = Ok act /\ length act = lsize /\
    forall k, (k < lsize)%nat -> is_derive (fun eps => nth k (res eps) 0) 0 (nth k act 0)).
Proof.
  intros A1 A2 A3 A4 A5 A6 W. destruct (gradient_after_history f lsize tsize w rq dx h1 h2 m0 mend A1 A2 A3 A4 A5 A6) as (mb & E & H).
  exists mb. split; [exact E|]. intros Rg. apply H. exact (ad_is_correct f place body w _ _ mb W Rg).
Qed.
Theorem traced_arguments {St} (f : functional St) place body lsize tsize t (Lc : R -> nat -> list R) dL (m : mem St) W :
  wf f lsize tsize -> (forall eps w, length (Lc eps w) = tsize w) -> (forall w, length (dL w) = tsize w) ->
  (forall Ig w, In Ig (f_integrals f) -> In w (i_active Ig) -> (w < W)%nat) ->
  (forall w i, is_derive (fun eps => nth i (Lc eps w) 0) 0 (nth i (dL w) 0)) -> all_written f place body -> regular f None place body t (Lc 0) m ->
  exists (res : R -> list R) (act : nat -> list R),
    (forall eps, exists m', evaluate f t None false (Lc eps) lsize m = Ok (res eps, m')) /\
    (forall w, exists mw, evaluate f t (Some w) false (Lc 0) lsize m = Ok (res 0, mw) /\ action f w mw (dL w) lsize = Ok (act w)) /\
    forall k, (k < lsize)%nat -> is_derive (fun eps => nth k (res eps) 0) 0 (sumn W (fun w => nth k (act w) 0)).
Proof. intros A1 A2 A3 A4 A5 Wr Rg. exact (all_arguments f lsize tsize t Lc dL m W A1 A2 A3 A4 A5 (ad_is_joint f place body t _ m Wr Rg)). Qed.
Theorem traced_tangent {St} (f : functional St) place body n c tsize t others m u dx A (L : R -> list R) i : ready f n c tsize ->
  fitting tsize others -> length u = n -> length dx = n -> all_written f place body -> regular f (Some 0%nat) place body t (inputs others u) m -> tangent f n c t others m u A ->
  (forall eps, force f n t others m (tab n (fun j => nth j u 0 + eps * nth j dx 0)) (L eps)) -> (i < n)%nat ->
  is_derive (fun eps : R => nth i (L eps) 0) 0 (mvec n A (entries dx) i).
Proof.
  intros R0 A1 A2 A3 W Rg. exact (tangent_derivative f n c tsize R0 t others m u dx A L i A1 A2 A3 (ad_is_correct f place body 0 _ _ m W Rg)).
Qed.
