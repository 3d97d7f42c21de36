(** * solve_scalar_equation (C21)

    numerics/functional/tuple_tensor_dual_functions.hpp:522-676, over the reals.  [f] is the function at the given
    parameter values and [fd x] the gradient of [f] evaluated on [make_dual x]; the theorems that need it assume that
    [fd] is the derivative of [f] (C15).  A division by zero of the Newton step is a separate outcome [None]. *)
From Coq Require Import Reals Lra Lia Bool.
From Coquelicot Require Import Coquelicot.
From Verif Require Import Sums LU.
Local Open Scope R_scope.

(** lines 535-541 ScalarSolverOptions *)
Record options := { xtol : R; rtol : R; max_iter : nat }.

Definition is_neg (x : R) : bool := if Rlt_dec x 0 then true else false.
Definition is_pos (x : R) : bool := if Rlt_dec 0 x then true else false.
Definition is_lt (x y : R) : bool := if Rlt_dec x y then true else false.
Definition is_eq (x y : R) : bool := if Req_EM_T x y then true else false.

Record state := { sx : R; sxl : R; sxh : R; s_old : R; s_dx : R; s_conv : bool }.

Section Solve.
Variable f fd : R -> R.
Variable o : options.

(** lines 623-635: the trial point, bisection or Newton *)
Definition bisects (s : state) : bool :=
  is_pos ((sx s - sxh s) * fd (sx s) - f (sx s)) || is_neg ((sx s - sxl s) * fd (sx s) - f (sx s)) ||
  is_lt (Rabs (s_old s * fd (sx s))) (Rabs (2 * f (sx s))).

(** lines 638-653: convergence test and bracket update *)
Definition finish (s : state) (dx x : R) (conv : bool) : state :=
  {| sx := x; sxl := if is_neg (f x) then x else sxl s; sxh := if is_neg (f x) then sxh s else x;
     s_old := s_dx s; s_dx := dx; s_conv := conv || is_lt (Rabs dx) (xtol o) || is_lt (Rabs (f x)) (rtol o) |}.

Definition step (s : state) : option state :=
  if bisects s then
    let dx := 0.5 * (sxh s - sxl s) in let x := sxl s + dx in Some (finish s dx x (is_eq x (sxl s)))
  else
    obind (odiv (f (sx s)) (fd (sx s))) (fun dx => let x := sx s - dx in Some (finish s dx x (is_eq x (sx s)))).

(** lines 615-656: the loop; the pair counts the iterations done *)
Fixpoint run (k : nat) (s : state) (it : nat) : option (state * nat) :=
  if s_conv s then Some (s, it)
  else match k with
       | O => Some (s, it)
       | S k' => obind (step s) (fun s' => run k' s' (S it))
       end.

(** result: refused interval, not-a-number (never converged, all iterations used), or an answer *)
Record answer := { a_x : R; a_slope : R; a_converged : bool; a_iterations : nat; a_residual : R }.
Inductive outcome := Refused | NotANumber | Answer (a : answer).

Definition report (x : R) (c : bool) (it : nat) : outcome :=
  Answer {| a_x := x; a_slope := fd x; a_converged := c; a_iterations := it; a_residual := f x |}.

(** lines 597-613 *)
Definition initial (x0 lower upper : R) : state :=
  let x0 := if is_lt x0 lower || is_lt upper x0 then 0.5 * (lower + upper) else x0 in
  {| sx := x0; sxl := if is_pos (f lower) then upper else lower; sxh := if is_pos (f lower) then lower else upper;
     s_old := Rabs (upper - lower); s_dx := Rabs (upper - lower); s_conv := false |}.

(** lines 571-676 *)
Definition solve_scalar_equation (x0 lower upper : R) : outcome :=
  if is_pos (f lower * f upper) then Refused
  else if is_eq (f lower) 0 then report lower true 0
  else if is_eq (f upper) 0 then report upper true 0
  else match run (max_iter o) (initial x0 lower upper) 0 with
       | None => NotANumber
       | Some (s, it) => report (sx s) (s_conv s) it
       end.

(** lines 666-669: the gradient returned when parameters are duals; [df] is the gradient of f(x, params) at the root *)
Definition root_gradient (a : answer) (df : R) : option R := odiv (- df) (a_slope a).
End Solve.

(** ** specification helpers *)
Definition between (a b x : R) : Prop := Rmin a b <= x <= Rmax a b.

Lemma is_neg_true x : is_neg x = true -> x < 0.
Proof. unfold is_neg. now destruct (Rlt_dec x 0). Qed.
Lemma is_neg_false x : is_neg x = false -> 0 <= x.
Proof. unfold is_neg. destruct (Rlt_dec x 0); [discriminate|lra]. Qed.
Lemma is_pos_true x : is_pos x = true -> 0 < x.
Proof. unfold is_pos. now destruct (Rlt_dec 0 x). Qed.
Lemma is_pos_false x : is_pos x = false -> x <= 0.
Proof. unfold is_pos. destruct (Rlt_dec 0 x); [discriminate|lra]. Qed.
Lemma is_lt_true x y : is_lt x y = true -> x < y.
Proof. unfold is_lt. now destruct (Rlt_dec x y). Qed.
Lemma is_lt_false x y : is_lt x y = false -> y <= x.
Proof. unfold is_lt. destruct (Rlt_dec x y); [discriminate|lra]. Qed.
Lemma is_eq_true x y : is_eq x y = true -> x = y.
Proof. unfold is_eq. now destruct (Req_EM_T x y). Qed.
Lemma is_eq_false x y : is_eq x y = false -> x <> y.
Proof. unfold is_eq. now destruct (Req_EM_T x y). Qed.

Ltac minmax := unfold between in *; unfold Rmin, Rmax in *; repeat match goal with
  | |- context [Rle_dec ?a ?b] => destruct (Rle_dec a b)
  | H : context [Rle_dec ?a ?b] |- _ => destruct (Rle_dec a b)
  end.

Section Facts.
Variable f fd : R -> R.
Variable o : options.

(** what one iteration did *)
Inductive stepped (s s' : state) : Prop :=
| by_bisection : s_dx s' = 0.5 * (sxh s - sxl s) -> sx s' = sxl s + s_dx s' -> stepped s s'
| by_newton : fd (sx s) <> 0 -> s_dx s' = f (sx s) / fd (sx s) -> sx s' = sx s - s_dx s' ->
    Rabs (s_dx s') <= Rabs (s_old s) / 2 -> stepped s s'.

Record inv (a b : R) (s : state) : Prop := {
  inv_x : between (sxl s) (sxh s) (sx s);
  inv_l : f (sxl s) < 0;
  inv_h : 0 <= f (sxh s);
  inv_in_l : between a b (sxl s);
  inv_in_h : between a b (sxh s) }.

(** why an iteration stopped the loop *)
Definition stopped (s' : state) (old : R) : Prop :=
  (f old = 0 /\ sx s' = old) \/ Rabs (s_dx s') < xtol o \/ Rabs (f (sx s')) < rtol o.

Lemma step_inv a b s s' : inv a b s -> step f fd o s = Some s' ->
  stepped s s' /\ inv a b s' /\ s_old s' = s_dx s /\
  between (sxl s) (sxh s) (sx s') /\
  ((sxl s' = sx s' /\ sxh s' = sxh s) \/ (sxl s' = sxl s /\ sxh s' = sx s')) /\
  (s_conv s' = true -> stopped s' (sx s)) /\
  (Rabs (s_dx s') < xtol o \/ Rabs (f (sx s')) < rtol o -> s_conv s' = true).
Proof.
  intros [Bx Fl Fh Il Ih] E. unfold step in E.
  assert (Fin : forall dx x c, between (sxl s) (sxh s) x -> (c = true -> f (sx s) = 0 /\ x = sx s) ->
     s' = finish f o s dx x c ->
     inv a b s' /\ s_old s' = s_dx s /\ s_dx s' = dx /\ sx s' = x /\
     ((sxl s' = x /\ sxh s' = sxh s) \/ (sxl s' = sxl s /\ sxh s' = x)) /\
     (s_conv s' = true -> stopped s' (sx s)) /\
     (Rabs (s_dx s') < xtol o \/ Rabs (f (sx s')) < rtol o -> s_conv s' = true)).
  { intros dx x c Hx Hc ->. unfold finish. cbn [sx sxl sxh s_old s_dx s_conv].
    assert (Stop : c || is_lt (Rabs dx) (xtol o) || is_lt (Rabs (f x)) (rtol o) = true ->
              (f (sx s) = 0 /\ x = sx s) \/ Rabs dx < xtol o \/ Rabs (f x) < rtol o).
    { intros H. apply Bool.orb_prop in H. destruct H as [H|H]; [apply Bool.orb_prop in H; destruct H as [H|H]|].
      - left. now apply Hc.
      - right; left. now apply is_lt_true.
      - right; right. now apply is_lt_true. }
    assert (Go : Rabs dx < xtol o \/ Rabs (f x) < rtol o ->
               c || is_lt (Rabs dx) (xtol o) || is_lt (Rabs (f x)) (rtol o) = true).
    { intros [H|H]; unfold is_lt.
      - destruct (Rlt_dec (Rabs dx) (xtol o)); [|contradiction]. rewrite Bool.orb_true_r. reflexivity.
      - destruct (Rlt_dec (Rabs (f x)) (rtol o)); [|contradiction]. apply Bool.orb_true_r. }
    destruct (is_neg (f x)) eqn:N.
    - apply is_neg_true in N. split; [|split; [reflexivity|split; [reflexivity|split; [reflexivity|split; [now left|split; assumption]]]]].
      split; cbn [sx sxl sxh]; try assumption; minmax; lra.
    - apply is_neg_false in N. split; [|split; [reflexivity|split; [reflexivity|split; [reflexivity|split; [now right|split; assumption]]]]].
      split; cbn [sx sxl sxh]; try assumption; minmax; lra. }
  assert (Nlh : sxl s <> sxh s) by (intros Q; rewrite Q in Fl; lra).
  destruct (bisects f fd s) eqn:B.
  - cbv zeta in E. injection E as E. symmetry in E.
    apply Fin in E.
    + destruct E as [H1 [H2 [H3 [H4 [H5 [H6 H7]]]]]]. rewrite <- H4 in H5.
      split; [apply by_bisection; [exact H3|now rewrite H3]|]. split; [exact H1|]. split; [exact H2|].
      split; [rewrite H4; minmax; lra|]. split; [exact H5|]. split; assumption.
    + minmax; lra.
    + intros Q. apply is_eq_true in Q. lra.
  - unfold bisects in B. apply Bool.orb_false_elim in B. destruct B as [B B3]. apply Bool.orb_false_elim in B.
    destruct B as [B1 B2]. apply is_pos_false in B1. apply is_neg_false in B2. apply is_lt_false in B3.
    destruct (odiv (f (sx s)) (fd (sx s))) as [dx|] eqn:D; [|discriminate]. cbn [obind] in E. cbv zeta in E.
    apply odiv_some in D. destruct D as [Nz D]. injection E as E. symmetry in E.
    assert (Fx : f (sx s) = dx * fd (sx s)) by (rewrite D; field; exact Nz).
    apply Fin in E.
    + destruct E as [H1 [H2 [H3 [H4 [H5 [H6 H7]]]]]]. rewrite <- H4 in H5.
      split.
      { apply by_newton; [exact Nz|rewrite H3; exact D|now rewrite H3|]. rewrite H3.
        rewrite Fx, <- Rmult_assoc, !Rabs_mult in B3. rewrite (Rabs_pos_eq 2) in B3 by lra.
        assert (P : 0 < Rabs (fd (sx s))) by now apply Rabs_pos_lt. nra. }
      split; [exact H1|]. split; [exact H2|]. split.
      { rewrite H4. destruct (Rtotal_order (fd (sx s)) 0) as [S|[S|S]]; [|contradiction|].
        - assert (sxh s <= sx s - dx <= sxl s) by nra. minmax; lra.
        - assert (sxl s <= sx s - dx <= sxh s) by nra. minmax; lra. }
      split; [exact H5|]. split; assumption.
    + destruct (Rtotal_order (fd (sx s)) 0) as [S|[S|S]]; [|contradiction|].
      * assert (sxh s <= sx s - dx <= sxl s) by nra. minmax; lra.
      * assert (sxl s <= sx s - dx <= sxh s) by nra. minmax; lra.
    + intros Q. apply is_eq_true in Q. split; [|exact Q]. assert (dx = 0) by lra. rewrite Fx, H. ring.
Qed.

Lemma run_inv a b : forall k s it s' it', inv a b s -> run f fd o k s it = Some (s', it') ->
  inv a b s' /\ (it <= it' <= it + k)%nat /\ (s_conv s' = false -> it' = (it + k)%nat) /\
  (s_conv s = false -> s_conv s' = true -> exists old, between a b old /\ stopped s' old /\
     exists s0, inv a b s0 /\ sx s0 = old /\ stepped s0 s').
Proof.
  induction k as [|k IH]; intros s it s' it' HI E.
  - cbn [run] in E. assert (E' : s = s' /\ it = it') by (destruct (s_conv s); injection E; auto).
    destruct E' as [<- <-]. split; [exact HI|]. split; [lia|]. split; [lia|]. intros H1 H2. congruence.
  - cbn [run] in E. destruct (s_conv s) eqn:C.
    + injection E as <- <-. split; [exact HI|]. split; [lia|]. split; [congruence|]. congruence.
    + destruct (step f fd o s) as [s1|] eqn:S; [|discriminate]. cbn [obind] in E.
      destruct (step_inv a b s s1 HI S) as [P [I1 [_ [_ [_ [St _]]]]]].
      destruct (IH s1 (Datatypes.S it) s' it' I1 E) as [I2 [R1 [R2 R3]]].
      split; [exact I2|]. split; [lia|]. split; [intros H; specialize (R2 H); lia|]. intros _ Hc.
      destruct (s_conv s1) eqn:C1; [|now apply R3].
      destruct k; cbn [run] in E; rewrite C1 in E; injection E as <- _;
        (exists (sx s); split; [destruct HI; minmax; lra|]; split; [now apply St|]; now exists s).
Qed.

Lemma initial_inv x0 lower upper : f lower * f upper <= 0 -> f lower <> 0 -> f upper <> 0 ->
  inv lower upper (initial f x0 lower upper).
Proof.
  intros H N1 N2. unfold initial. cbv zeta.
  assert (B : between lower upper (if is_lt x0 lower || is_lt upper x0 then 0.5 * (lower + upper) else x0)).
  { destruct (is_lt x0 lower || is_lt upper x0) eqn:Q; [minmax; lra|]. apply Bool.orb_false_elim in Q. destruct Q as [Q1 Q2].
    apply is_lt_false in Q1. apply is_lt_false in Q2. minmax; lra. }
  destruct (is_pos (f lower)) eqn:P.
  - apply is_pos_true in P. split; cbn [sx sxl sxh]; try nra; minmax; lra.
  - apply is_pos_false in P. split; cbn [sx sxl sxh]; try nra; minmax; lra.
Qed.

(** the outcome, case by case *)
Lemma solve_cases x0 lower upper :
  (0 < f lower * f upper /\ solve_scalar_equation f fd o x0 lower upper = Refused) \/
  (f lower * f upper <= 0 /\ exists e, (e = lower \/ e = upper) /\ f e = 0 /\
     solve_scalar_equation f fd o x0 lower upper = report f fd e true 0) \/
  (inv lower upper (initial f x0 lower upper) /\
     solve_scalar_equation f fd o x0 lower upper =
       match run f fd o (max_iter o) (initial f x0 lower upper) 0 with
       | None => NotANumber | Some (s, it) => report f fd (sx s) (s_conv s) it end).
Proof.
  unfold solve_scalar_equation. destruct (is_pos (f lower * f upper)) eqn:P.
  { left. split; [now apply is_pos_true|reflexivity]. }
  apply is_pos_false in P. right. destruct (is_eq (f lower) 0) eqn:El.
  { left. split; [exact P|]. exists lower. apply is_eq_true in El. auto. }
  destruct (is_eq (f upper) 0) eqn:Eu.
  { left. split; [exact P|]. exists upper. apply is_eq_true in Eu. auto. }
  right. split; [|reflexivity]. apply initial_inv; [exact P|now apply is_eq_false|now apply is_eq_false].
Qed.

Theorem refuses_iff x0 lower upper : solve_scalar_equation f fd o x0 lower upper = Refused <-> 0 < f lower * f upper.
Proof.
  destruct (solve_cases x0 lower upper) as [[H E]|[[H [e [_ [_ E]]]]|[I E]]]; rewrite E.
  - tauto.
  - unfold report. split; [discriminate|lra].
  - assert (f lower * f upper <= 0).
    { destruct I as [_ Il Ih _ _]. unfold initial in Il, Ih. cbn [sxl sxh] in *. destruct (is_pos (f lower)); nra. }
    destruct (run f fd o (max_iter o) (initial f x0 lower upper) 0) as [[s it]|]; unfold report; split; try discriminate; lra.
Qed.

Theorem answer_facts x0 lower upper a : solve_scalar_equation f fd o x0 lower upper = Answer a ->
  between lower upper (a_x a) /\ a_residual a = f (a_x a) /\ a_slope a = fd (a_x a) /\
  (a_iterations a <= max_iter o)%nat /\ (a_converged a = false -> a_iterations a = max_iter o) /\
  exists xl xh, between lower upper xl /\ between lower upper xh /\ between xl xh (a_x a) /\ f xl * f xh <= 0.
Proof.
  intros E. destruct (solve_cases x0 lower upper) as [[H Q]|[[H [e [He [Fe Q]]]]|[I Q]]]; rewrite Q in E.
  - discriminate.
  - injection E as <-. cbn [a_x a_residual a_slope a_iterations a_converged].
    split; [destruct He as [He|He]; rewrite He; minmax; lra|]. split; [reflexivity|]. split; [reflexivity|]. split; [lia|].
    split; [discriminate|]. exists e, e. repeat split; try (destruct He as [He|He]; rewrite ?He; minmax; lra). rewrite Fe. lra.
  - destruct (run f fd o (max_iter o) (initial f x0 lower upper) 0) as [[s it]|] eqn:R; [|discriminate].
    injection E as <-. cbn [a_x a_residual a_slope a_iterations a_converged].
    destruct (run_inv lower upper _ _ _ _ _ I R) as [[Bx Fl Fh Il Ih] [R1 [R2 _]]].
    split; [minmax; lra|]. split; [reflexivity|]. split; [reflexivity|]. split; [lia|]. split; [exact R2|].
    exists (sxl s), (sxh s). repeat split; try (minmax; lra). nra.
Qed.

(** convergence: an exact root, or the residual tolerance, or the last correction is below the tolerance; in the last case
    the correction is a Newton correction or half of an interval containing a sign change *)
Theorem converged_means x0 lower upper a : solve_scalar_equation f fd o x0 lower upper = Answer a -> a_converged a = true ->
  f (a_x a) = 0 \/ Rabs (f (a_x a)) < rtol o \/
  exists old, between lower upper old /\
    ((fd old <> 0 /\ a_x a = old - f old / fd old /\ Rabs (f old / fd old) < xtol o) \/
     (exists xl xh, between lower upper xl /\ between lower upper xh /\ f xl < 0 /\ 0 <= f xh /\
        a_x a = (xl + xh) / 2 /\ Rabs (xh - xl) / 2 < xtol o)).
Proof.
  intros E C. destruct (solve_cases x0 lower upper) as [[H Q]|[[H [e [He [Fe Q]]]]|[I Q]]]; rewrite Q in E.
  - discriminate.
  - injection E as <-. cbn [a_x] in *. now left.
  - destruct (run f fd o (max_iter o) (initial f x0 lower upper) 0) as [[s it]|] eqn:R; [|discriminate].
    injection E as <-. cbn [a_x a_converged] in *.
    destruct (run_inv lower upper _ _ _ _ _ I R) as [_ [_ [_ R3]]].
    destruct (R3 eq_refl C) as [old [Bo [St [s0 [I0 [E0 Sp]]]]]]. destruct St as [[S1 S2]|[S|S]].
    + left. now rewrite S2.
    + right; right. exists old. split; [exact Bo|]. destruct Sp as [P1 P2|P0 P1 P2 P3].
      * right. destruct I0 as [J1 J2 J3 J4 J5]. exists (sxl s0), (sxh s0). repeat split; try assumption; try (minmax; lra).
        rewrite P1 in S. rewrite Rabs_mult, (Rabs_pos_eq 0.5) in S by lra. lra.
      * left. rewrite E0 in *. split; [exact P0|]. rewrite <- P1. split; [exact P2|exact S].
    + right; left. exact S.
Qed.

(** ** not a number exactly when Newton meets a root with zero slope *)
Lemma step_none a b s : inv a b s -> step f fd o s = None -> f (sx s) = 0 /\ fd (sx s) = 0.
Proof.
  intros _ E. unfold step in E. destruct (bisects f fd s) eqn:B; [discriminate|].
  unfold bisects in B. apply Bool.orb_false_elim in B. destruct B as [B _]. apply Bool.orb_false_elim in B.
  destruct B as [B1 B2]. apply is_pos_false in B1. apply is_neg_false in B2.
  unfold odiv in E. destruct (Req_EM_T (fd (sx s)) 0) as [Z|]; [|discriminate]. rewrite Z in *. split; [|reflexivity]. nra.
Qed.

Lemma run_none a b : forall k s it, inv a b s -> run f fd o k s it = None ->
  exists x, between a b x /\ f x = 0 /\ fd x = 0.
Proof.
  induction k as [|k IH]; intros s it HI E; cbn [run] in E; destruct (s_conv s); try discriminate.
  destruct (step f fd o s) as [s1|] eqn:S; cbn [obind] in E.
  - apply (IH s1 (Datatypes.S it)); [|exact E]. now apply (step_inv a b s s1).
  - exists (sx s). split; [destruct HI; minmax; lra|]. exact (step_none a b s HI S).
Qed.

Theorem nan_only_at_flat_roots x0 lower upper : solve_scalar_equation f fd o x0 lower upper = NotANumber ->
  exists x, between lower upper x /\ f x = 0 /\ fd x = 0.
Proof.
  intros E. destruct (solve_cases x0 lower upper) as [[H Q]|[[H [e [He [Fe Q]]]]|[I Q]]]; rewrite Q in E; try discriminate.
  destruct (run f fd o (max_iter o) (initial f x0 lower upper) 0) as [[s it]|] eqn:R; [discriminate|].
  exact (run_none lower upper _ _ _ I R).
Qed.

(** ** enough iterations always suffice *)
Lemma run_converges a b d K : 0 < d ->
  (forall s s', inv a b s -> step f fd o s = Some s' -> Rabs (s_dx s') < d -> s_conv s' = true) ->
  forall k L p q s it, (L <= K)%nat -> inv a b s ->
    Rabs (sxh s - sxl s) < 2 ^ L * d -> Rabs (s_old s) < 2 ^ p * d -> Rabs (s_dx s) < 2 ^ q * d ->
    (L * (2 * K + 1) + p + q + 1 <= k)%nat ->
    forall s' it', run f fd o k s it = Some (s', it') -> s_conv s' = true.
Proof.
  intros Hd Hit. induction k as [|k IH]; intros L p q s it HL HI HW Hp Hq Hk s' it' E; [lia|].
  cbn [run] in E. destruct (s_conv s) eqn:C; [injection E as <- _; exact C|].
  destruct (step f fd o s) as [s1|] eqn:S; [|discriminate]. cbn [obind] in E.
  destruct (step_inv a b s s1 HI S) as [P [I1 [O1 [Bx [Br [_ _]]]]]].
  destruct (Rlt_dec (Rabs (s_dx s1)) d) as [Small|Big].
  { assert (C1 := Hit s s1 HI S Small). destruct k; cbn [run] in E; rewrite C1 in E; now injection E as <- _. }
  destruct P as [P1 P2|P0 P1 P2 P3].
  - (* bisection *)
    assert (W1 : Rabs (s_dx s1) = 0.5 * Rabs (sxh s - sxl s)) by (rewrite P1, Rabs_mult, (Rabs_pos_eq 0.5) by lra; reflexivity).
    destruct L as [|L]; [simpl in HW; lra|]. simpl in HW.
    apply (IH L q L s1 (Datatypes.S it)) with (s' := s') (it' := it'); try assumption; try lia; try (rewrite W1; lra); try (rewrite O1; exact Hq).
    destruct Br as [[B1 B2]|[B1 B2]]; rewrite B1, B2, P2, P1.
    + replace (sxh s - (sxl s + 0.5 * (sxh s - sxl s))) with (0.5 * (sxh s - sxl s)) by lra.
      rewrite <- P1, W1. lra.
    + replace (sxl s + 0.5 * (sxh s - sxl s) - sxl s) with (0.5 * (sxh s - sxl s)) by lra.
      rewrite <- P1, W1. lra.
  - (* Newton *)
    destruct p as [|p]; [simpl in Hp; lra|]. simpl in Hp.
    apply (IH L q p s1 (Datatypes.S it)) with (s' := s') (it' := it'); try assumption; try lia; try (rewrite O1; exact Hq); try lra.
    eapply Rle_lt_trans; [|exact HW].
    destruct Br as [[B1 B2]|[B1 B2]]; rewrite B1, B2; clear - Bx; minmax; unfold Rabs; repeat destruct (Rcase_abs _); lra.
Qed.

Theorem enough_iterations x0 lower upper K a : 0 < xtol o -> Rabs (upper - lower) < 2 ^ K * xtol o ->
  ((K + 1) * (2 * K + 1) <= max_iter o)%nat ->
  solve_scalar_equation f fd o x0 lower upper = Answer a -> a_converged a = true.
Proof.
  intros Hd HW HK E. destruct (solve_cases x0 lower upper) as [[H Q]|[[H [e [He [Fe Q]]]]|[I Q]]]; rewrite Q in E.
  - discriminate.
  - now injection E as <-.
  - destruct (run f fd o (max_iter o) (initial f x0 lower upper) 0) as [[s it]|] eqn:R; [|discriminate].
    injection E as <-. cbn [a_converged].
    refine (run_converges lower upper (xtol o) K Hd _ (max_iter o) K K K _ 0%nat (le_n K) I _ _ _ _ s it R).
    + intros s0 s1 I0 S0 Hs. apply (step_inv lower upper s0 s1 I0 S0). now left.
    + unfold initial. cbn [sxl sxh]. destruct (is_pos (f lower)); [rewrite Rabs_minus_sym|]; exact HW.
    + unfold initial. cbn [s_old]. now rewrite Rabs_Rabsolu.
    + unfold initial. cbn [s_dx]. now rewrite Rabs_Rabsolu.
    + lia.
Qed.

(** with a residual tolerance instead: functions of bounded slope *)
Lemma lipschitz_on a b D : (forall x, between a b x -> is_derive f x (fd x)) -> (forall x, between a b x -> Rabs (fd x) <= D) ->
  forall x y, between a b x -> between a b y -> Rabs (f x - f y) <= D * Rabs (x - y).
Proof.
  intros Hf HD x y Hx Hy.
  destruct (MVT_gen f y x fd) as [c [Hc E]].
  - intros z Hz. apply Hf. minmax; lra.
  - intros z Hz. apply derivable_continuous_pt. exists (fd z). apply is_derive_Reals. apply Hf. minmax; lra.
  - rewrite E, Rabs_mult. apply Rmult_le_compat_r; [apply Rabs_pos|]. apply HD. minmax; lra.
Qed.

Theorem enough_iterations_residual x0 lower upper D K a :
  (forall x, between lower upper x -> is_derive f x (fd x)) -> (forall x, between lower upper x -> Rabs (fd x) <= D) ->
  0 < rtol o -> 2 * D * Rabs (upper - lower) < 2 ^ K * rtol o -> ((K + 1) * (2 * K + 1) <= max_iter o)%nat ->
  solve_scalar_equation f fd o x0 lower upper = Answer a -> a_converged a = true.
Proof.
  intros Hf HD Hr HW HK E. destruct (solve_cases x0 lower upper) as [[H Q]|[[H [e [He [Fe Q]]]]|[I Q]]]; rewrite Q in E.
  - discriminate.
  - now injection E as <-.
  - destruct (run f fd o (max_iter o) (initial f x0 lower upper) 0) as [[s it]|] eqn:R; [|discriminate].
    injection E as <-. cbn [a_converged].
    assert (D0 : 0 <= D).
    { apply Rle_trans with (Rabs (fd lower)); [apply Rabs_pos|apply HD; minmax; lra]. }
    assert (Dw : exists d, 0 < d /\ 2 * D * d <= rtol o /\ Rabs (upper - lower) < 2 ^ K * d).
    { assert (P2 : 0 < 2 ^ K) by (apply pow_lt; lra).
      destruct (Req_EM_T D 0) as [Dz|Dn].
      - exists (Rabs (upper - lower) / 2 ^ K + 1).
        assert (0 <= Rabs (upper - lower) / 2 ^ K) by (apply Rdiv_le_0_compat; [apply Rabs_pos|exact P2]).
        split; [lra|]. split; [rewrite Dz; lra|]. rewrite Rmult_plus_distr_l.
        replace (2 ^ K * (Rabs (upper - lower) / 2 ^ K)) with (Rabs (upper - lower)) by (field; lra). lra.
      - assert (Dp : 0 < D) by lra. exists (rtol o / (2 * D)). split; [apply Rdiv_lt_0_compat; lra|].
        split; [apply Req_le; field; lra|]. apply (Rmult_lt_reg_l (2 * D)); [lra|].
        replace (2 * D * (2 ^ K * (rtol o / (2 * D)))) with (2 ^ K * rtol o) by (field; lra). exact HW. }
    destruct Dw as [d [Hd [Hdr HWd]]].
    refine (run_converges lower upper d K Hd _ (max_iter o) K K K _ 0%nat (le_n K) I _ _ _ _ s it R).
    + intros s0 s1 I0 S0 Hs. destruct (step_inv lower upper s0 s1 I0 S0) as [P [I1 [_ [Bx [_ [_ Go]]]]]].
      apply Go. right. destruct I0 as [J1 J2 J3 J4 J5].
      assert (B1 : between lower upper (sx s1)) by (clear - Bx J4 J5; minmax; lra).
      assert (B0 : between lower upper (sx s0)) by (clear - J1 J4 J5; minmax; lra).
      assert (L1 := Rabs_pos (s_dx s1)).
      destruct P as [P1 P2|P0 P1 P2 P3].
      * assert (X1 := lipschitz_on lower upper D Hf HD (sx s1) (sxl s0) B1 J4).
        assert (X2 := lipschitz_on lower upper D Hf HD (sx s1) (sxh s0) B1 J5).
        replace (sx s1 - sxl s0) with (s_dx s1) in X1 by lra.
        replace (sx s1 - sxh s0) with (- s_dx s1) in X2 by lra. rewrite Rabs_Ropp in X2.
        destruct (Rlt_dec (2 * D * Rabs (s_dx s1)) (rtol o)) as [Z|Z].
        -- unfold Rabs in *. repeat destruct (Rcase_abs _); nra.
        -- exfalso. destruct (Req_EM_T D 0) as [->|Dn]; [lra|]. nra.
      * assert (X1 := lipschitz_on lower upper D Hf HD (sx s1) (sx s0) B1 B0).
        replace (sx s1 - sx s0) with (- s_dx s1) in X1 by lra. rewrite Rabs_Ropp in X1.
        assert (X2 : Rabs (f (sx s0)) <= D * Rabs (s_dx s1)).
        { replace (f (sx s0)) with (fd (sx s0) * s_dx s1) by (rewrite P1; field; exact P0).
          rewrite Rabs_mult. apply Rmult_le_compat_r; [exact L1|now apply HD]. }
        assert (X3 : Rabs (f (sx s1)) <= 2 * D * Rabs (s_dx s1)).
        { replace (f (sx s1)) with ((f (sx s1) - f (sx s0)) + f (sx s0)) by ring. eapply Rle_trans; [apply Rabs_triang|]. lra. }
        destruct (Req_EM_T D 0) as [Dz|Dn]; [rewrite Dz in X3; lra|]. nra.
    + unfold initial. cbn [sxl sxh]. destruct (is_pos (f lower)); [rewrite Rabs_minus_sym|]; exact HWd.
    + unfold initial. cbn [s_old]. now rewrite Rabs_Rabsolu.
    + unfold initial. cbn [s_dx]. now rewrite Rabs_Rabsolu.
    + lia.
Qed.
End Facts.

(** a bracketing interval contains a root of a continuous function *)
Lemma root_between f a b : (forall x, between a b x -> continuous f x) -> f a * f b <= 0 ->
  exists r, between a b r /\ f r = 0.
Proof.
  intros Hc Hs.
  destruct (C0_extension_le f (Rmin a b) (Rmax a b)) as [g [Hg Eg]].
  { intros x Hx. apply Hc. exact Hx. }
  destruct (IVT_gen g a b 0) as [r [Hr E]].
  - intros x. apply continuity_pt_filterlim. apply Hg.
  - rewrite (Eg a), (Eg b) by (minmax; lra). destruct (Rle_dec (f a) (f b)) as [L|L].
    + rewrite Rmin_left, Rmax_right by lra. nra.
    + rewrite Rmin_right, Rmax_left by lra. nra.
  - exists r. split; [exact Hr|]. rewrite <- (Eg r) by exact Hr. exact E.
Qed.
