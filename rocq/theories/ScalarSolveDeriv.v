(** Derivative of the root, accuracy, and concrete cases for C21. *)
From Coq Require Import Reals Lra Lia Bool.
From Coquelicot Require Import Coquelicot.
From Verif Require Import Sums Dual LU LUDeriv ScalarSolve.
Local Open Scope R_scope.

(** ** implicit differentiation along a level curve *)
Theorem level_curve (F : R -> R -> R) (X : R -> R) (x0 t0 lx lt : R) :
  differentiable_pt_lim F x0 t0 lx lt -> lx <> 0 -> continuous X t0 -> X t0 = x0 ->
  locally t0 (fun t => F (X t) t = F x0 t0) -> is_derive X t0 (- lt / lx).
Proof.
  intros HF Nz HX E0 HL. apply is_derive_Reals. intros e He.
  assert (P : 0 < Rabs lx) by now apply Rabs_pos_lt.
  set (C := 2 * Rabs lt / Rabs lx + 1).
  assert (C1 : 1 <= C) by (unfold C; assert (0 <= 2 * Rabs lt / Rabs lx) by (apply Rdiv_le_0_compat; [generalize (Rabs_pos lt); lra|exact P]); lra).
  assert (Ceq : Rabs lx * C = 2 * Rabs lt + Rabs lx) by (unfold C; field; lra).
  set (p := Rmin (Rabs lx / 2) (e * Rabs lx / (2 * (C + 1)))).
  assert (P2 : 0 < e * Rabs lx / (2 * (C + 1))) by (apply Rdiv_lt_0_compat; [nra|lra]).
  assert (Pp : 0 < p) by (unfold p; apply Rmin_glb_lt; lra).
  assert (p1 : p <= Rabs lx / 2) by apply Rmin_l.
  assert (p2 : p * (2 * (C + 1)) <= e * Rabs lx).
  { apply Rle_trans with (e * Rabs lx / (2 * (C + 1)) * (2 * (C + 1))).
    - apply Rmult_le_compat_r; [lra|apply Rmin_r].
    - apply Req_le. field. lra. }
  destruct (HF (mkposreal p Pp)) as [d1 H1]. simpl in H1.
  destruct (cont_near X t0 d1 HX (cond_pos d1)) as [d2 H2]. destruct HL as [d3 H3].
  assert (Dm : 0 < Rmin d1 (Rmin d2 d3)) by (repeat apply Rmin_glb_lt; apply cond_pos).
  exists (mkposreal _ Dm). intros h Nh Hh. simpl in Hh.
  assert (A1 : Rabs h < d1) by (eapply Rlt_le_trans; [exact Hh|apply Rmin_l]).
  assert (A2 : Rabs h < d2) by (eapply Rlt_le_trans; [exact Hh|eapply Rle_trans; [apply Rmin_r|apply Rmin_l]]).
  assert (A3 : Rabs h < d3) by (eapply Rlt_le_trans; [exact Hh|eapply Rle_trans; [apply Rmin_r|apply Rmin_r]]).
  assert (Q : t0 + h - t0 = h) by ring.
  assert (B2 : Rabs (X (t0 + h) - X t0) < d1).
  { apply H2. change (Rabs (t0 + h - t0) < d2). now rewrite Q. }
  assert (B3 : F (X (t0 + h)) (t0 + h) = F x0 t0).
  { apply H3. change (Rabs (t0 + h - t0) < d3). now rewrite Q. }
  rewrite E0 in B2 |- *. set (k := X (t0 + h) - x0) in *.
  assert (B1 := H1 (X (t0 + h)) (t0 + h) B2). rewrite Q in B1. specialize (B1 A1). rewrite B3 in B1. fold k in B1.
  replace (F x0 t0 - F x0 t0 - (lx * k + lt * h)) with (- (lx * k + lt * h)) in B1 by ring. rewrite Rabs_Ropp in B1.
  assert (Hp : 0 < Rabs h) by now apply Rabs_pos_lt. assert (K0 := Rabs_pos k).
  assert (Mx : Rmax (Rabs k) (Rabs h) <= Rabs k + Rabs h) by (apply Rmax_lub; lra).
  assert (B4 : Rabs (lx * k + lt * h) <= p * (Rabs k + Rabs h)) by nra.
  assert (B5 : Rabs lx * Rabs k <= Rabs (lx * k + lt * h) + Rabs lt * Rabs h).
  { rewrite <- !Rabs_mult. replace (lx * k) with ((lx * k + lt * h) + - (lt * h)) at 1 by ring.
    eapply Rle_trans; [apply Rabs_triang|]. rewrite Rabs_Ropp. lra. }
  assert (B6 : Rabs k <= C * Rabs h).
  { apply (Rmult_le_reg_l (Rabs lx)); [exact P|]. rewrite <- Rmult_assoc, Ceq. nra. }
  assert (B7 : Rabs (lx * k + lt * h) <= p * (C + 1) * Rabs h) by nra.
  replace (k / h - - lt / lx) with ((lx * k + lt * h) / (lx * h)) by (field; split; assumption).
  unfold Rdiv. rewrite Rabs_mult, Rabs_inv, Rabs_mult. apply (Rmult_lt_reg_r (Rabs lx * Rabs h)); [nra|].
  rewrite Rmult_assoc, Rinv_l by nra. rewrite Rmult_1_r. nra.
Qed.

(** [F x t]: the function with its parameters at time [t] of any curve whose velocity is the gradient of the parameters *)
Theorem root_gradient_ok F fd o (t0 x0 lower upper df g : R) a (X : R -> R) :
  solve_scalar_equation (fun x => F x t0) fd o x0 lower upper = Answer a ->
  differentiable_pt_lim F (a_x a) t0 (fd (a_x a)) df ->
  continuous X t0 -> X t0 = a_x a -> locally t0 (fun t => F (X t) t = a_residual a) ->
  root_gradient a df = Some g -> is_derive X t0 g.
Proof.
  intros E HF HX X0 HL G. destruct (answer_facts _ _ _ _ _ _ _ E) as [_ [R [S _]]]. rewrite R in HL.
  unfold root_gradient in G. apply odiv_some in G. destruct G as [Nz ->]. rewrite S in *.
  exact (level_curve F X (a_x a) t0 (fd (a_x a)) df HF Nz HX X0 HL).
Qed.

(** ** accuracy: a root lies in the final bracket *)
Theorem root_bracketed f fd o x0 lower upper a : (forall x, between lower upper x -> continuous f x) ->
  solve_scalar_equation f fd o x0 lower upper = Answer a ->
  exists xl xh r, between lower upper xl /\ between lower upper xh /\ between xl xh (a_x a) /\ between xl xh r /\ f r = 0.
Proof.
  intros Hc E. destruct (answer_facts _ _ _ _ _ _ _ E) as [_ [_ [_ [_ [_ [xl [xh [H1 [H2 [H3 H4]]]]]]]]]].
  destruct (root_between f xl xh) as [r [Hr Er]].
  - intros x Hx. apply Hc. minmax; lra.
  - exact H4.
  - exists xl, xh, r. auto.
Qed.

(** a strictly monotone function with slope at least m in size: the distance to the root is bounded by residual / m *)
Theorem monotone_accuracy f fd o x0 lower upper a m : 0 < m ->
  (forall x, between lower upper x -> is_derive f x (fd x)) -> (forall x, between lower upper x -> m <= Rabs (fd x)) ->
  solve_scalar_equation f fd o x0 lower upper = Answer a ->
  exists r, between lower upper r /\ f r = 0 /\ Rabs (a_x a - r) <= Rabs (a_residual a) / m.
Proof.
  intros Hm Hf Hs E.
  destruct (root_bracketed f fd o x0 lower upper a) as [xl [xh [r [H1 [H2 [H3 [H4 H5]]]]]]]; [|exact E|].
  { intros x Hx. apply (cont_of_derive f x (fd x)). now apply Hf. }
  assert (Br : between lower upper r) by (clear - H1 H2 H4; minmax; lra).
  destruct (answer_facts _ _ _ _ _ _ _ E) as [Ba [R _]].
  exists r. split; [exact Br|]. split; [exact H5|].
  destruct (MVT_gen f r (a_x a) fd) as [c [Hc Q]].
  - intros z Hz. apply Hf. clear - Hz Ba Br. minmax; lra.
  - intros z Hz. apply derivable_continuous_pt. exists (fd z). apply is_derive_Reals. apply Hf. clear - Hz Ba Br. minmax; lra.
  - rewrite H5, Rminus_0_r in Q. rewrite R, Q, Rabs_mult.
    assert (Bc : between lower upper c) by (clear - Hc Ba Br; minmax; lra). specialize (Hs c Bc).
    apply (Rmult_le_reg_r m); [exact Hm|]. unfold Rdiv. rewrite Rmult_assoc, Rinv_l, Rmult_1_r by lra.
    assert (Z := Rabs_pos (a_x a - r)). nra.
Qed.

Lemma run_S f fd o k s it : run f fd o (S k) s it =
  if s_conv s then Some (s, it) else obind (step f fd o s) (fun s' => run f fd o k s' (S it)).
Proof. reflexivity. Qed.
Lemma run_done f fd o k s it : s_conv s = true -> run f fd o k s it = Some (s, it).
Proof. intros H. destruct k; cbn [run]; now rewrite H. Qed.

(** ** a root with zero slope: x^3 on [-1, 1] from x0 = 0 gives NaN *)
Definition default_options : options := {| xtol := 1 / 100000000; rtol := 0; max_iter := 25 |}.

Ltac decide_real := repeat match goal with
  | |- context [Rlt_dec ?a ?b] => destruct (Rlt_dec a b); try (exfalso; lra)
  | |- context [Req_EM_T ?a ?b] => destruct (Req_EM_T a b); try (exfalso; lra)
  end.

Lemma flat_root_nan : solve_scalar_equation (fun x => x * x * x) (fun x => 3 * x * x) default_options 0 (-1) 1 = NotANumber.
Proof.
  unfold solve_scalar_equation, is_pos, is_eq. decide_real. unfold default_options, max_iter. rewrite run_S.
  unfold initial at 1. cbn [s_conv]. unfold step at 1.
  set (s0 := initial _ _ _ _).
  assert (X0 : sx s0 = 0) by (unfold s0, initial, is_lt; cbn [sx]; decide_real; reflexivity).
  assert (Xl : sxl s0 = -1) by (unfold s0, initial, is_pos; cbn [sxl]; decide_real; reflexivity).
  assert (Xh : sxh s0 = 1) by (unfold s0, initial, is_pos; cbn [sxh]; decide_real; reflexivity).
  assert (B : bisects (fun x => x * x * x) (fun x => 3 * x * x) s0 = false).
  { unfold bisects, is_pos, is_neg, is_lt. rewrite X0, Xl, Xh.
    replace (s_old s0 * (3 * 0 * 0)) with 0 by ring. replace (2 * (0 * 0 * 0)) with 0 by ring.
    rewrite Rabs_R0. decide_real. reflexivity. }
  rewrite B, X0. unfold odiv. decide_real. reflexivity.
Qed.

(** ** a case that converges in one Newton step: 2x - 1 on [0, 1] from 0 *)
Lemma linear_example : exists a,
  solve_scalar_equation (fun x => 2 * x - 1) (fun _ => 2) {| xtol := 0; rtol := 1 / 1000; max_iter := 25 |} 0 0 1 = Answer a /\
  a_converged a = true /\ a_x a = 1 / 2 /\ a_iterations a = 1%nat.
Proof.
  unfold solve_scalar_equation, is_pos, is_eq. decide_real. unfold max_iter. rewrite run_S.
  unfold initial at 1. cbn [s_conv]. unfold step at 1.
  set (s0 := initial _ _ _ _).
  assert (X0 : sx s0 = 0) by (unfold s0, initial, is_lt; cbn [sx]; decide_real; reflexivity).
  assert (Xl : sxl s0 = 0) by (unfold s0, initial, is_pos; cbn [sxl]; decide_real; reflexivity).
  assert (Xh : sxh s0 = 1) by (unfold s0, initial, is_pos; cbn [sxh]; decide_real; reflexivity).
  assert (Xo : s_old s0 = 1) by (unfold s0, initial; cbn [s_old]; rewrite Rminus_0_r; apply Rabs_R1).
  assert (B : bisects (fun x => 2 * x - 1) (fun _ => 2) s0 = false).
  { unfold bisects, is_pos, is_neg, is_lt. rewrite X0, Xl, Xh, Xo. rewrite (Rabs_pos_eq (1 * 2)) by lra.
    rewrite (Rabs_left (2 * (2 * 0 - 1))) by lra. decide_real. reflexivity. }
  rewrite B, X0. unfold odiv. decide_real. cbn [obind]. cbv zeta.
  set (s1 := finish _ _ _ _ _ _).
  assert (S1 : sx s1 = 1 / 2) by (unfold s1, finish; cbn [sx]; lra).
  assert (C1 : s_conv s1 = true).
  { unfold s1, finish. cbn [s_conv]. apply orb_true_intro. right. unfold is_lt. cbn [rtol].
    replace (2 * (0 - (2 * 0 - 1) / 2) - 1) with 0 by lra. rewrite Rabs_R0. decide_real. reflexivity. }
  rewrite (run_done _ _ _ _ s1 _ C1). unfold report. eexists. split; [reflexivity|]. cbn [a_converged a_x a_iterations]. auto.
Qed.

Lemma flat_root_refutes : exists f fd x0 lower upper,
  (forall x, is_derive f x (fd x)) /\ f lower * f upper < 0 /\ lower <= x0 <= upper /\ f x0 = 0 /\
  solve_scalar_equation f fd default_options x0 lower upper = NotANumber.
Proof.
  exists (fun x => x * x * x), (fun x => 3 * x * x), 0, (-1), 1. split.
  - intros x. eapply d_ext; [apply (d_mult (fun x => x * x) (fun x => x)); [apply (d_mult (fun x => x) (fun x => x)); apply d_id|apply d_id]|].
    cbv beta. ring.
  - split; [lra|]. split; [lra|]. split; [lra|]. exact flat_root_nan.
Qed.

Lemma derivative_example : exists (F : R -> R -> R) (X : R -> R) a g,
  solve_scalar_equation (fun x => F x 1) (fun _ => 2) {| xtol := 0; rtol := 1 / 1000; max_iter := 25 |} 0 0 1 = Answer a /\
  differentiable_pt_lim F (a_x a) 1 2 (-1) /\ continuous X 1 /\ X 1 = a_x a /\
  locally 1 (fun t => F (X t) t = a_residual a) /\ root_gradient a (-1) = Some g /\ g = 1 / 2.
Proof.
  destruct linear_example as [a [E [C [Ex It]]]]. exists (fun x t => 2 * x - t), (fun t => t / 2), a, (1 / 2).
  destruct (answer_facts _ _ _ _ _ _ _ E) as [_ [R [S _]]].
  split; [exact E|]. split.
  { intros eps. exists eps. intros u v _ _.
    replace (2 * u - v - (2 * a_x a - 1) - (2 * (u - a_x a) + -1 * (v - 1))) with 0 by ring. rewrite Rabs_R0.
    apply Rmult_le_pos; [left; apply cond_pos|]. eapply Rle_trans; [apply Rabs_pos|apply Rmax_l]. }
  split.
  { apply (cont_of_derive _ _ (1 / 2)). eapply d_ext; [apply (d_mult (fun t => t) (fun _ => / 2)); [apply d_id|apply d_const]|].
    lra. }
  split; [rewrite Ex; lra|]. split.
  { apply filter_forall. intros t. rewrite R, Ex. cbv beta. lra. }
  split; [|reflexivity]. unfold root_gradient. rewrite S. rewrite odiv_ok by lra. f_equal. lra.
Qed.
