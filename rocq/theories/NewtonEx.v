(** * Concrete systems for the nonlinear solvers (C28, C29, C30) *)
From Coq Require Import Reals Lra Lia Bool.
From Verif Require Import Sums Tensor Newton TrustRegion TrustLoop.
Local Open Scope R_scope.

Definition abs_norm (r : vec) : num := Some (Rabs (r 0%nat)).
Definition tols (ls : nat) : options := {| o_rel := / 10; o_abs := / 100; o_min := 0; o_max := 5; o_ls := ls |}.

(** 2 x - 6 = 0 with the exact Jacobian solve *)
Definition affine_sys : system :=
  {| sys_res := fun x => Some (fun i => 2 * x i - 6); sys_norm := abs_norm; sys_lin := fun _ r i => r i / 2 |}.
Lemma affine_case : let x := (fun _ => 0) : vec in let r := (fun i => 2 * x i - 6) : vec in
  sys_res affine_sys x = Some r /\ sys_norm affine_sys r = Some 6 /\
  (exists rz, sys_res affine_sys (shifted x (- 1) (sys_lin affine_sys x r)) = Some rz /\ sys_norm affine_sys rz = Some 0) /\
  Rmax (o_rel (tols 3) * 6) (o_abs (tols 3)) < 6.
Proof.
  intros x r. unfold r, x. split; [reflexivity|]. split.
  { cbn [affine_sys sys_norm]. unfold abs_norm. cbv beta. f_equal. rewrite Rabs_left1; lra. }
  split.
  - eexists. split; [reflexivity|]. cbn [affine_sys sys_norm sys_lin]. unfold abs_norm, shifted. f_equal.
    rewrite <- Rabs_R0. f_equal. field.
  - cbn [tols o_rel o_abs]. apply Rmax_lub_lt; lra.
Qed.

(** a Jacobian solve that overshoots fourfold: two cut-backs are needed *)
Definition steep_sys : system :=
  {| sys_res := fun x => Some x; sys_norm := abs_norm; sys_lin := fun _ r i => 4 * r i |}.
Definition steep_start : point := {| pt_x := fun _ => 1; pt_r := fun _ => 1; pt_norm := Some 1; pt_evals := 1 |}.
Lemma eval_steep x r e : eval_at 1000 steep_sys x r e = {| pt_x := x; pt_r := x; pt_norm := abs_norm x; pt_evals := S e |}.
Proof. reflexivity. Qed.
Lemma steep_case : honest 1000 steep_sys steep_start /\ fst (newton_iteration 1000 steep_sys 5 steep_start) = 2%nat /\
  forall i, pt_x (snd (newton_iteration 1000 steep_sys 5 steep_start)) i = 0.
Proof.
  split.
  { unfold honest. cbn. split; [reflexivity|]. unfold abs_norm. rewrite Rabs_R1. reflexivity. }
  unfold newton_iteration. cbn [steep_start pt_x pt_r pt_norm pt_evals].
  assert (N1 : nltb (abs_norm (shifted (fun _ => 1) (-1) (fun _ => 4 * 1))) (Some 1) = false).
  { unfold abs_norm, shifted. cbn [nltb]. unfold rltb. destruct (Rlt_dec _ _) as [H|H]; [|reflexivity].
    rewrite Rabs_left1 in H by lra. lra. }
  assert (N2 : nltb (abs_norm (shifted (fun _ => 1) (-1 * (1 * 0.5)) (fun _ => 4 * 1))) (Some 1) = false).
  { unfold abs_norm, shifted. cbn [nltb]. unfold rltb. destruct (Rlt_dec _ _) as [H|H]; [|reflexivity].
    rewrite Rabs_left1 in H by lra. lra. }
  assert (N3 : nltb (abs_norm (shifted (fun _ => 1) (-1 * (1 * 0.5 * 0.5)) (fun _ => 4 * 1))) (Some 1) = true).
  { unfold abs_norm, shifted. cbn [nltb]. apply rltb_true. assert (E : 1 + -1 * (1 * 0.5 * 0.5) * (4 * 1) = 0) by lra.
    rewrite E, Rabs_R0. lra. }
  cbn [backtrack]. rewrite !eval_steep. cbn [pt_norm pt_r pt_evals steep_sys sys_lin]. rewrite N1, N2, N3. cbn [pt_norm].
  rewrite N3. cbn [negb]. rewrite andb_false_r. cbn [fst snd pt_x]. split; [reflexivity|]. intros i. unfold shifted. lra.
Qed.

(** a residual whose norm is NaN everywhere *)
Definition nan_sys : system := {| sys_res := fun x => Some x; sys_norm := fun _ => None; sys_lin := fun _ r => r |}.
Lemma nan_keeps_flag huge x r0 :
  res_verdict (newton huge nan_sys (tols 3) x r0) = Undefined /\
  reported true (res_verdict (newton huge nan_sys (tols 3) x r0)) = true.
Proof. split; reflexivity. Qed.

(** a residual that throws at the starting point and has norm 5 everywhere else *)
Definition throwing_sys : system :=
  {| sys_res := fun x => if Req_EM_T (x 0%nat) 0 then None else Some (fun _ => 5); sys_norm := abs_norm; sys_lin := fun _ r => r |}.
Lemma throwing_converges huge : 10000 <= huge ->
  let res := newton huge throwing_sys {| o_rel := / 1000; o_abs := / 100; o_min := 0; o_max := 5; o_ls := 0 |} (fun _ => 0) (fun _ => 1) in
  res_verdict res = Converged /\ sys_norm throwing_sys (pt_r (res_pt res)) = Some 5.
Proof.
  intros Hh. unfold newton.
  assert (E0 : eval_at huge throwing_sys (fun _ => 0) (fun _ => 1) 0 =
    {| pt_x := fun _ => 0; pt_r := fun _ => 1; pt_norm := Some huge; pt_evals := 1 |}).
  { unfold eval_at. cbn [throwing_sys sys_res]. destruct (Req_EM_T 0 0); [reflexivity|lra]. }
  rewrite E0. cbn [pt_norm o_rel o_abs o_max]. rewrite smax_spec.
  set (g := Rmax (/ 1000 * huge) (/ 100)). assert (G1 : 10 <= g) by (unfold g; eapply Rle_trans; [|apply Rmax_l]; lra).
  assert (G2 : g < huge) by (unfold g; apply Rmax_lub_lt; lra).
  cbn [newton_loop pt_norm o_min]. assert (N : rleb huge g = false) by (unfold rleb; destruct (Rle_dec huge g); [lra|reflexivity]).
  rewrite N. cbn [andb].
  assert (It : snd (newton_iteration huge throwing_sys 0 {| pt_x := fun _ => 0; pt_r := fun _ => 1; pt_norm := Some huge; pt_evals := 1 |}) =
    {| pt_x := shifted (fun _ => 0) (- 1) (fun _ => 1); pt_r := fun _ => 5; pt_norm := Some (Rabs 5); pt_evals := 2 |}).
  { unfold newton_iteration. cbn [pt_x pt_r pt_norm pt_evals].
    assert (E1 : eval_at huge throwing_sys (shifted (fun _ => 0) (-1) (sys_lin throwing_sys (fun _ => 0) (fun _ => 1))) (fun _ => 1) 1 =
      {| pt_x := shifted (fun _ => 0) (- 1) (fun _ => 1); pt_r := fun _ => 5; pt_norm := Some (Rabs 5); pt_evals := 2 |}).
    { unfold eval_at. cbn [throwing_sys sys_res sys_lin sys_norm]. unfold shifted at 1. destruct (Req_EM_T _ 0); [lra|reflexivity]. }
    rewrite E1. cbn [backtrack]. destruct (nltb _ _); reflexivity. }
  cbn [o_ls]. rewrite It. cbn [newton_loop pt_norm]. assert (Y : rleb (Rabs 5) g = true) by (apply rleb_true; rewrite Rabs_right; lra).
  rewrite Y. cbn [andb Nat.leb o_min res_verdict res_pt pt_r]. split; [reflexivity|].
  cbn [throwing_sys sys_norm]. unfold abs_norm. rewrite Rabs_right by lra. reflexivity.
Qed.

(** ** trust region *)
Lemma vdot1 (x y : vec) : vdot 1 x y = x 0%nat * y 0%nat.
Proof. unfold vdot. cbn [sumn]. ring. Qed.
Lemma id_positive : forall r : vec, vdot 2 r r <> 0 -> 0 < vdot 2 r r.
Proof. intros r H. pose proof (vdot_nonneg 2 r). lra. Qed.
(** an indefinite Hessian diag(1, -1) *)
Definition saddle : vec -> vec := fun x i => if Nat.eqb i 0 then x i else - x i.
Lemma saddle_sym : symmetric_linear 2 saddle.
Proof.
  split.
  - intros i. unfold saddle. destruct (Nat.eqb i 0); ring.
  - intros z t d i. unfold saddle, add_scaled. destruct (Nat.eqb i 0); ring.
  - intros x y. unfold vdot, saddle. cbn [sumn Nat.eqb]. ring.
Qed.
(** the direction (0, 1) has negative curvature: the solve goes to the boundary *)
Lemma saddle_boundary : exists z, cg_solve 2 saddle (fun r => r) 3 (/ 10) 0 1 (fun i => if Nat.eqb i 0 then 0 else -1) = Some (z, NegativeCurvature) /\
  vdot 2 z z = 9.
Proof.
  assert (Run : exists z, cg_solve 2 saddle (fun r => r) 3 (/ 10) 0 1 (fun i => if Nat.eqb i 0 then 0 else -1) = Some (z, NegativeCurvature)).
  { unfold cg_solve. assert (V : vdot 2 (fun i => if Nat.eqb i 0 then 0 else -1) (fun i => if Nat.eqb i 0 then 0 else -1) = 1)
      by (unfold vdot; cbn; lra).
    rewrite V. assert (L : rleb 1 (/ 10 * / 10) = false) by (unfold rleb; destruct (Rle_dec _ _); [lra|reflexivity]). rewrite L. cbn [andb].
    cbn [cg_loop cg_start cg_d cg_z cg_zz cg_zd cg_dd cg_rPr cg_r].
    set (d := fun i => 0 + -1 * (if Nat.eqb i 0 then 0 else -1)).
    assert (C : vdot 2 d (saddle d) = -1) by (unfold vdot, saddle, d; cbn; lra). rewrite C.
    destruct (Rle_dec (-1) 0) as [_|N]; [|lra].
    assert (Dd : vdot 2 d d = 1) by (unfold vdot, d; cbn; lra). rewrite Dd. unfold to_boundary.
    destruct (boundary_tau_total 3 0 0 1 ltac:(lra) ltac:(lra)) as [tau [E _]]. rewrite E. eauto. }
  destruct Run as [z E]. exists z. split; [exact E|]. destruct (cg_within _ _ _ _ _ _ _ _ _ _ E) as [_ B]. rewrite B; [lra|discriminate].
Qed.
(** a positive minimum iteration count makes the solve go on from an exact solution, and divide 0 by 0 *)
Lemma minimum_iterations_nan : cg_solve 1 (fun x => x) (fun r => r) 10 (/ 10) 2 2 (fun _ => 1) = None.
Proof.
  unfold cg_solve. rewrite !vdot1. cbn [Nat.leb]. rewrite andb_false_r.
  cbn [cg_loop cg_start cg_d cg_z cg_zz cg_zd cg_dd cg_rPr cg_r]. rewrite !vdot1.
  destruct (Req_EM_T ((0 + -1 * 1) * (0 + -1 * 1)) 0) as [|Nc]; [lra|]. destruct (Rle_dec _ 0) as [|_]; [lra|].
  assert (A : 1 * 1 / ((0 + -1 * 1) * (0 + -1 * 1)) = 1) by field. rewrite A. unfold add_scaled.
  destruct (Rlt_dec _ _) as [|_]; [lra|]. cbn [Nat.leb]. rewrite andb_false_r.
  destruct (Req_EM_T (1 * 1) 0) as [|_]; [lra|].
  set (b := (1 + 1 * (0 + -1 * 1)) * (1 + 1 * (0 + -1 * 1)) / (1 * 1)). assert (B : b = 0) by (unfold b; field). rewrite B.
  assert (D : (-1 * (1 + 1 * (0 + -1 * 1)) + 0 * (0 + -1 * 1)) = 0) by lra. rewrite D, !Rmult_0_l.
  destruct (Rle_dec 0 0) as [_|N]; [|lra]. unfold to_boundary, boundary_tau. destruct (Req_EM_T 0 0) as [_|N]; [reflexivity|lra].
Qed.
(** a vanishing model objective: a step that increases the work estimate passes the ratio test *)
Lemma zero_model_accepts : at_least (rho_of (Some 1) 0) eta1 = true /\ at_least (rho_of (Some (-1)) 0) eta1 = false.
Proof.
  unfold rho_of. destruct (Rlt_dec 0 0) as [L|_]; [lra|]. unfold divide.
  destruct (Req_EM_T (- 0) 0) as [_|N]; [|lra]. split.
  - destruct (Rlt_dec 0 (- (1))) as [L|_]; [lra|]. destruct (Rlt_dec (- (1)) 0) as [_|N]; [reflexivity|lra].
  - destruct (Rlt_dec 0 (- -1)) as [_|N]; [reflexivity|lra].
Qed.
(** a full trust-region solve of 2 x - 6 = 0 *)
Definition affine_tr : tr_system := {| ts_sys := affine_sys; ts_hess := fun _ d i => 2 * d i; ts_prec := fun _ r => r |}.
Definition once : options := {| o_rel := / 10; o_abs := / 100; o_min := 0; o_max := 1; o_ls := 0 |}.
Lemma affine_tr_solve : exists res, tr_solve 1000 1 affine_tr once 10 1 (fun _ => 0) = Some res /\ res_verdict res = Converged /\ res_iters res = 1%nat.
Proof.
  unfold tr_solve. cbn [affine_tr ts_sys affine_sys sys_res sys_norm]. rewrite vdot1.
  assert (R0 : Rabs (2 * 0 - 6) = 6) by (rewrite Rabs_left1; lra). assert (AN : abs_norm (fun _ => 2 * 0 - 6) = Some 6) by (unfold abs_norm; rewrite R0; reflexivity).
  rewrite !AN. rewrite smax_spec, Rmult_1_r, sqrt_1.
  cbn [once o_rel o_abs o_max]. rewrite (Rmax_left (/ 10 * 6) (/ 100)) by lra. set (g := / 10 * 6). 
  cbn [tr_loop tr_pt pt_norm o_min].
  assert (N : rleb 6 g = false) by (unfold rleb, g; destruct (Rle_dec _ _); [lra|reflexivity]). rewrite N. cbn [andb].
  unfold tr_iteration. cbn [tr_pt pt_x pt_r pt_norm tr_size o_min o_ls ts_hess ts_prec].
  unfold proposal, cauchy. cbn [affine_tr ts_hess ts_prec]. rewrite !vdot1. cbv beta. destruct (Rlt_dec 0 _) as [_|L]; [|lra].
  set (cp := fun _ : nat => - ((2 * 0 - 6) * (2 * 0 - 6)) / ((2 * 0 - 6) * (2 * (2 * 0 - 6))) * (2 * 0 - 6)).
  assert (Ecp : cp 0%nat = 3) by (unfold cp; field; lra).
  assert (C9 : - ((2 * 0 - 6) * (2 * 0 - 6)) / ((2 * 0 - 6) * (2 * (2 * 0 - 6))) * (2 * 0 - 6) = 3) by (field; lra).
  rewrite !C9. destruct (Rle_dec _ _) as [L|_]; [lra|]. rewrite smax_spec.
  set (tol := Rmax _ _). assert (T1 : 0 <= tol < 1).
  { unfold tol, g. split; [eapply Rle_trans; [|apply Rmax_l]; lra|]. apply Rmax_lub_lt; cbn [pow]; lra. }
  unfold cg_solve. rewrite vdot1. assert (N2 : rleb ((2 * 0 - 6) * (2 * 0 - 6)) (tol * tol) = false)
    by (unfold rleb; destruct (Rle_dec _ _); [nra|reflexivity]). rewrite N2. cbn [andb].
  cbn [cg_loop cg_start cg_d cg_z cg_zz cg_zd cg_dd cg_rPr cg_r]. unfold add_scaled. rewrite !vdot1.
  destruct (Req_EM_T _ 0) as [|_]; [lra|]. destruct (Rle_dec _ 0) as [|_]; [lra|].
  assert (A : (2 * 0 - 6) * (2 * 0 - 6) / ((0 + -1 * (2 * 0 - 6)) * (2 * (0 + -1 * (2 * 0 - 6)))) = 0.5) by (field_simplify; lra).
  rewrite A. destruct (Rlt_dec _ _) as [|_]; [lra|].
  assert (Z : (2 * 0 - 6 + 0.5 * (2 * (0 + -1 * (2 * 0 - 6)))) = 0) by lra. rewrite Z.
  assert (Y : rleb (0 * 0) (tol * tol) = true) by (apply rleb_true; nra). rewrite Y. cbn [andb Nat.leb].
  cbn [once o_min o_ls Nat.leb]. cbn [trials tr_size tr_pt pt_r pt_x pt_evals]. unfold dogleg. rewrite !vdot1, !Ecp.
  destruct (Rle_dec _ _) as [|_]; [lra|]. destruct (Rlt_dec _ (3 * 3)) as [|_]; [lra|]. destruct (Rlt_dec _ _) as [|_]; [lra|].
  unfold eval_at. cbn [affine_tr ts_sys affine_sys sys_res sys_norm pt_norm]. unfold abs_norm at 1.
  assert (X : Rabs (2 * (0 + (0 + 0.5 * (0 + -1 * (2 * 0 - 6)))) - 6) = 0)
    by (transitivity (Rabs 0); [apply f_equal; lra|apply Rabs_R0]). rewrite X.
  assert (Y2 : rleb 0 g = true) by (apply rleb_true; unfold g; lra). cbn [nleb]. rewrite Y2. cbn [tr_loop tr_pt pt_norm].
  unfold abs_norm at 1. rewrite X, Y2. cbn [andb Nat.leb o_min]. eexists. split; [reflexivity|]. split; reflexivity.
Qed.
(** what the caller reads after a solve that was not cut short by a NaN *)
Lemma flag_honest before huge sys o x r0 r n0 : sys_res sys x = Some r -> sys_norm sys r = Some n0 -> Rmax (o_rel o * n0) (o_abs o) < huge ->
  let res := newton huge sys o x r0 in res_verdict res <> Undefined -> forall rf nf, sys_res sys (pt_x (res_pt res)) = Some rf -> sys_norm sys rf = Some nf ->
  (reported before (res_verdict res) = true -> nf <= Rmax (o_rel o * n0) (o_abs o)) /\ (reported before (res_verdict res) = false -> Rmax (o_rel o * n0) (o_abs o) < nf \/ (o_max o < o_min o)%nat).
Proof.
  intros H1 H2 H3 res HU rf nf E1 E2. destruct (res_verdict res) eqn:V; [| |congruence]; cbn [reported]; (split; [intros Q|intros Q]); try discriminate.
  - destruct (newton_converged huge sys o x r0 r n0 H1 H2 H3 V) as [rf' [nf' [A [B [C _]]]]]. fold res in A. rewrite E1 in A. injection A as <-. rewrite E2 in B. injection B as <-. exact C.
  - exact (proj2 (newton_failed huge sys o x r0 r n0 H1 H2 V rf nf E1 E2)).
Qed.
