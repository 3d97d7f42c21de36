(** * Properties C28, C29, C30: the nonlinear solvers *)
From Coq Require Import Reals.
From Verif Require Import Sums Tensor Newton TrustRegion TrustLoop NewtonEx.
Local Open Scope R_scope.

(** ** C28, Newton *)
(** every residual operator that does not throw at the starting point; [huge] is the largest double *)
Theorem C28_newton_converged : forall huge sys o x r0 r n0,
  sys_res sys x = Some r -> sys_norm sys r = Some n0 -> Rmax (o_rel o * n0) (o_abs o) < huge ->
  res_verdict (newton huge sys o x r0) = Converged ->
  exists rf nf, sys_res sys (pt_x (res_pt (newton huge sys o x r0))) = Some rf /\ sys_norm sys rf = Some nf /\
    nf <= Rmax (o_rel o * n0) (o_abs o) /\ (o_min o <= res_iters (newton huge sys o x r0))%nat.
Proof. exact newton_converged. Qed.
Print Assumptions C28_newton_converged.
Theorem C28_newton_failed : forall huge sys o x r0 r n0,
  sys_res sys x = Some r -> sys_norm sys r = Some n0 ->
  res_verdict (newton huge sys o x r0) = Failed -> forall rf nf,
  sys_res sys (pt_x (res_pt (newton huge sys o x r0))) = Some rf -> sys_norm sys rf = Some nf ->
  res_iters (newton huge sys o x r0) = o_max o /\ (Rmax (o_rel o * n0) (o_abs o) < nf \/ (o_max o < o_min o)%nat).
Proof. exact newton_failed. Qed.
Print Assumptions C28_newton_failed.
Theorem C28_newton_limits : forall huge sys o x r0,
  (res_iters (newton huge sys o x r0) <= o_max o)%nat /\
  (pt_evals (res_pt (newton huge sys o x r0)) <= 1 + res_iters (newton huge sys o x r0) * (2 * o_ls o + 3))%nat.
Proof. exact newton_limits. Qed.
Print Assumptions C28_newton_limits.
Example C28_newton_case : let x := (fun _ => 0) : vec in let r := (fun i => 2 * x i - 6) : vec in
  sys_res affine_sys x = Some r /\ sys_norm affine_sys r = Some 6 /\
  (exists rz, sys_res affine_sys (shifted x (- 1) (sys_lin affine_sys x r)) = Some rz /\ sys_norm affine_sys rz = Some 0) /\
  Rmax (o_rel (tols 3) * 6) (o_abs (tols 3)) < 6.
Proof. exact affine_case. Qed.
(** what the caller is told, whatever an earlier solve reported *)
Theorem C28_flag : forall before huge sys o x r0 r n0, sys_res sys x = Some r -> sys_norm sys r = Some n0 -> Rmax (o_rel o * n0) (o_abs o) < huge ->
  let res := newton huge sys o x r0 in res_verdict res <> Undefined -> forall rf nf, sys_res sys (pt_x (res_pt res)) = Some rf -> sys_norm sys rf = Some nf ->
  (reported before (res_verdict res) = true -> nf <= Rmax (o_rel o * n0) (o_abs o)) /\ (reported before (res_verdict res) = false -> Rmax (o_rel o * n0) (o_abs o) < nf \/ (o_max o < o_min o)%nat).
Proof. exact flag_honest. Qed.
Print Assumptions C28_flag.
(** a NaN residual ends the solve without touching the flag: an earlier "converged" stays *)
Theorem C28_nan_flag_refuted : forall huge x r0,
  res_verdict (newton huge nan_sys (tols 3) x r0) = Undefined /\
  reported true (res_verdict (newton huge nan_sys (tols 3) x r0)) = true.
Proof. exact nan_keeps_flag. Qed.
Print Assumptions C28_nan_flag_refuted.
(** a throw at the starting point makes the goal rel_tol times the largest double: residual 5 with abs_tol 1/100 "converges" *)
Theorem C28_first_throw_refuted : forall huge, 10000 <= huge ->
  let res := newton huge throwing_sys {| o_rel := / 1000; o_abs := / 100; o_min := 0; o_max := 5; o_ls := 0 |} (fun _ => 0) (fun _ => 1) in
  res_verdict res = Converged /\ sys_norm throwing_sys (pt_r (res_pt res)) = Some 5.
Proof. exact throwing_converges. Qed.
Print Assumptions C28_first_throw_refuted.

(** ** C28, trust region *)
Theorem C28_trust_region_converged : forall huge n ts o scaling cg x r n0 res, 0 < scaling -> (0 < n)%nat ->
  sys_res (ts_sys ts) x = Some r -> sys_norm (ts_sys ts) r = Some n0 -> Rmax (o_rel o * n0) (o_abs o) < huge ->
  tr_solve huge n ts o scaling cg x = Some res -> res_verdict res = Converged ->
  exists rf nf, sys_res (ts_sys ts) (pt_x (res_pt res)) = Some rf /\ sys_norm (ts_sys ts) rf = Some nf /\
    nf <= Rmax (o_rel o * n0) (o_abs o) /\ (o_min o <= res_iters res)%nat.
Proof. exact tr_converged. Qed.
Print Assumptions C28_trust_region_converged.
Theorem C28_trust_region_limits : forall huge n ts o scaling cg x res, 0 < scaling -> (0 < n)%nat ->
  tr_solve huge n ts o scaling cg x = Some res ->
  (res_iters res <= o_max o)%nat /\ (pt_evals (res_pt res) <= 1 + res_iters res * (o_ls o + 1))%nat /\
  (res_verdict res = Failed -> res_iters res = o_max o) /\ (res_verdict res = Undefined -> pt_norm (res_pt res) = None).
Proof. exact tr_limits. Qed.
Print Assumptions C28_trust_region_limits.
Example C28_trust_region_case : exists res,
  tr_solve 1000 1 affine_tr once 10 1 (fun _ => 0) = Some res /\ res_verdict res = Converged /\ res_iters res = 1%nat.
Proof. exact affine_tr_solve. Qed.

(** ** C29 *)
Theorem C29_line_search : forall huge sys ls pt, honest huge sys pt ->
  let '(cuts, p) := newton_iteration huge sys ls pt in
  honest huge sys p /\ (pt_evals p <= pt_evals pt + 2 * ls + 3)%nat /\ (cuts <= 2 * ls + 1)%nat /\
  let c := sys_lin sys (pt_x pt) (pt_r pt) in
  (ls = 0%nat -> pt_x p = shifted (pt_x pt) (- 1) c) /\
  ((0 < ls)%nat -> nltb (pt_norm p) (pt_norm pt) = true \/
     (cuts = (2 * ls + 1)%nat /\ pt_x p = shifted (pt_x pt) (- (0.5 ^ (S ls))) c)) /\
  (exists k sign, (k <= S ls)%nat /\ (sign = 1 \/ sign = - 1) /\ pt_x p = shifted (pt_x pt) (sign * 0.5 ^ k) c).
Proof. exact newton_iteration_spec. Qed.
Print Assumptions C29_line_search.
Example C29_line_search_case : honest 1000 steep_sys steep_start /\
  fst (newton_iteration 1000 steep_sys 5 steep_start) = 2%nat /\
  forall i, pt_x (snd (newton_iteration 1000 steep_sys 5 steep_start)) i = 0.
Proof. exact steep_case. Qed.
Theorem C29_affine_one_step : forall huge sys o x r0 r n0,
  sys_res sys x = Some r -> sys_norm sys r = Some n0 -> 0 < n0 ->
  (exists rz, sys_res sys (shifted x (- 1) (sys_lin sys x r)) = Some rz /\ sys_norm sys rz = Some 0) ->
  0 <= o_abs o -> Rmax (o_rel o * n0) (o_abs o) < n0 -> (o_min o <= 1)%nat -> (1 <= o_max o)%nat ->
  res_verdict (newton huge sys o x r0) = Converged /\ res_iters (newton huge sys o x r0) = 1%nat /\
  pt_x (res_pt (newton huge sys o x r0)) = shifted x (- 1) (sys_lin sys x r).
Proof. exact newton_affine. Qed.
Print Assumptions C29_affine_one_step.

(** ** C30: [None] is an undefined step (division by zero) *)
Theorem C30_boundary_norm : forall n z d tr s,
  to_boundary z d tr (vdot n z z) (vdot n z d) (vdot n d d) = Some s -> vdot n s s = tr * tr.
Proof. exact to_boundary_norm. Qed.
Print Assumptions C30_boundary_norm.
Theorem C30_boundary_between_norm : forall n z y tr s,
  to_boundary_between z y tr (vdot n z z) (vdot n z y) (vdot n y y) = Some s -> vdot n s s = tr * tr.
Proof. exact to_boundary_between_norm. Qed.
Print Assumptions C30_boundary_between_norm.
Theorem C30_dogleg : forall n cp np tr, 0 < tr -> exists s, dogleg n cp np tr = Some s /\ vdot n s s <= tr * tr.
Proof. intros n cp np tr Ht. destruct (dogleg_total n cp np tr Ht) as [s E]. exact (ex_intro _ s (conj E (dogleg_within _ _ _ _ _ E))). Qed.
Print Assumptions C30_dogleg.
Theorem C30_cg : forall n H P tr tol m mx r0 z st, cg_solve n H P tr tol m mx r0 = Some (z, st) ->
  vdot n z z <= tr * tr /\ (st <> Interior -> vdot n z z = tr * tr).
Proof. exact cg_within. Qed.
Print Assumptions C30_cg.
Theorem C30_cg_defined : forall n H P tr tol mx r0, (forall r, vdot n r r <> 0 -> 0 < vdot n r (P r)) ->
  exists z st, cg_solve n H P tr tol 0 mx r0 = Some (z, st).
Proof. exact cg_total. Qed.
Print Assumptions C30_cg_defined.
(** the quadratic model is not increased by the solve *)
Theorem C30_cg_decreases : forall n H P tr tol m mx r0 z st, symmetric_linear n H -> (forall r, 0 <= vdot n r (P r)) ->
  cg_solve n H P tr tol m mx r0 = Some (z, st) -> quadratic_model n H r0 z <= 0.
Proof. exact cg_model_decreases. Qed.
Print Assumptions C30_cg_decreases.
Example C30_cg_case : symmetric_linear 2 saddle /\ (forall r : vec, vdot 2 r r <> 0 -> 0 < vdot 2 r r) /\
  exists z, cg_solve 2 saddle (fun r => r) 3 (/ 10) 0 1 (fun i => if Nat.eqb i 0 then 0 else -1) = Some (z, NegativeCurvature) /\ vdot 2 z z = 9.
Proof. exact (conj saddle_sym (conj id_positive saddle_boundary)). Qed.
Theorem C30_proposal : forall n H P r tr tol mn mx cp z st, 0 < tr -> proposal n H P r tr tol mn mx = Some (cp, z, st) ->
  vdot n cp cp <= tr * tr /\ vdot n z z <= tr * tr.
Proof. exact proposal_within. Qed.
Print Assumptions C30_proposal.
(** one outer iteration: nothing moves and the radius shrinks, or a step within the radius is taken that meets the residual
    goal or lowers the work estimate (unless the model objective vanishes) *)
Theorem C30_outer_iteration : forall huge n ts goal H cp z st fuel s s', 0 < tr_size s ->
  trials huge n ts goal H cp z st fuel s = Some s' -> honest huge (ts_sys ts) (tr_pt s) ->
  honest huge (ts_sys ts) (tr_pt s') /\ 0 < tr_size s' /\ (pt_evals (tr_pt s') <= pt_evals (tr_pt s) + fuel)%nat /\
  ((pt_x (tr_pt s') = pt_x (tr_pt s) /\ pt_norm (tr_pt s') = pt_norm (tr_pt s) /\ tr_size s' = t1 ^ fuel * tr_size s) \/
   exists d, pt_x (tr_pt s') = (fun i => pt_x (tr_pt s) i + d i) /\ vdot n d d <= tr_size s * tr_size s /\
     (nleb (pt_norm (tr_pt s')) (Some goal) = true \/
      vdot n (pt_r (tr_pt s)) d + 0.5 * vdot n d (H d) = 0 \/
      (sys_res (ts_sys ts) (pt_x (tr_pt s')) = None /\ huge < 0) \/
      exists rp, sys_res (ts_sys ts) (pt_x (tr_pt s')) = Some rp /\ trial_work n (pt_r (tr_pt s)) d rp < 0)).
Proof. exact trials_spec. Qed.
Print Assumptions C30_outer_iteration.
Theorem C30_zero_model_refuted : at_least (rho_of (Some 1) 0) eta1 = true /\ at_least (rho_of (Some (-1)) 0) eta1 = false.
Proof. exact zero_model_accepts. Qed.
Print Assumptions C30_zero_model_refuted.
(** min_iterations >= 2 on a problem solved by the first iteration: the next one divides 0 by 0 *)
Theorem C30_minimum_iterations_refuted : cg_solve 1 (fun x => x) (fun r => r) 10 (/ 10) 2 2 (fun _ => 1) = None.
Proof. exact minimum_iterations_nan. Qed.
Print Assumptions C30_minimum_iterations_refuted.
