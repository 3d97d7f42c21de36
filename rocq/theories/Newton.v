(** * Newton solver with line search (C28, C29)

    numerics/equation_solver.cpp, class NewtonSolver, over the reals.  A norm is [Some] real number or [None] (NaN): every
    comparison with NaN is false.  The residual operator may throw.  [huge] is the largest double. *)
From Coq Require Import Reals Lra Lia Bool List.
From Verif Require Import Sums Tensor.
Import ListNotations.
Local Open Scope R_scope.

Notation num := (option R) (only parsing).
Definition rltb (x y : R) : bool := if Rlt_dec x y then true else false.
Definition rleb (x y : R) : bool := if Rle_dec x y then true else false.
Definition nltb (x y : num) : bool := match x, y with Some a, Some b => rltb a b | _, _ => false end.
Definition nleb (x y : num) : bool := match x, y with Some a, Some b => rleb a b | _, _ => false end.
Lemma rltb_true x y : rltb x y = true <-> x < y.
Proof. unfold rltb. destruct (Rlt_dec x y); split; intros; auto; discriminate || contradiction. Qed.
Lemma rleb_true x y : rleb x y = true <-> x <= y.
Proof. unfold rleb. destruct (Rle_dec x y); split; intros; auto; discriminate || contradiction. Qed.

(** solver_config.hpp NonlinearSolverOptions; negative limits act like 0 *)
Record options := { o_rel : R; o_abs : R; o_min : nat; o_max : nat; o_ls : nat }.
(** the system: residual ([None] when it throws), norm, and the linear solve with the Jacobian at x applied to r *)
Record system := { sys_res : vec -> option vec; sys_norm : vec -> num; sys_lin : vec -> vec -> vec }.
(** current point, residual vector and norm, number of residual evaluations *)
Record point := { pt_x : vec; pt_r : vec; pt_norm : num; pt_evals : nat }.

Section Solver.
Variable huge : R.
Variable sys : system.

(** equation_solver.cpp:42-53 evaluateNorm: when the residual throws, the norm is [huge] and the residual vector keeps its
    old entries *)
Definition eval_at (x : vec) (r : vec) (evals : nat) : point :=
  match sys_res sys x with
  | Some r' => {| pt_x := x; pt_r := r'; pt_norm := sys_norm sys r'; pt_evals := S evals |}
  | None => {| pt_x := x; pt_r := r; pt_norm := Some huge; pt_evals := S evals |}
  end.
Definition shifted (x0 : vec) (s : R) (c : vec) : vec := fun i => x0 i + s * c i.

(** equation_solver.cpp:151-157 and 164-170: "for (; !is_improved(norm) && ls_iter < max; ++ls_iter)"; [fuel] is
    max - ls_iter; returns ls_iter, stepScale and the point.  The decrease parameter is 0 (line 141), so is_improved is
    currentNorm < norm_nm1. *)
Fixpoint backtrack (x0 c : vec) (sign : R) (old : num) (fuel used : nat) (scale : R) (pt : point) : nat * R * point :=
  if nltb (pt_norm pt) old then (used, scale, pt) else
  match fuel with
  | O => (used, scale, pt)
  | S k => backtrack x0 c sign old k (S used) (scale * 0.5)
             (eval_at (shifted x0 (sign * (scale * 0.5)) c) (pt_r pt) (pt_evals pt))
  end.

(** equation_solver.cpp:123-177: one iteration; also returns ls_iter_sum *)
Definition newton_iteration (ls : nat) (pt : point) : nat * point :=
  let x0 := pt_x pt in
  let old := pt_norm pt in
  let c := sys_lin sys x0 (pt_r pt) in
  let p1 := eval_at (shifted x0 (- 1) c) (pt_r pt) (pt_evals pt) in
  let '(it1, s1, p2) := backtrack x0 c (- 1) old ls 0 1 p1 in
  if (Nat.ltb 0 ls && Nat.eqb it1 ls && negb (nltb (pt_norm p2) old))%bool then
    let p3 := eval_at (shifted x0 1 c) (pt_r p2) (pt_evals p2) in
    let '(it2, s2, p4) := backtrack x0 c 1 old ls 0 1 p3 in
    if (Nat.eqb it2 ls && negb (nltb (pt_norm p4) old))%bool then
      (it1 + it2 + 1, eval_at (shifted x0 (- (s2 * 0.5)) c) (pt_r p4) (pt_evals p4))%nat
    else (it1 + it2, p4)%nat
  else (it1, p2).

Inductive verdict := Converged | Failed | Undefined.
Record result := { res_pt : point; res_verdict : verdict; res_iters : nat; res_goal : R }.

(** equation_solver.cpp:98-190: the main loop; [fuel] is max_iter - it *)
Fixpoint newton_loop (o : options) (goal : R) (fuel it : nat) (pt : point) : result :=
  let stop v := {| res_pt := pt; res_verdict := v; res_iters := it; res_goal := goal |} in
  match pt_norm pt with
  | None => stop Undefined
  | Some nrm =>
      if (rleb nrm goal && Nat.leb (o_min o) it)%bool then stop Converged else
      match fuel with
      | O => stop Failed
      | S k => newton_loop o goal k (S it) (snd (newton_iteration (o_ls o) pt))
      end
  end.
(** std::max(a, b) *)
Definition smax (a b : R) : R := if rltb a b then b else a.
(** equation_solver.cpp:81-202 NewtonSolver::Mult; [r0] is whatever the residual buffer held before *)
Definition newton (o : options) (x r0 : vec) : result :=
  let p := eval_at x r0 0 in
  match pt_norm p with
  | None => {| res_pt := p; res_verdict := Undefined; res_iters := 0; res_goal := 0 |}
  | Some n0 => newton_loop o (smax (o_rel o * n0) (o_abs o)) (o_max o) 0 p
  end.
(** what GetConverged() says afterwards: lines 109-113 return before the flag is written *)
Definition reported (before : bool) (v : verdict) : bool :=
  match v with Converged => true | Failed => false | Undefined => before end.

(** ** invariants *)
(** the point is what the system says about it *)
Definition honest (pt : point) : Prop :=
  match sys_res sys (pt_x pt) with
  | Some r => pt_r pt = r /\ pt_norm pt = sys_norm sys r
  | None => pt_norm pt = Some huge
  end.
Lemma eval_honest x r e : honest (eval_at x r e).
Proof. unfold honest, eval_at. destruct (sys_res sys x) eqn:E; cbn [pt_x pt_r pt_norm]; rewrite E; auto. Qed.
Lemma eval_x x r e : pt_x (eval_at x r e) = x.
Proof. unfold eval_at. destruct (sys_res sys x); reflexivity. Qed.
Lemma eval_evals x r e : pt_evals (eval_at x r e) = S e.
Proof. unfold eval_at. destruct (sys_res sys x); reflexivity. Qed.

Lemma backtrack_spec x0 c sign old fuel : forall used scale pt,
  honest pt -> pt_x pt = shifted x0 (sign * scale) c ->
  let '(it, s, p) := backtrack x0 c sign old fuel used scale pt in
  honest p /\ pt_x p = shifted x0 (sign * s) c /\ s = scale * 0.5 ^ (it - used) /\ (used <= it <= used + fuel)%nat /\
  pt_evals p = (pt_evals pt + (it - used))%nat /\
  (nltb (pt_norm p) old = false -> it = (used + fuel)%nat).
Proof.
  induction fuel as [|k IH]; intros used scale pt H X; cbn [backtrack]; destruct (nltb (pt_norm pt) old) eqn:E.
  - rewrite PeanoNat.Nat.sub_diag. cbn [pow]. split; [exact H|]. split; [exact X|]. split; [ring|]. split; [lia|]. split; [lia|congruence].
  - rewrite PeanoNat.Nat.sub_diag. cbn [pow]. split; [exact H|]. split; [exact X|]. split; [ring|]. split; [lia|]. split; lia.
  - rewrite PeanoNat.Nat.sub_diag. cbn [pow]. split; [exact H|]. split; [exact X|]. split; [ring|]. split; [lia|]. split; [lia|congruence].
  - assert (Y := IH (S used) (scale * 0.5) (eval_at (shifted x0 (sign * (scale * 0.5)) c) (pt_r pt) (pt_evals pt))
      (eval_honest _ _ _) (eval_x _ _ _)).
    destruct (backtrack x0 c sign old k (S used) (scale * 0.5) _) as [[it s] p].
    destruct Y as [A [B [C [D [F G]]]]]. split; [exact A|]. split; [exact B|]. split; [|split; [lia|split]].
    + rewrite C. replace (it - used)%nat with (S (it - S used)) by lia. cbn [pow]. ring.
    + rewrite F, eval_evals. lia.
    + intros N. specialize (G N). lia.
Qed.

Theorem newton_iteration_spec ls pt : honest pt ->
  let '(cuts, p) := newton_iteration ls pt in
  honest p /\ (pt_evals p <= pt_evals pt + 2 * ls + 3)%nat /\ (cuts <= 2 * ls + 1)%nat /\
  let c := sys_lin sys (pt_x pt) (pt_r pt) in
  (* zero line-search iterations: the full step *)
  (ls = 0%nat -> pt_x p = shifted (pt_x pt) (- 1) c) /\
  (* otherwise an improvement, or the last resort *)
  ((0 < ls)%nat -> nltb (pt_norm p) (pt_norm pt) = true \/
     (cuts = (2 * ls + 1)%nat /\ pt_x p = shifted (pt_x pt) (- (0.5 ^ (S ls))) c)) /\
  (* in every case a point of the line through the old one *)
  (exists k sign, (k <= S ls)%nat /\ (sign = 1 \/ sign = - 1) /\ pt_x p = shifted (pt_x pt) (sign * 0.5 ^ k) c).
Proof.
  intros H. unfold newton_iteration. set (x0 := pt_x pt). set (old := pt_norm pt). set (c := sys_lin sys x0 (pt_r pt)).
  set (p1 := eval_at (shifted x0 (-1) c) (pt_r pt) (pt_evals pt)).
  assert (X1 : pt_x p1 = shifted x0 (-1 * 1) c) by (unfold p1; rewrite eval_x; f_equal; ring).
  assert (B1 := backtrack_spec x0 c (-1) old ls 0 1 p1 (eval_honest _ _ _) X1).
  destruct (backtrack x0 c (-1) old ls 0 1 p1) as [[it1 s1] p2].
  destruct B1 as [H2 [X2 [S1 [L1 [E2 F1]]]]]. assert (E1 : pt_evals p1 = S (pt_evals pt)) by apply eval_evals.
  rewrite PeanoNat.Nat.sub_0_r in *. cbn [plus] in *.
  destruct (Nat.ltb 0 ls && Nat.eqb it1 ls && negb (nltb (pt_norm p2) old))%bool eqn:G.
  - apply andb_true_iff in G. destruct G as [G N2]. apply andb_true_iff in G. destruct G as [Lp I1].
    apply PeanoNat.Nat.ltb_lt in Lp. apply PeanoNat.Nat.eqb_eq in I1. apply negb_true_iff in N2. subst it1.
    set (p3 := eval_at (shifted x0 1 c) (pt_r p2) (pt_evals p2)).
    assert (X3 : pt_x p3 = shifted x0 (1 * 1) c) by (unfold p3; rewrite eval_x; f_equal; ring).
    assert (B2 := backtrack_spec x0 c 1 old ls 0 1 p3 (eval_honest _ _ _) X3).
    destruct (backtrack x0 c 1 old ls 0 1 p3) as [[it2 s2] p4].
    destruct B2 as [H4 [X4 [S2 [L2 [E4 F2]]]]]. assert (E3 : pt_evals p3 = S (pt_evals p2)) by apply eval_evals.
    rewrite PeanoNat.Nat.sub_0_r in *. cbn [plus] in *.
    destruct (Nat.eqb it2 ls && negb (nltb (pt_norm p4) old))%bool eqn:G2.
    + apply andb_true_iff in G2. destruct G2 as [I2 N4]. apply PeanoNat.Nat.eqb_eq in I2. subst it2.
      split; [apply eval_honest|]. rewrite eval_evals, eval_x. split; [lia|]. split; [lia|]. split; [lia|].
      assert (S2' : - (s2 * 0.5) = - (0.5 ^ S ls)) by (rewrite S2; cbn [pow]; ring). rewrite S2'. split.
      * intros _. right. split; [lia|reflexivity].
      * exists (S ls), (-1). split; [lia|]. split; [now right|]. f_equal. ring.
    + split; [exact H4|]. split; [lia|]. split; [lia|]. split; [lia|]. split.
      * intros _. left. destruct (nltb (pt_norm p4) old) eqn:N4; [reflexivity|]. rewrite (F2 eq_refl), PeanoNat.Nat.eqb_refl in G2. discriminate.
      * exists it2, 1. split; [lia|]. split; [now left|]. rewrite X4, S2. f_equal. ring.
  - split; [exact H2|]. split; [lia|]. split; [lia|]. split; [|split].
    + intros ->. assert (it1 = 0%nat) by lia. subst it1. rewrite X2, S1. cbn [pow]. f_equal. ring.
    + intros Lp. left. destruct (nltb (pt_norm p2) old) eqn:N2; [reflexivity|]. rewrite (F1 eq_refl), PeanoNat.Nat.eqb_refl in G.
      apply PeanoNat.Nat.ltb_lt in Lp. rewrite Lp in G. discriminate.
    + exists it1, (-1). split; [lia|]. split; [now right|]. rewrite X2, S1. f_equal. ring.
Qed.

Lemma smax_spec a b : smax a b = Rmax a b.
Proof. unfold smax, rltb. destruct (Rlt_dec a b); [rewrite Rmax_right|rewrite Rmax_left]; lra. Qed.

Lemma newton_loop_spec o goal : forall fuel it pt, honest pt ->
  let r := newton_loop o goal fuel it pt in
  honest (res_pt r) /\ res_goal r = goal /\ (it <= res_iters r <= it + fuel)%nat /\
  (pt_evals (res_pt r) <= pt_evals pt + (res_iters r - it) * (2 * o_ls o + 3))%nat /\
  (res_verdict r = Converged -> exists n, pt_norm (res_pt r) = Some n /\ n <= goal /\ (o_min o <= res_iters r)%nat) /\
  (res_verdict r = Failed -> res_iters r = (it + fuel)%nat /\
     forall n, pt_norm (res_pt r) = Some n -> goal < n \/ (res_iters r < o_min o)%nat) /\
  (res_verdict r = Undefined -> pt_norm (res_pt r) = None).
Proof.
  induction fuel as [|k IH]; intros it pt H r; unfold r; cbn [newton_loop]; destruct (pt_norm pt) as [nrm|] eqn:En.
  - destruct (rleb nrm goal && Nat.leb (o_min o) it)%bool eqn:G; cbn [res_pt res_goal res_iters res_verdict];
      (split; [exact H|]); (split; [reflexivity|]); (split; [lia|]); (split; [lia|]).
    + apply andb_true_iff in G. destruct G as [G1 G2]. apply rleb_true in G1. apply PeanoNat.Nat.leb_le in G2.
      split; [intros _; exists nrm; auto|]. split; discriminate.
    + split; [discriminate|]. split; [|discriminate]. intros _. split; [lia|]. intros n' Hn. rewrite En in Hn. injection Hn as <-.
      apply andb_false_iff in G. destruct G as [G|G]; [left|right; apply PeanoNat.Nat.leb_gt in G; exact G].
      unfold rleb in G. destruct (Rle_dec nrm goal); [discriminate|lra].
  - cbn [res_pt res_goal res_iters res_verdict]. (split; [exact H|]); (split; [reflexivity|]); (split; [lia|]); (split; [lia|]).
    split; [discriminate|]. split; [discriminate|]. auto.
  - destruct (rleb nrm goal && Nat.leb (o_min o) it)%bool eqn:G.
    + cbn [res_pt res_goal res_iters res_verdict]. (split; [exact H|]); (split; [reflexivity|]); (split; [lia|]); (split; [lia|]).
      apply andb_true_iff in G. destruct G as [G1 G2]. apply rleb_true in G1. apply PeanoNat.Nat.leb_le in G2.
      split; [intros _; exists nrm; auto|]. split; discriminate.
    + assert (Sp := newton_iteration_spec (o_ls o) pt H). destruct (newton_iteration (o_ls o) pt) as [cuts p'] eqn:Ei.
      destruct Sp as [H' [Ev [Cu _]]]. cbn [snd]. destruct (IH (S it) p' H') as [A [B [C [D [E [F K]]]]]].
      split; [exact A|]. split; [exact B|]. split; [lia|]. split.
      * eapply PeanoNat.Nat.le_trans; [exact D|].
        replace (res_iters (newton_loop o goal k (S it) p') - it)%nat with (S (res_iters (newton_loop o goal k (S it) p') - S it)) by lia.
        cbn [Nat.mul]. lia.
      * split; [exact E|]. split; [|exact K]. intros V. destruct (F V) as [F1 F2]. split; [lia|exact F2].
  - cbn [res_pt res_goal res_iters res_verdict]. (split; [exact H|]); (split; [reflexivity|]); (split; [lia|]); (split; [lia|]).
    split; [discriminate|]. split; [discriminate|]. auto.
Qed.

(** convergence means a residual was evaluated at the returned point and is small *)
Theorem newton_converged o x r0 r n0 : sys_res sys x = Some r -> sys_norm sys r = Some n0 -> Rmax (o_rel o * n0) (o_abs o) < huge ->
  res_verdict (newton o x r0) = Converged ->
  exists rf nf, sys_res sys (pt_x (res_pt (newton o x r0))) = Some rf /\ sys_norm sys rf = Some nf /\
    nf <= Rmax (o_rel o * n0) (o_abs o) /\ (o_min o <= res_iters (newton o x r0))%nat.
Proof.
  intros Er En Hg. unfold newton. assert (E0 : pt_norm (eval_at x r0 0) = Some n0) by (unfold eval_at; rewrite Er; exact En).
  rewrite E0, smax_spec. intros V.
  destruct (newton_loop_spec o (Rmax (o_rel o * n0) (o_abs o)) (o_max o) 0 (eval_at x r0 0) (eval_honest _ _ _)) as [A [_ [_ [_ [C _]]]]].
  destruct (C V) as [n [Hn [Le Mi]]]. set (rr := newton_loop _ _ _ _ _) in *. unfold honest in A.
  destruct (sys_res sys (pt_x (res_pt rr))) as [rf|] eqn:Ef.
  - destruct A as [_ A]. rewrite A in Hn. exists rf, n. auto.
  - rewrite A in Hn. injection Hn as <-. lra.
Qed.
Theorem newton_failed o x r0 r n0 : sys_res sys x = Some r -> sys_norm sys r = Some n0 ->
  res_verdict (newton o x r0) = Failed -> forall rf nf,
  sys_res sys (pt_x (res_pt (newton o x r0))) = Some rf -> sys_norm sys rf = Some nf ->
  res_iters (newton o x r0) = o_max o /\ (Rmax (o_rel o * n0) (o_abs o) < nf \/ (o_max o < o_min o)%nat).
Proof.
  intros Er En. unfold newton. assert (E0 : pt_norm (eval_at x r0 0) = Some n0) by (unfold eval_at; rewrite Er; exact En).
  rewrite E0, smax_spec. intros V rf nf Ef Nf.
  destruct (newton_loop_spec o (Rmax (o_rel o * n0) (o_abs o)) (o_max o) 0 (eval_at x r0 0) (eval_honest _ _ _)) as [A [_ [_ [_ [_ [C _]]]]]].
  set (rr := newton_loop _ _ _ _ _) in *. destruct (C V) as [I1 C2]. unfold honest in A. rewrite Ef in A. destruct A as [_ A].
  rewrite Nf in A. specialize (C2 nf A). rewrite I1 in *. cbn [plus] in *. auto.
Qed.
Theorem newton_limits o x r0 :
  (res_iters (newton o x r0) <= o_max o)%nat /\
  (pt_evals (res_pt (newton o x r0)) <= 1 + res_iters (newton o x r0) * (2 * o_ls o + 3))%nat.
Proof.
  unfold newton. destruct (pt_norm (eval_at x r0 0)) as [n0|] eqn:E.
  - destruct (newton_loop_spec o (smax (o_rel o * n0) (o_abs o)) (o_max o) 0 (eval_at x r0 0) (eval_honest _ _ _)) as [_ [_ [B [C _]]]].
    rewrite eval_evals, PeanoNat.Nat.sub_0_r in C. lia.
  - cbn [res_iters res_pt]. rewrite eval_evals. lia.
Qed.
(** a NaN residual is noticed: the solver stops where it stands *)
Theorem newton_undefined o x r0 : res_verdict (newton o x r0) = Undefined -> pt_norm (res_pt (newton o x r0)) = None.
Proof.
  unfold newton. destruct (pt_norm (eval_at x r0 0)) as [n0|] eqn:E; [|auto].
  destruct (newton_loop_spec o (smax (o_rel o * n0) (o_abs o)) (o_max o) 0 (eval_at x r0 0) (eval_honest _ _ _)) as [_ [_ [_ [_ [_ [_ C]]]]]].
  exact C.
Qed.

(** affine residuals with exact linear solves: one iteration *)
Theorem newton_affine o x r0 r n0 :
  sys_res sys x = Some r -> sys_norm sys r = Some n0 -> 0 < n0 ->
  (* the Newton step lands on a root *)
  (exists rz, sys_res sys (shifted x (- 1) (sys_lin sys x r)) = Some rz /\ sys_norm sys rz = Some 0) ->
  0 <= o_abs o -> Rmax (o_rel o * n0) (o_abs o) < n0 -> (o_min o <= 1)%nat -> (1 <= o_max o)%nat ->
  res_verdict (newton o x r0) = Converged /\ res_iters (newton o x r0) = 1%nat /\
  pt_x (res_pt (newton o x r0)) = shifted x (- 1) (sys_lin sys x r).
Proof.
  intros Er En Pos [rz [Ez Nz]] Ab Goal Mi Ma. unfold newton.
  assert (E0 : eval_at x r0 0 = {| pt_x := x; pt_r := r; pt_norm := Some n0; pt_evals := 1 |}) by (unfold eval_at; rewrite Er, En; reflexivity).
  rewrite E0. cbn [pt_norm]. rewrite smax_spec. set (g := Rmax (o_rel o * n0) (o_abs o)) in *.
  assert (Pg : 0 <= g) by (unfold g; eapply Rle_trans; [exact Ab|apply Rmax_r]).
  destruct (o_max o) as [|k]; [lia|]. cbn [newton_loop pt_norm].
  assert (N : rleb n0 g = false) by (unfold rleb; destruct (Rle_dec n0 g); [lra|reflexivity]). rewrite N. cbn [andb].
  assert (It : snd (newton_iteration (o_ls o) {| pt_x := x; pt_r := r; pt_norm := Some n0; pt_evals := 1 |}) =
    {| pt_x := shifted x (- 1) (sys_lin sys x r); pt_r := rz; pt_norm := Some 0; pt_evals := 2 |}).
  { unfold newton_iteration. cbn [pt_x pt_r pt_norm pt_evals]. set (c := sys_lin sys x r) in *.
    assert (P1 : eval_at (shifted x (-1) c) r 1 = {| pt_x := shifted x (-1) c; pt_r := rz; pt_norm := Some 0; pt_evals := 2 |})
      by (unfold eval_at; rewrite Ez, Nz; reflexivity).
    rewrite P1. assert (Im : nltb (Some 0) (Some n0) = true) by (cbn [nltb]; apply rltb_true; exact Pos).
    assert (Bt : forall fuel, backtrack x c (-1) (Some n0) fuel 0 1 {| pt_x := shifted x (-1) c; pt_r := rz; pt_norm := Some 0; pt_evals := 2 |} =
      (0%nat, 1, {| pt_x := shifted x (-1) c; pt_r := rz; pt_norm := Some 0; pt_evals := 2 |})).
    { intros [|fuel]; cbn [backtrack pt_norm]; rewrite Im; reflexivity. }
    rewrite Bt. cbn [pt_norm]. rewrite Im. cbn [negb]. rewrite andb_false_r. reflexivity. }
  rewrite It.
  assert (Y : rleb 0 g = true) by (apply rleb_true; exact Pg). assert (M : Nat.leb (o_min o) 1 = true) by (apply PeanoNat.Nat.leb_le; exact Mi).
  destruct k as [|k]; cbn [newton_loop pt_norm]; rewrite Y, M; cbn [andb res_verdict res_iters res_pt pt_x]; auto.
Qed.
End Solver.
