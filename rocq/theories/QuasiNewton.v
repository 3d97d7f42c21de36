(** * Equilibrium at the end of a quasi-static step (C73)

    Newton's method of Newton.v as a solver of QuasiStatic.v, what a solver has to honour, and what a step then guarantees. *)
From Coq Require Import NArith ZArith Reals List Lia Lra Bool.
From Verif Require Import Prelude DofCodec Sums Restriction Csr Kernels FunctionalModel FunctionalGrad Assembly Tensor BoundaryElim Newton QuasiStatic.
Import ListNotations.
Local Open Scope R_scope.

(** ** the contract of a solver: when it reports convergence, its answer is acceptable for the residual it was given, and the
    constrained entries are where they were at the start *)
Definition trustworthy (n : nat) (bc : nat -> bool) (accept : vec -> vec -> Prop) (sv : vec -> solver) : Prop :=
  forall F J x0 x, (forall y i, (i < n)%nat -> bc i = true -> F y i = 0) -> (forall y, exists A, J y = eliminate bc A) ->
  pure F J (sv x0) = (x, true) -> accept (F x0) (F x) /\ forall i, (i < n)%nat -> bc i = true -> x i = x0 i.
(** a linear solver which is exact in the unit rows of an eliminated matrix, and anything elsewhere *)
Definition keeps_unit_rows (n : nat) (bc : nat -> bool) (lin : mat -> vec -> vec) : Prop :=
  forall A b i, (i < n)%nat -> bc i = true -> lin (eliminate bc A) b i = b i.

(** ** Newton.v as a solver: the same program, asking for residuals and Jacobians (equation_solver.cpp:42-202) *)
Definition norm2 (n : nat) (r : vec) : R := sqrt (sumn n (fun i => r i * r i)).
Section NewtonSolver.
Variable n : nat.
Variable lin : mat -> vec -> vec.
Definition ask (x : vec) (evals : nat) (k : point -> solver) : solver :=
  AskResidual x (fun r => k {| pt_x := x; pt_r := r; pt_norm := Some (norm2 n r); pt_evals := S evals |}).
Fixpoint backtrackS (x0 c : vec) (sign : R) (old : option R) (fuel used : nat) (scale : R) (pt : point) (k : nat * R * point -> solver) : solver :=
  if nltb (pt_norm pt) old then k (used, scale, pt) else
  match fuel with
  | O => k (used, scale, pt)
  | S fl => ask (shifted x0 (sign * (scale * 0.5)) c) (pt_evals pt) (fun p => backtrackS x0 c sign old fl (S used) (scale * 0.5) p k)
  end.
Definition newton_iterationS (ls : nat) (pt : point) (k : nat * point -> solver) : solver :=
  let x0 := pt_x pt in
  let old := pt_norm pt in
  AskJacobian x0 (fun A =>
  let c := lin A (pt_r pt) in
  ask (shifted x0 (- 1) c) (pt_evals pt) (fun p1 =>
  backtrackS x0 c (- 1) old ls 0 1 p1 (fun '(it1, s1, p2) =>
  if (Nat.ltb 0 ls && Nat.eqb it1 ls && negb (nltb (pt_norm p2) old))%bool then
    ask (shifted x0 1 c) (pt_evals p2) (fun p3 =>
    backtrackS x0 c 1 old ls 0 1 p3 (fun '(it2, s2, p4) =>
    if (Nat.eqb it2 ls && negb (nltb (pt_norm p4) old))%bool then
      ask (shifted x0 (- (s2 * 0.5)) c) (pt_evals p4) (fun p5 => k (it1 + it2 + 1, p5)%nat)
    else k (it1 + it2, p4)%nat))
  else k (it1, p2)))).
Fixpoint newton_loopS (o : options) (goal : R) (fuel it : nat) (pt : point) : solver :=
  match pt_norm pt with
  | None => Give (pt_x pt) false
  | Some nrm =>
      if (rleb nrm goal && Nat.leb (o_min o) it)%bool then Give (pt_x pt) true else
      match fuel with
      | O => Give (pt_x pt) false
      | S k => newton_iterationS (o_ls o) pt (fun p => newton_loopS o goal k (S it) (snd p))
      end
  end.
Definition newton_solver (o : options) (x : vec) : solver :=
  ask x 0 (fun p => match pt_norm p with
    | None => Give (pt_x p) false
    | Some n0 => newton_loopS o (smax (o_rel o * n0) (o_abs o)) (o_max o) 0 p
    end).

Section Equal.
Variable F : vec -> vec.
Variable J : vec -> mat.
Variable huge : R.
Definition sys : system := {| sys_res := fun x => Some (F x); sys_norm := fun r => Some (norm2 n r); sys_lin := fun x r => lin (J x) r |}.
Lemma ask_pure x r e k : pure F J (ask x e k) = pure F J (k (eval_at huge sys x r e)).
Proof. reflexivity. Qed.
Lemma backtrack_pure x0 c sign old fuel : forall used scale pt k,
  pure F J (backtrackS x0 c sign old fuel used scale pt k) = pure F J (k (backtrack huge sys x0 c sign old fuel used scale pt)).
Proof.
  induction fuel as [|fl IH]; intros used scale pt k; cbn [backtrackS backtrack]; destruct (nltb (pt_norm pt) old); try reflexivity.
  rewrite (ask_pure _ (pt_r pt)). apply IH.
Qed.
Lemma iteration_pure ls pt k : pure F J (newton_iterationS ls pt k) = pure F J (k (newton_iteration huge sys ls pt)).
Proof.
  unfold newton_iterationS, newton_iteration. cbn [pure]. change (sys_lin sys (pt_x pt) (pt_r pt)) with (lin (J (pt_x pt)) (pt_r pt)).
  rewrite (ask_pure _ (pt_r pt)), backtrack_pure.
  destruct (backtrack huge sys (pt_x pt) (lin (J (pt_x pt)) (pt_r pt)) (-1) (pt_norm pt) ls 0 1 _) as [[it1 s1] p2].
  destruct (_ && _ && _)%bool; [|reflexivity]. rewrite (ask_pure _ (pt_r p2)), backtrack_pure.
  destruct (backtrack huge sys (pt_x pt) (lin (J (pt_x pt)) (pt_r pt)) 1 (pt_norm pt) ls 0 1 _) as [[it2 s2] p4].
  destruct (_ && _)%bool; [|reflexivity]. now rewrite (ask_pure _ (pt_r p4)).
Qed.
Definition as_bool (v : verdict) : bool := match v with Converged => true | _ => false end.
Lemma loop_pure o goal : forall fuel it pt,
  pure F J (newton_loopS o goal fuel it pt) = let r := newton_loop huge sys o goal fuel it pt in (pt_x (res_pt r), as_bool (res_verdict r)).
Proof.
  induction fuel as [|k IH]; intros it pt; cbn [newton_loopS newton_loop]; destruct (pt_norm pt) as [nr|]; try reflexivity;
    destruct (_ && _)%bool; try reflexivity. rewrite iteration_pure. apply IH.
Qed.
Theorem newton_pure o x r0 : pure F J (newton_solver o x) =
  (pt_x (res_pt (newton huge sys o x r0)), as_bool (res_verdict (newton huge sys o x r0))).
Proof. unfold newton_solver, newton. rewrite (ask_pure _ r0). cbn [eval_at sys_res sys pt_norm sys_norm]. apply loop_pure. Qed.

(** steps move along corrections, which vanish on constrained dofs *)
Variable bc : nat -> bool.
Hypothesis F0 : forall y i, (i < n)%nat -> bc i = true -> F y i = 0.
Hypothesis J0 : forall y, exists A, J y = eliminate bc A.
Hypothesis LK : keeps_unit_rows n bc lin.
Definition at_start (x0 : vec) (p : point) : Prop := pt_r p = F (pt_x p) /\ forall i, (i < n)%nat -> bc i = true -> pt_x p i = x0 i.
Lemma correction_zero y i : (i < n)%nat -> bc i = true -> lin (J y) (F y) i = 0.
Proof. intros Hi E. destruct (J0 y) as (A & ->). rewrite LK by assumption. now apply F0. Qed.
Lemma shifted_start x0 y s r e : (forall i, (i < n)%nat -> bc i = true -> y i = x0 i) ->
  at_start x0 (eval_at huge sys (shifted y s (lin (J y) (F y))) r e).
Proof.
  intros H. split; [reflexivity|]. intros i Hi E. cbn [eval_at sys_res sys pt_x]. unfold shifted. rewrite correction_zero by assumption. rewrite H by assumption. ring.
Qed.
Lemma backtrack_start x0 y sign old fuel : (forall i, (i < n)%nat -> bc i = true -> y i = x0 i) -> forall used scale pt, at_start x0 pt ->
  at_start x0 (snd (backtrack huge sys y (lin (J y) (F y)) sign old fuel used scale pt)).
Proof.
  intros H. induction fuel as [|fl IH]; intros used scale pt A; cbn [backtrack]; destruct (nltb (pt_norm pt) old); try exact A.
  apply IH. now apply shifted_start.
Qed.
Lemma iteration_start x0 ls pt : at_start x0 pt -> at_start x0 (snd (newton_iteration huge sys ls pt)).
Proof.
  intros [E H]. unfold newton_iteration. change (sys_lin sys (pt_x pt) (pt_r pt)) with (lin (J (pt_x pt)) (pt_r pt)). rewrite E.
  assert (B1 := backtrack_start x0 (pt_x pt) (-1) (pt_norm pt) ls H 0 1 _ (shifted_start x0 (pt_x pt) (-1) (F (pt_x pt)) (pt_evals pt) H)).
  destruct (backtrack huge sys (pt_x pt) _ (-1) (pt_norm pt) ls 0 1 _) as [[it1 s1] p2]. cbn [snd] in B1.
  destruct (_ && _ && _)%bool; [|exact B1].
  assert (B2 := backtrack_start x0 (pt_x pt) 1 (pt_norm pt) ls H 0 1 _ (shifted_start x0 (pt_x pt) 1 (pt_r p2) (pt_evals p2) H)).
  destruct (backtrack huge sys (pt_x pt) _ 1 (pt_norm pt) ls 0 1 _) as [[it2 s2] p4]. cbn [snd] in B2.
  destruct (_ && _)%bool; [|exact B2]. now apply shifted_start.
Qed.
Lemma loop_start x0 o goal : forall fuel it pt, at_start x0 pt -> at_start x0 (res_pt (newton_loop huge sys o goal fuel it pt)).
Proof.
  induction fuel as [|k IH]; intros it pt A; cbn [newton_loop]; destruct (pt_norm pt) as [nr|]; try exact A; destruct (_ && _)%bool; try exact A.
  apply IH. now apply iteration_start.
Qed.
Lemma newton_start o x r0 : at_start x (res_pt (newton huge sys o x r0)).
Proof.
  unfold newton. assert (A : at_start x (eval_at huge sys x r0 0)) by (split; [reflexivity|intros; reflexivity]).
  destruct (pt_norm (eval_at huge sys x r0 0)); [now apply loop_start|exact A].
Qed.
End Equal.

Definition newton_accepts (o : options) (r0 r : vec) : Prop := norm2 n r <= Rmax (o_rel o * norm2 n r0) (o_abs o).
Theorem newton_trustworthy bc o : keeps_unit_rows n bc lin -> trustworthy n bc (newton_accepts o) (newton_solver o).
Proof.
  intros LK F J x0 x F0 J0 E. set (hg := Rmax (o_rel o * norm2 n (F x0)) (o_abs o) + 1).
  rewrite (newton_pure F J hg o x0 (F x0)) in E. injection E as E V. split.
  - destruct (newton_converged hg (sys F J) o x0 (F x0) (F x0) (norm2 n (F x0)) eq_refl eq_refl) as (rf & nf & A & B & C & _).
    + unfold hg. lra.
    + destruct (res_verdict (newton hg (sys F J) o x0 (F x0))); auto; discriminate.
    + cbn [sys_res sys_norm sys] in A, B. injection A as A. injection B as B. unfold newton_accepts. rewrite <- E, A, B. exact C.
  - intros i Hi Eb. rewrite <- E. now apply (newton_start F J hg bc F0 J0 LK o x0 (F x0)).
Qed.
End NewtonSolver.

Lemma entry_norm n r i : (i < n)%nat -> Rabs (r i) <= norm2 n r.
Proof.
  intros Hi. unfold norm2. rewrite <- sqrt_Rsqr_abs. apply sqrt_le_1_alt. unfold Rsqr.
  rewrite <- (sumn_delta n i (fun j => r j * r j) Hi). apply sumn_le. intros j _. destruct (Nat.eqb j i); [lra|]. assert (X := Rle_0_sqr (r j)). unfold Rsqr in X. exact X.
Qed.

(** ** equilibrium *)
Section Equilibrium.
Context {St : Type}.
Variable f : functional St.
Variable n : nat.
Variable c : csr.
Variable bc : nat -> bool.
Variable target : R -> vec.
Variable tsize : nat -> nat.
Hypothesis R0 : ready f n c tsize.

Lemma begins_on_target ld s x : (l_warm ld = true -> keeps_unit_rows n bc (l_lin ld)) -> begins f n c bc target ld s x ->
  forall i, (i < n)%nat -> bc i = true -> x i = target (s_t s + l_dt ld) i.
Proof.
  intros LK B i Hi E. unfold begins in B. destruct (l_warm ld).
  - destruct B as (r & A & _ & _ & ->). unfold warm_start. rewrite (LK eq_refl) by assumption. rewrite E. ring.
  - rewrite B, E. reflexivity.
Qed.
Theorem equilibrium ld s s' accept : sound n tsize s -> fitting tsize (l_others ld) ->
  (l_warm ld = true -> keeps_unit_rows n bc (l_lin ld)) -> trustworthy n bc accept (l_solver ld) ->
  step f n c bc target ld s = Ok (s', true) ->
  (forall i, (i < n)%nat -> bc i = true -> nth i (s_u s') 0 = target (s_t s') i) /\
  force f n (s_t s') (l_others ld) (s_mem s) (s_u s') (s_react s') /\
  exists x0 L0, begins f n c bc target ld s x0 /\ force f n (s_t s') (l_others ld) (s_mem s) (tab n x0) L0 /\
    accept (zeroed bc (entries L0)) (zeroed bc (entries (s_react s'))).
Proof.
  intros Sd Fo LK TW E. destruct (step_advances f n c bc target tsize R0 ld s s' true Sd Fo E) as [A _].
  assert (Fr := adv_react f n c bc target ld s s' true A).
  destruct (material_exists f n c bc tsize R0 (s_t s') (l_others ld) (s_mem s) Fo) as (F & J & H).
  destruct (adv_solve f n c bc target ld s s' true A F J H) as (x0 & x & B & P & U). destruct H as [HF HJ].
  destruct (HF x0) as (L0 & H0 & E0). destruct (HF x) as (L1 & H1 & E1). rewrite <- U in H1.
  assert (Q : L1 = s_react s').
  { destruct H1 as (m1 & H1). apply (force_value f n c tsize R0 (s_t s') None (l_others ld) (s_u s') (s_mem s) (s_mem s) L1 m1 (s_react s')); auto.
    - rewrite U. apply tab_length.
    - apply same_refl. }
  destruct (TW F J x0 x) as [T1 T2].
  - intros y i Hi Eb. destruct (HF y) as (L & _ & ->). unfold zeroed. now rewrite Eb.
  - intros y. destruct (HJ y) as (K & _ & ->). now exists K.
  - exact P.
  - split; [|split; [exact Fr|]].
    + intros i Hi Eb. rewrite U, nth_tab by exact Hi. rewrite T2 by assumption. rewrite (adv_time f n c bc target ld s s' true A).
      now apply (begins_on_target ld s x0 LK B).
    + exists x0, L0. split; [exact B|]. split; [exact H0|]. now rewrite <- E0, <- Q, <- E1.
Qed.
(** with Newton's method: every free node is in equilibrium up to the tolerance *)
Theorem newton_equilibrium ld s s' o lin : sound n tsize s -> fitting tsize (l_others ld) ->
  (l_warm ld = true -> keeps_unit_rows n bc (l_lin ld)) -> keeps_unit_rows n bc lin -> l_solver ld = newton_solver n lin o ->
  step f n c bc target ld s = Ok (s', true) ->
  (forall i, (i < n)%nat -> bc i = true -> nth i (s_u s') 0 = target (s_t s') i) /\
  exists x0 L0, begins f n c bc target ld s x0 /\ force f n (s_t s') (l_others ld) (s_mem s) (tab n x0) L0 /\
    forall i, (i < n)%nat -> bc i = false -> Rabs (nth i (s_react s') 0) <= Rmax (o_rel o * norm2 n (zeroed bc (entries L0))) (o_abs o).
Proof.
  intros Sd Fo LK LK' Es E.
  destruct (equilibrium ld s s' (newton_accepts n o) Sd Fo LK) as (A & _ & x0 & L0 & B & C & D); [|exact E|].
  - rewrite Es. now apply newton_trustworthy.
  - split; [exact A|]. exists x0, L0. split; [exact B|]. split; [exact C|]. intros i Hi Eb. eapply Rle_trans; [|exact D].
    assert (X := entry_norm n (zeroed bc (entries (s_react s'))) i Hi). unfold zeroed at 1 in X. rewrite Eb in X. exact X.
Qed.
End Equilibrium.
