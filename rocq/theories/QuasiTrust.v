(** * The trust-region solver inside a simulation step (C73, C76)

    TrustLoop.v as a solver of QuasiStatic.v: the program of equation_solver.cpp:475-684, asking for residuals and Jacobians, with the
    assembled Jacobian as Hessian and any preconditioner built from it.  Residual evaluations of the model throw no exception. *)
From Coq Require Import NArith ZArith Reals List Lia Lra Bool.
From Verif Require Import Prelude DofCodec Sums Restriction Csr Kernels FunctionalModel FunctionalGrad Assembly Tensor BoundaryElim Newton TrustRegion TrustLoop
  QuasiStatic QuasiNewton.
Import ListNotations.
Local Open Scope R_scope.

Section Trust.
Variable n : nat.
(** the preconditioner: equation_solver.cpp:543-549 sets it up anew in every outer iteration, as each of them makes at least one CG step *)
Variable prec : mat -> vec -> vec.

(** equation_solver.cpp:591-672.  An undefined step (division by zero) ends the solver without convergence; TrustRegion.v says when steps are defined *)
Fixpoint trialsS (goal : R) (H : vec -> vec) (cp z : vec) (st : tr_status) (fuel : nat) (s : tr_state) (k : tr_state -> solver) : solver :=
  match fuel with
  | O => k s
  | S fl =>
      match dogleg n cp z (tr_size s) with
      | None => Give (pt_x (tr_pt s)) false
      | Some d =>
          let r := pt_r (tr_pt s) in
          let model := vdot n r d + 0.5 * vdot n d (H d) in
          ask n (fun i => pt_x (tr_pt s) i + d i) (pt_evals (tr_pt s)) (fun p' =>
          if nleb (pt_norm p') (Some goal) then k {| tr_pt := p'; tr_size := tr_size s; tr_pred := pt_r p' |} else
          let rho := rho_of (Some (0.5 * (vdot n r d + vdot n (pt_r p') d))) model in
          let size' := next_radius rho st (tr_size s) in
          if at_least rho eta1 then k {| tr_pt := p'; tr_size := size'; tr_pred := pt_r p' |}
          else trialsS goal H cp z st fl
                 {| tr_pt := {| pt_x := pt_x (tr_pt s); pt_r := r; pt_norm := pt_norm (tr_pt s); pt_evals := pt_evals p' |};
                    tr_size := size'; tr_pred := pt_r p' |} k)
      end
  end.
(** equation_solver.cpp:516-590 and 673 *)
Fixpoint trust_loopS (o : options) (goal : R) (cg_max fuel it : nat) (s : tr_state) : solver :=
  match pt_norm (tr_pt s) with
  | None => Give (pt_x (tr_pt s)) false
  | Some nrm =>
      if (rleb nrm goal && Nat.leb (o_min o) it)%bool then Give (pt_x (tr_pt s)) true else
      match fuel with
      | O => Give (pt_x (tr_pt s)) false
      | S k => AskJacobian (pt_x (tr_pt s)) (fun A =>
          match proposal n (mvec n A) (prec A) (pt_r (tr_pt s)) (tr_size s) (smax (0.5 * goal) (5 / 10 ^ 5 * nrm)) (o_min o) cg_max with
          | None => Give (pt_x (tr_pt s)) false
          | Some (cp, z, st) => trialsS goal (mvec n A) cp z st (S (o_ls o)) s (trust_loopS o goal cg_max k (S it))
          end)
      end
  end.
Definition trust_solver (o : options) (scaling : R) (cg_max : nat) (x : vec) : solver :=
  ask n x 0 (fun p => match pt_norm p with
    | None => Give (pt_x p) false
    | Some n0 => trust_loopS o (smax (o_rel o * n0) (o_abs o)) cg_max (o_max o) 0
        {| tr_pt := p; tr_size := scaling * sqrt (vdot n (fun _ => 1) (fun _ => 1)); tr_pred := fun _ => 0 |}
    end).

Section Equal.
Variable F : vec -> vec.
Variable J : vec -> mat.
Variable huge : R.
Definition trust_sys : tr_system :=
  {| ts_sys := {| sys_res := fun x => Some (F x); sys_norm := fun r => Some (norm2 n r); sys_lin := fun _ r => r |};
     ts_hess := fun x => mvec n (J x); ts_prec := fun x => prec (J x) |}.
Definition ended (r : option result) : vec * bool -> Prop := fun p =>
  match r with Some res => p = (pt_x (res_pt res), as_bool (res_verdict res)) | None => snd p = false end.
Lemma trials_pure goal H cp z st : forall fuel s k,
  match trials huge n trust_sys goal H cp z st fuel s with
  | Some s' => pure F J (trialsS goal H cp z st fuel s k) = pure F J (k s')
  | None => snd (pure F J (trialsS goal H cp z st fuel s k)) = false
  end.
Proof.
  induction fuel as [|fl IH]; intros s k; cbn [trials trialsS]; [reflexivity|]. destruct (dogleg n cp z (tr_size s)) as [d|]; [|reflexivity].
  unfold ask. cbn [pure trust_sys ts_sys sys_res sys_norm eval_at pt_norm pt_r pt_x pt_evals].
  destruct (nleb _ _); [reflexivity|]. destruct (at_least _ eta1); [reflexivity|]. apply IH.
Qed.
Lemma trust_loop_pure o goal cg : forall fuel it s, ended (tr_loop huge n trust_sys o goal cg fuel it s) (pure F J (trust_loopS o goal cg fuel it s)).
Proof.
  induction fuel as [|k IH]; intros it s; cbn [trust_loopS tr_loop]; destruct (pt_norm (tr_pt s)) as [nr|] eqn:En; try reflexivity;
    destruct (_ && _)%bool; try reflexivity.
  unfold tr_iteration. rewrite En. cbn [pure trust_sys ts_hess ts_prec].
  destruct (proposal n _ _ _ _ _ _ _) as [[[cp z] st]|]; [|reflexivity].
  assert (T := trials_pure goal (mvec n (J (pt_x (tr_pt s)))) cp z st (S (o_ls o)) s (trust_loopS o goal cg k (S it))).
  destruct (trials huge n trust_sys goal _ cp z st (S (o_ls o)) s) as [s'|]; [|exact T]. rewrite T. apply IH.
Qed.
(** it is the solver of TrustLoop.v *)
Theorem trust_pure o scaling cg x : ended (tr_solve huge n trust_sys o scaling cg x) (pure F J (trust_solver o scaling cg x)).
Proof. unfold trust_solver, tr_solve, ask. cbn [trust_sys ts_sys sys_res sys_norm pure pt_norm]. apply trust_loop_pure. Qed.

(** ** every step vanishes on constrained dofs *)
Variable bc : nat -> bool.
Definition still (v : vec) : Prop := forall i, (i < n)%nat -> bc i = true -> v i = 0.
Hypothesis F0 : forall y, still (F y).
Lemma still_scaled k v : still v -> still (fun i => k * v i).
Proof. intros H i Hi E. rewrite H by assumption. ring. Qed.
Lemma still_add z t d : still z -> still d -> still (add_scaled z t d).
Proof. intros A B i Hi E. unfold add_scaled. rewrite A, B by assumption. ring. Qed.
Lemma boundary_still z d tr zz zd dd s : still z -> still d -> to_boundary z d tr zz zd dd = Some s -> still s.
Proof. intros A B. unfold to_boundary. destruct (boundary_tau _ _ _ _); [|discriminate]. intros E. injection E as <-. now apply still_add. Qed.
Lemma dogleg_still cp z tr d : still cp -> still z -> dogleg n cp z tr = Some d -> still d.
Proof.
  intros A B. unfold dogleg. destruct (Rle_dec _ _).
  - destruct (Req_EM_T _ _); [discriminate|]. intros E. injection E as <-. now apply still_scaled.
  - destruct (Rlt_dec _ _); [intros E; injection E as <-; exact A|]. destruct (Rlt_dec _ _); [|intros E; injection E as <-; exact B].
    unfold to_boundary_between. destruct (boundary_tau _ _ _ _); [|discriminate]. intros E. injection E as <-. repeat apply still_add; assumption.
Qed.
Lemma cg_still H P tr tol2 m : (forall v, still v -> still (H v)) -> (forall v, still v -> still (P v)) -> forall fuel it s z st,
  still (cg_z s) -> still (cg_r s) -> still (cg_d s) -> cg_loop n H P tr tol2 m fuel it s = Some (z, st) -> still z.
Proof.
  intros SH SP. induction fuel as [|k IH]; intros it s z st A B C; cbn [cg_loop]; [intros E; injection E as <- <-; exact A|].
  set (al := if Req_EM_T _ 0 then 0 else _).
  destruct (Rle_dec _ 0).
  { destruct (to_boundary _ _ _ _ _ _) as [b|] eqn:Eb; [|discriminate]. intros E. injection E as <- <-. exact (boundary_still _ _ _ _ _ _ _ A C Eb). }
  destruct (Rlt_dec _ _).
  { destruct (to_boundary _ _ _ _ _ _) as [b|] eqn:Eb; [|discriminate]. intros E. injection E as <- <-. exact (boundary_still _ _ _ _ _ _ _ A C Eb). }
  destruct (_ && _)%bool; [intros E; injection E as <- <-; now apply still_add|]. destruct (Req_EM_T (cg_rPr s) 0); [discriminate|].
  assert (X : still (add_scaled (cg_r s) al (H (cg_d s)))) by (apply still_add; auto).
  apply IH; cbn [cg_z cg_r cg_d]; [now apply still_add|exact X|].
  intros i Hi E. rewrite (SP _ X i Hi E), (C i Hi E). ring.
Qed.
Lemma proposal_still H P r tr tol mn mx cp z st : (forall v, still v -> still (H v)) -> (forall v, still v -> still (P v)) -> still r ->
  proposal n H P r tr tol mn mx = Some (cp, z, st) -> still cp /\ still z.
Proof.
  intros SH SP Sr. unfold proposal, cauchy.
  assert (X : forall cp0 c2, still cp0 -> (if Rle_dec (tr * tr) c2 then
        if Req_EM_T (sqrt c2) 0 then None else Some (fun i => tr / sqrt c2 * cp0 i, fun i => tr / sqrt c2 * cp0 i, OnBoundary)
      else match cg_solve n H P tr tol mn mx r with Some (z, st) => Some (cp0, z, st) | None => None end) = Some (cp, z, st) -> still cp /\ still z).
  { intros cp0 c2 S0. destruct (Rle_dec _ _).
    - destruct (Req_EM_T _ _); [discriminate|]. intros E. injection E as <- <- _. split; now apply still_scaled.
    - destruct (cg_solve n H P tr tol mn mx r) as [[z' st']|] eqn:Ec; [|discriminate]. intros E. injection E as <- <- _. split; [exact S0|].
      unfold cg_solve in Ec. destruct (_ && _)%bool; [injection Ec as <- _; intros i _ _; reflexivity|].
      revert Ec. apply cg_still; [exact SH|exact SP|intros i _ _; reflexivity|exact Sr|].
      intros i Hi E. cbn [cg_start cg_d]. rewrite (SP r Sr i Hi E). ring. }
  destruct (Rlt_dec 0 _); [apply X; now apply still_scaled|].
  destruct (Req_EM_T _ 0); [discriminate|]. apply X. now apply still_scaled.
Qed.
Definition on_start (x0 : vec) (p : point) : Prop := pt_r p = F (pt_x p) /\ forall i, (i < n)%nat -> bc i = true -> pt_x p i = x0 i.
Lemma trials_start x0 goal H cp z st : still cp -> still z -> forall fuel s s', on_start x0 (tr_pt s) ->
  trials huge n trust_sys goal H cp z st fuel s = Some s' -> on_start x0 (tr_pt s').
Proof.
  intros A B. induction fuel as [|fl IH]; intros s s' S0; cbn [trials]; [intros E; injection E as <-; exact S0|].
  destruct (dogleg n cp z (tr_size s)) as [d|] eqn:Ed; [|discriminate]. assert (D := dogleg_still _ _ _ _ A B Ed). destruct S0 as [S1 S2].
  assert (X : forall e, on_start x0 (eval_at huge (ts_sys trust_sys) (fun i => pt_x (tr_pt s) i + d i) (tr_pred s) e)).
  { intros e. split; [reflexivity|]. intros i Hi E. cbn [eval_at trust_sys ts_sys sys_res pt_x]. rewrite S2, D by assumption. ring. }
  destruct (nleb _ _); [intros E; injection E as <-; apply X|]. destruct (at_least _ eta1); [intros E; injection E as <-; apply X|].
  apply IH. split; assumption.
Qed.
Hypothesis J0 : forall y, exists A, J y = eliminate bc A.
Hypothesis PK : keeps_unit_rows n bc prec.
Lemma eliminated_still A v : still v -> still (mvec n (eliminate bc A) v).
Proof.
  intros Sv i Hi E. unfold mvec. apply sumn_zero. intros j Hj. unfold eliminate. rewrite E. cbn [orb].
  destruct (Nat.eqb_spec i j) as [<-|]; [rewrite Sv by assumption|]; ring.
Qed.
Lemma loop_start x0 o goal cg : forall fuel it s r, on_start x0 (tr_pt s) -> tr_loop huge n trust_sys o goal cg fuel it s = Some r -> on_start x0 (res_pt r).
Proof.
  induction fuel as [|k IH]; intros it s r S0; cbn [tr_loop]; destruct (pt_norm (tr_pt s)) as [nr|] eqn:En;
    try (intros E; injection E as <-; exact S0); destruct (_ && _)%bool; try (intros E; injection E as <-; exact S0).
  unfold tr_iteration. rewrite En. destruct (J0 (pt_x (tr_pt s))) as (A & EA).
  destruct (proposal n _ _ _ _ _ _ _) as [[[cp z] st]|] eqn:Ep; [|discriminate].
  destruct (trials huge n trust_sys goal _ cp z st (S (o_ls o)) s) as [s'|] eqn:Es; [|discriminate].
  assert (Sr : still (pt_r (tr_pt s))) by (rewrite (proj1 S0); apply F0).
  cbn [trust_sys ts_hess ts_prec] in Ep. rewrite EA in Ep. apply proposal_still in Ep; [|apply eliminated_still|intros v Sv i Hi E; rewrite PK by assumption; now apply Sv|exact Sr].
  destruct Ep as [Sc Sz].
  apply IH. exact (trials_start x0 goal _ cp z st Sc Sz _ _ _ S0 Es).
Qed.
End Equal.

Theorem trust_trustworthy bc o scaling cg : (0 < n)%nat -> 0 < scaling -> keeps_unit_rows n bc prec ->
  trustworthy n bc (newton_accepts n o) (trust_solver o scaling cg).
Proof.
  intros Hn Hs PK F J x0 x F0 J0 E. set (hg := Rmax (o_rel o * norm2 n (F x0)) (o_abs o) + 1).
  assert (T := trust_pure F J hg o scaling cg x0). rewrite E in T. unfold ended in T.
  destruct (tr_solve hg n (trust_sys F J) o scaling cg x0) as [res|] eqn:Er; [|discriminate]. injection T as Ex V.
  assert (V' : res_verdict res = Converged) by (destruct (res_verdict res); [reflexivity|discriminate|discriminate]).
  destruct (tr_converged hg n (trust_sys F J) o scaling cg x0 (F x0) (norm2 n (F x0)) res Hs Hn eq_refl eq_refl) as (rf & nf & A & B & C & _);
    [unfold hg; lra|exact Er|exact V'|]. cbn [trust_sys ts_sys sys_res sys_norm] in A, B. injection A as A. injection B as B. split.
  - unfold newton_accepts. rewrite Ex, A, B. exact C.
  - unfold tr_solve in Er. cbn [trust_sys ts_sys sys_res sys_norm] in Er.
    apply (loop_start F J hg bc F0 J0 PK x0) in Er; [|split; [reflexivity|intros; reflexivity]].
    intros i Hi Eb. rewrite Ex. now apply Er.
Qed.
End Trust.

(** ** the solver at work: 2 x = 6 from 0, with one CG step *)
Definition two_x (x : vec) : vec := fun i => 2 * x i - 6.
Definition twice (_ : vec) : mat := fun i j => if Nat.eqb i j then 2 else 0.
Definition loose : options := {| o_rel := / 10; o_abs := / 100; o_min := 0; o_max := 1; o_ls := 0 |}.
Lemma dot1 (a b : vec) : vdot 1 a b = a 0%nat * b 0%nat.
Proof. unfold vdot. cbn [sumn]. ring. Qed.
Lemma trust_case : snd (pure two_x twice (trust_solver 1 (fun _ r => r) loose 10 1 (fun _ => 0))) = true.
Proof.
  assert (N : forall r, norm2 1 r = Rabs (r 0%nat)).
  { intros r. unfold norm2. rewrite <- sqrt_Rsqr_abs. f_equal. cbn [sumn]. unfold Rsqr. ring. }
  assert (HV : forall x v, mvec 1 (twice x) v 0%nat = 2 * v 0%nat) by (intros x v; unfold mvec, twice; cbn [sumn Nat.eqb]; ring).
  assert (R0 : Rabs (two_x (fun _ => 0) 0%nat) = 6) by (unfold two_x; rewrite Rabs_left1; lra).
  unfold trust_solver, ask. cbn [pure pt_norm]. rewrite !N, dot1, !R0.
  rewrite smax_spec, Rmult_1_r, sqrt_1. cbn [loose o_rel o_abs o_max]. rewrite (Rmax_left (/ 10 * 6) (/ 100)) by lra. set (g := / 10 * 6).
  cbn [trust_loopS tr_pt pt_norm o_min].
  assert (Ng : rleb 6 g = false) by (unfold rleb, g; destruct (Rle_dec _ _); [lra|reflexivity]). rewrite Ng. cbn [andb pure pt_x pt_r tr_size o_ls].
  unfold proposal, cauchy. rewrite !dot1, !HV. destruct (Rlt_dec 0 _) as [_|L]; [|unfold two_x in L; lra].
  set (k := - (two_x (fun _ => 0) 0%nat * two_x (fun _ => 0) 0%nat) / _). assert (Ek : k = - 0.5) by (unfold k, two_x; field_simplify; lra).
  rewrite Ek. destruct (Rle_dec _ _) as [L|_]; [unfold two_x in L; lra|]. rewrite smax_spec.
  set (tol := Rmax _ _). assert (T1 : 0 <= tol < 1).
  { unfold tol, g. split; [eapply Rle_trans; [|apply Rmax_l]; lra|]. apply Rmax_lub_lt; cbn [pow]; lra. }
  assert (T2 : tol * tol < 1) by nra. assert (T3 : 0 <= tol * tol) by nra.
  unfold cg_solve. rewrite dot1. assert (N2 : rleb (two_x (fun _ => 0) 0%nat * two_x (fun _ => 0) 0%nat) (tol * tol) = false)
    by (unfold rleb, two_x; destruct (Rle_dec _ _); [lra|reflexivity]). rewrite N2. cbn [andb].
  cbn [cg_loop cg_start cg_d cg_z cg_zz cg_zd cg_dd cg_rPr cg_r]. unfold add_scaled. rewrite !dot1, !HV. unfold two_x.
  destruct (Req_EM_T _ 0) as [|_]; [lra|]. destruct (Rle_dec _ 0) as [|_]; [lra|].
  assert (A : (2 * 0 - 6) * (2 * 0 - 6) / ((0 + -1 * (2 * 0 - 6)) * (2 * (0 + -1 * (2 * 0 - 6)))) = 0.5) by (field_simplify; lra).
  rewrite A. destruct (Rlt_dec _ _) as [|_]; [lra|].
  assert (Z : (2 * 0 - 6 + 0.5 * (2 * (0 + -1 * (2 * 0 - 6)))) = 0) by lra. rewrite Z.
  assert (Y : rleb (0 * 0) (tol * tol) = true) by (apply rleb_true; lra). rewrite Y. cbn [loose o_min o_ls andb Nat.leb].
  cbn [trialsS tr_size tr_pt pt_r pt_x pt_evals]. unfold dogleg. rewrite !dot1.
  destruct (Rle_dec _ _) as [|_]; [lra|]. destruct (Rlt_dec _ _) as [|_]; [lra|]. destruct (Rlt_dec _ _) as [|_]; [lra|].
  unfold ask. cbn [pure pt_norm pt_r pt_x pt_evals]. rewrite N.
  assert (X : Rabs (2 * (0 + (0 + 0.5 * (0 + -1 * (2 * 0 - 6)))) - 6) = 0) by (transitivity (Rabs 0); [apply f_equal; lra|apply Rabs_R0]). rewrite X.
  assert (Y2 : rleb 0 g = true) by (apply rleb_true; unfold g; lra). cbn [nleb]. rewrite Y2. cbn [trust_loopS tr_pt pt_norm o_min]. rewrite ?N, ?X, ?Y2. reflexivity.
Qed.
