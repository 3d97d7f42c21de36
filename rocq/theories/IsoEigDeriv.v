(** * The derivatives that the exponential, the logarithm and the square root of a matrix carry (C58) *)
From Coq Require Import Reals Lra Lia Bool Psatz.
From Verif Require Import Sums Tensor MatAlg SymEig SymEigFacts SymEigRotate SymEigMain IsoFun IsoDeriv IsoEig.
Local Open Scope R_scope.

Lemma derivable_near f g d : near0 (fun t => f t = g t) -> derivable_pt_lim f 0 d -> derivable_pt_lim g 0 d.
Proof.
  intros [r [Hr E]] D eps He. destruct (D eps He) as [[q Hq] H]. exists (mkposreal (Rmin q r) ltac:(now apply Rmin_glb_lt)). intros t N Ht. cbn [pos] in *.
  rewrite <- (E 0) by (now rewrite Rabs_R0). rewrite <- (E (0 + t)) by (rewrite Rplus_0_l; eapply Rlt_le_trans; [exact Ht|apply Rmin_r]).
  apply H; [exact N|]. eapply Rlt_le_trans; [exact Ht|apply Rmin_l].
Qed.

Definition default_eigen : eigen := Eigen zero3 zero3 zero3 zero3.
Definition eig_at (A : R -> mat) (t : R) : eigen := match eig_symm (A t) with Some e => e | None => default_eigen end.

(** a curve of matrices whose decompositions have no error *)
Definition exact_curve (A : R -> mat) (D : mat) : Prop :=
  near0 (fun t => symmetric3 (A t) /\ exact_eig (A t)) /\
  forall i j, (i < 3)%nat -> (j < 3)%nat -> derivable_pt_lim (fun t => A t i j) 0 (D i j).

Section Any.
Variables (A : R -> mat) (D : mat) (f : R -> R) (g : R -> R -> R).
Hypothesis curve : exact_curve A D.
Let e := eig_at A.
Hypothesis secant : near0 (fun t => forall a b, (a < 3)%nat -> (b < 3)%nat -> secant_of f g (entry (lam (e 0)) a) (entry (lam (e t)) b)).
Hypothesis secant_cont : forall a b, (a < 3)%nat -> (b < 3)%nat -> cont (g (entry (lam (e 0)) a)) (entry (lam (e 0)) b).

Lemma curve_eig : near0 (fun t => eig_symm (A t) = Some (e t) /\ symmetric3 (A t) /\ framed (e t) /\ decomposes (A t) (e t)).
Proof.
  destruct curve as [C _]. revert C. apply near0_imp. intros t [S [d [E Dc]]]. unfold e, eig_at. rewrite E.
  destruct (eig_framed _ _ S E) as [F _]. auto.
Qed.
Lemma function_derivative i j G : (i < 3)%nat -> (j < 3)%nat -> matrix_function_derivative g (A 0) D = Some G ->
  derivable_pt_lim (fun t => recompose (e t) f i j) 0 (G i j).
Proof.
  intros Hi Hj HG.
  assert (C : near0 (fun t => symmetricn 3 (A t) /\ orth 3 (basis (e t)) /\ eigs 3 (A t) (basis (e t)) (entry (lam (e t))))).
  { generalize curve_eig. apply near0_imp. intros t [_ [S [F Dc]]]. split; [now apply symmetric3_n|]. split; [now apply framed_orth|now apply decomposes_eigs]. }
  destruct curve as [_ Der].
  assert (X := comp_derivative 3 A (fun t => basis (e t)) (fun t => entry (lam (e t))) D f g C Der secant secant_cont i j Hi Hj).
  assert (G' : G i j = rate 3 (fun t => basis (e t)) (fun t => entry (lam (e t))) D g i j).
  { unfold matrix_function_derivative in HG. destruct curve_eig as [d [Hd E]]. destruct (E 0 ltac:(now rewrite Rabs_R0)) as [E0 _]. rewrite E0 in HG.
    cbn [option_map] in HG. injection HG as <-. reflexivity. }
  rewrite G'. revert X. apply derivable_near. exists 1. split; [lra|]. intros t _. symmetry. now apply recompose_comp.
Qed.
End Any.

Lemma exp_derivative A D F G : exact_curve A D -> near0 (fun t => exp_symm (A t) = Some (F t)) ->
  matrix_function_derivative exp_secant (A 0) D = Some G ->
  forall i j, (i < 3)%nat -> (j < 3)%nat -> derivable_pt_lim (fun t => F t i j) 0 (G i j).
Proof.
  intros C HF HG i j Hi Hj.
  apply derivable_near with (fun t => recompose (eig_at A t) exp i j).
  - revert HF. apply near0_imp. intros t E. unfold exp_symm, matrix_function in E. unfold eig_at. destruct (eig_symm (A t)); [|discriminate].
    cbn [option_map] in E. now injection E as <-.
  - apply (function_derivative A D exp exp_secant C); auto.
    + exists 1. split; [lra|]. intros t _ a b _ _. unfold secant_of. rewrite exp_secant_divided. apply divided_secant.
    + intros a b _ _. set (x := entry _ a). set (y := entry _ b).
      apply cont_local with (divided exp exp x); [exists 1; split; [lra|]; intros; apply exp_secant_divided|].
      apply divided_cont; [apply derivable_pt_lim_exp|]. apply cont_of, derivable_continuous_pt, derivable_pt_exp.
Qed.

Lemma log_derivative A D F G : exact_curve A D -> near0 (fun t => log_symm (A t) = Some (F t)) ->
  matrix_function_derivative log_secant (A 0) D = Some G ->
  forall i j, (i < 3)%nat -> (j < 3)%nat -> derivable_pt_lim (fun t => F t i j) 0 (G i j).
Proof.
  intros C HF HG i j Hi Hj.
  assert (P : near0 (fun t => F t = recompose (eig_at A t) ln /\ forall k, (k < 3)%nat -> 0 < entry (lam (eig_at A t)) k)).
  { revert HF. apply near0_imp. intros t E. unfold log_symm in E. unfold eig_at. destruct (eig_symm (A t)) as [e|]; [|discriminate].
    destruct (positive_dec e) as [V|V]; [|discriminate]. injection E as <-. split; [reflexivity|now apply values_entries]. }
  assert (P0 : forall k, (k < 3)%nat -> 0 < entry (lam (eig_at A 0)) k) by (destruct P as [d [Hd H]]; apply H; now rewrite Rabs_R0).
  apply derivable_near with (fun t => recompose (eig_at A t) ln i j).
  - revert P. apply near0_imp. now intros t [-> _].
  - apply (function_derivative A D ln log_secant C); auto.
    + revert P. apply near0_imp. intros t [_ Pt] a b Ha Hb. unfold secant_of. rewrite log_secant_divided by auto. apply divided_secant.
    + intros a b Ha Hb. assert (X := P0 a Ha). assert (Y := P0 b Hb). set (x := entry _ a) in *. set (y := entry _ b) in *.
      apply cont_local with (divided ln Rinv x).
      * exists y. split; [exact Y|]. intros z Hz. apply log_secant_divided; [exact X|]. apply Rabs_def2 in Hz. lra.
      * apply divided_cont; [now apply derivable_pt_lim_ln|]. apply cont_of, derivable_continuous_pt. exists (/ y). now apply derivable_pt_lim_ln.
Qed.

Lemma sqrt_derivative A D F G : exact_curve A D -> positive_definite (A 0) -> near0 (fun t => sqrt_symm (A t) = Some (F t)) ->
  matrix_function_derivative sqrt_secant (A 0) D = Some G ->
  forall i j, (i < 3)%nat -> (j < 3)%nat -> derivable_pt_lim (fun t => F t i j) 0 (G i j).
Proof.
  intros C PD HF HG i j Hi Hj.
  assert (P : near0 (fun t => F t = recompose (eig_at A t) sqrt /\ forall k, (k < 3)%nat -> 0 <= entry (lam (eig_at A t)) k)).
  { revert HF. apply near0_imp. intros t E. unfold sqrt_symm in E. unfold eig_at. destruct (eig_symm (A t)) as [e|]; [|discriminate].
    destruct (nonneg_dec e) as [V|V]; [|discriminate]. injection E as <-. split; [reflexivity|now apply nonneg_entries]. }
  assert (P0 : forall k, (k < 3)%nat -> 0 < entry (lam (eig_at A 0)) k).
  { destruct (curve_eig A D C) as [d [Hd H]]. destruct (H 0 ltac:(now rewrite Rabs_R0)) as [_ [_ [Fr Dc]]]. exact (positive_entries _ _ Fr Dc PD). }
  apply derivable_near with (fun t => recompose (eig_at A t) sqrt i j).
  - revert P. apply near0_imp. now intros t [-> _].
  - apply (function_derivative A D sqrt sqrt_secant C); auto.
    + revert P. apply near0_imp. intros t [_ Pt] a b Ha Hb. unfold secant_of, sqrt_secant.
      assert (X := P0 a Ha). assert (Y := Pt b Hb). set (x := entry _ a) in *. set (y := entry (lam (eig_at A t)) b) in *.
      assert (Sx := sqrt_lt_R0 x X). assert (Sy := sqrt_pos y). assert (Ex := sqrt_sqrt x ltac:(lra)). assert (Ey := sqrt_sqrt y Y).
      replace (y - x) with ((sqrt y - sqrt x) * (sqrt x + sqrt y)) by (rewrite <- Ex at 3; rewrite <- Ey at 3; ring).
      field. lra.
    + intros a b Ha Hb. assert (X := P0 a Ha). assert (Y := P0 b Hb). set (x := entry _ a) in *. set (y := entry _ b) in *.
      apply cont_local with (divided sqrt (fun z => / (2 * sqrt z)) x).
      * exists y. split; [exact Y|]. intros z Hz. apply sqrt_secant_divided; [exact X|]. apply Rabs_def2 in Hz. lra.
      * apply divided_cont; [now apply derivable_pt_lim_sqrt|]. apply cont_of, continuity_pt_sqrt. lra.
Qed.
