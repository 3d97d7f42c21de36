(** * Theorems about finite-deformation plasticity (C59) *)
From Coq Require Import Reals Lra Lia List Setoid Morphisms.
From Verif Require Import Sums Tensor MatAlg Materials MaterialFacts ScalarSolve Plasticity PlasticityEx SymEig SymEigFacts SymEigRotate SymEigMain IsoFun IsoEig FiniteJ2 FiniteJ2Facts.
Import ListNotations.
Local Open Scope R_scope.

(** a Kirchhoff stress is the Mandel stress carried to the current configuration by the elastic deformation *)
Definition carried (Fe M tau : mat) : Prop :=
  exists B, meq 3 (mmul 3 B (transpose Fe)) ident /\ meq 3 (mmul 3 (transpose Fe) B) ident /\ meq 3 tau (mmul 3 (mmul 3 B M) (transpose Fe)).
Lemma carried_ext Fe Fe' M tau : meq 3 Fe Fe' -> carried Fe M tau -> carried Fe' M tau.
Proof. intros E [B [H1 [H2 H3]]]. exists B. rewrite <- E. auto. Qed.

Lemma conclude_ok H Fe M st status : det3 (deformation H) <> 0 -> det3 Fe <> 0 ->
  exists sigma, conclude (deformation H) Fe M st status = FReturned (FResult sigma st M status) /\ carried Fe M (kirchhoff H sigma).
Proof.
  intros DF DE. unfold conclude, cauchy. assert (DT : det3 (transpose Fe) <> 0) by now rewrite det3_transpose.
  apply inv3_defined in DT. destruct DT as [B EB]. rewrite EB. destruct (Req_EM_T (det3 (deformation H)) 0); [contradiction|].
  eexists. split; [reflexivity|]. destruct (inv3_mul _ _ EB) as [H1 H2]. exists B. split; [exact H2|]. split; [exact H1|].
  intros i j _ _. unfold kirchhoff, mscal. field. exact DF.
Qed.

(** a call, given that the total and the plastic deformation are invertible *)
Record call (m : fj2) (st : fstate) (H : mat) (r : fresult) (L : mat) (r0 : result) : Prop := {
  cl_log : log_symm (stretch st H) = Some L;
  cl_small : j2_small (as_small m) (at_rest st) (strain L) = Returned r0;
  cl_mandel : f_mandel r = r_stress r0;
  cl_status : f_status r = r_status r0;
  cl_eqps : feqps (f_state r) = eqps (r_state r0);
  cl_carried : carried (elastic (f_state r) H) (f_mandel r) (kirchhoff H (f_stress r));
  cl_kept : f_status r = None -> f_state r = st;
  cl_flow : forall a, f_status r = Some a -> exists A, exp_symm (mscal (-1) (ep (r_state r0))) = Some A /\ symmetric3 A /\ det3 A = 1 /\
    Fpinv (f_state r) = mmul 3 (Fpinv st) A }.

Lemma finite_call m st H : sound_finite m -> 0 <= feqps st -> det3 (deformation H) <> 0 -> det3 (Fpinv st) <> 0 ->
  exists r L r0, j2_finite m st H = FReturned r /\ call m st H r L r0.
Proof.
  intros M Ps DF DP. assert (DE : det3 (elastic st H) <> 0) by (unfold elastic; rewrite det3_mul; now apply Rmult_integral_contrapositive_currified).
  destruct (log_total (stretch st H) (gram_symmetric _) (gram_definite _ DE)) as [e [_ [_ [_ EL]]]].
  set (L := recompose e ln) in *. rewrite (finite_reduces m st H L EL).
  assert (SM := as_small_sound m M). assert (SS := at_rest_sound st Ps).
  destruct (j2_returns _ SM _ SS (strain L)) as [r0 [E0 D]]. rewrite E0.
  destruct (j2_state _ SM _ SS (strain L) r0 E0) as [[_ Sy Tr] _].
  destruct (r_status r0) as [a|] eqn:Es.
  - assert (SY : symmetric3 (mscal (-1) (ep (r_state r0)))).
    { intros i j Hi Hj. unfold mscal. rewrite <- (Sy i j Hi Hj). reflexivity. }
    destruct (exp_det _ SY) as [A [EA [SA DA]]]. rewrite tr_scal, Tr, Rmult_0_r, exp_0 in DA. rewrite EA.
    destruct (conclude_ok H (mmul 3 (elastic st H) A) (r_stress r0) (FState (mmul 3 (Fpinv st) A) (eqps (r_state r0))) (Some a) DF) as [sigma [Ec Ca]].
    { rewrite det3_mul, DA. lra. }
    rewrite Ec. exists (FResult sigma (FState (mmul 3 (Fpinv st) A) (eqps (r_state r0))) (r_stress r0) (Some a)), L, r0. split; [reflexivity|].
    split; cbn [f_mandel f_status f_state f_stress Fpinv feqps]; auto.
    + apply (carried_ext (mmul 3 (elastic st H) A)); [|exact Ca]. unfold elastic. cbn [Fpinv]. now rewrite mmul_assoc.
    + discriminate.
    + intros a' _. exists A. auto.
  - destruct (conclude_ok H (elastic st H) (r_stress r0) st None DF DE) as [sigma [Ec Ca]]. rewrite Ec.
    exists (FResult sigma st (r_stress r0) None), L, r0. split; [reflexivity|].
    destruct D as [[_ ->]|[_ [a [_ [_ [_ ->]]]]]]; [|discriminate].
    split; cbn [f_mandel f_status f_state f_stress r_stress r_state r_status]; auto; discriminate.
Qed.

(** ** every call returns; the plastic deformation keeps its volume and the accumulated strain does not decrease *)
Theorem finite_returns m st H : sound_finite m -> 0 <= feqps st -> det3 (deformation H) <> 0 -> det3 (Fpinv st) <> 0 ->
  exists r, j2_finite m st H = FReturned r.
Proof. intros M P D1 D2. destruct (finite_call m st H M P D1 D2) as [r [_ [_ [E _]]]]. now exists r. Qed.
Theorem finite_volume m st H r : sound_finite m -> 0 <= feqps st -> det3 (deformation H) <> 0 -> det3 (Fpinv st) <> 0 ->
  j2_finite m st H = FReturned r -> det3 (Fpinv (f_state r)) = det3 (Fpinv st) /\ feqps st <= feqps (f_state r).
Proof.
  intros M P D1 D2 E. destruct (finite_call m st H M P D1 D2) as [r' [L [r0 [E' C]]]]. rewrite E in E'. injection E' as <-. split.
  - destruct (f_status r) as [a|] eqn:Es.
    + destruct (cl_flow _ _ _ _ _ _ C a Es) as [A [_ [_ [D ->]]]]. rewrite det3_mul, D. ring.
    + now rewrite (cl_kept _ _ _ _ _ _ C Es).
  - rewrite (cl_eqps _ _ _ _ _ _ C).
    destruct (j2_state _ (as_small_sound m M) _ (at_rest_sound st P) _ r0 (cl_small _ _ _ _ _ _ C)) as [_ [X _]]. exact X.
Qed.
Theorem finite_history m : sound_finite m -> forall Hs st, 0 <= feqps st -> det3 (Fpinv st) = 1 ->
  Forall (fun H => det3 (deformation H) <> 0) Hs ->
  exists st', history m st Hs = Some st' /\ det3 (Fpinv st') = 1 /\ feqps st <= feqps st'.
Proof.
  intros M. induction Hs as [|H Hs IH]; intros st P D F; cbn [history].
  - exists st. repeat split; [exact D|lra].
  - inversion F as [|? ? D1 F']; subst. destruct (finite_returns m st H M P D1 ltac:(lra)) as [r E]. rewrite E.
    destruct (finite_volume m st H r M P D1 ltac:(lra) E) as [V Q]. destruct (IH (f_state r)) as [st' [E' [D' Q']]]; [lra|lra|exact F'|].
    exists st'. repeat split; [exact E'|exact D'|lra].
Qed.

(** ** rotating the body afterwards rotates the stress and leaves the state alone *)
Lemma exp_symm_ext A B : meq 3 A B -> exp_symm A = exp_symm B.
Proof. intro H. unfold exp_symm, matrix_function. now rewrite (eig_symm_ext A B H). Qed.
Lemma log_symm_ext A B : meq 3 A B -> log_symm A = log_symm B.
Proof. intro H. unfold log_symm. now rewrite (eig_symm_ext A B H). Qed.
Lemma turned_deformation Q H : meq 3 (deformation (rotated 3 Q H)) (mmul 3 Q (deformation H)).
Proof. intros i j _ _. unfold deformation, rotated, defgrad, madd, msub. ring. Qed.
Lemma carried_unique Fe M t t' : carried Fe M t -> carried Fe M t' -> meq 3 t t'.
Proof.
  intros [B [H1 [H2 H3]]] [C [K1 [K2 K3]]]. rewrite H3, K3.
  assert (E : meq 3 B C) by (apply (inverse_unique 3 (transpose Fe)); assumption). now rewrite E.
Qed.
Theorem finite_frame m st H Q r : sound_finite m -> 0 <= feqps st -> det3 (deformation H) <> 0 -> det3 (Fpinv st) <> 0 -> rotation 3 Q ->
  j2_finite m st H = FReturned r ->
  exists r', j2_finite m st (rotated 3 Q H) = FReturned r' /\ f_state r' = f_state r /\ f_status r' = f_status r /\
    meq 3 (f_stress r') (mmul 3 Q (mmul 3 (f_stress r) (transpose Q))).
Proof.
  intros M P D1 D2 [Q1 [Q2 QD]] E. unfold detn in QD. cbn [Nat.eqb] in QD.
  assert (TD := turned_deformation Q H).
  assert (DD : det3 (deformation (rotated 3 Q H)) = det3 (deformation H)) by (rewrite (det3_ext _ _ TD), det3_mul, QD; ring).
  destruct (finite_call m st H M P D1 D2) as [r1 [L [r0 [E1 C]]]]. rewrite E in E1. injection E1 as <-.
  destruct (finite_call m st (rotated 3 Q H) M P ltac:(now rewrite DD) D2) as [r' [L' [r0' [E' C']]]].
  exists r'. split; [exact E'|].
  assert (TE : forall s, meq 3 (elastic s (rotated 3 Q H)) (mmul 3 Q (elastic s H))).
  { intro s. unfold elastic. rewrite TD. apply mmul_assoc. }
  assert (TS : meq 3 (stretch st (rotated 3 Q H)) (stretch st H)).
  { unfold stretch. rewrite TE, transpose_mul, mmul_assoc, <- (mmul_assoc 3 (transpose Q) Q), Q1, mmul_ident_l. reflexivity. }
  assert (EL := cl_log _ _ _ _ _ _ C). assert (EL' := cl_log _ _ _ _ _ _ C'). rewrite (log_symm_ext _ _ TS), EL in EL'. injection EL' as <-.
  assert (E0 := cl_small _ _ _ _ _ _ C). assert (E0' := cl_small _ _ _ _ _ _ C'). rewrite E0 in E0'. injection E0' as <-.
  assert (Est : f_status r' = f_status r) by (rewrite (cl_status _ _ _ _ _ _ C), (cl_status _ _ _ _ _ _ C'); reflexivity).
  assert (Est' : f_state r' = f_state r).
  { destruct (f_status r) as [a|] eqn:Es.
    - destruct (cl_flow _ _ _ _ _ _ C a Es) as [A [EA [_ [_ X]]]]. destruct (cl_flow _ _ _ _ _ _ C' a Est) as [A' [EA' [_ [_ X']]]].
      rewrite EA in EA'. injection EA' as <-. assert (Y := cl_eqps _ _ _ _ _ _ C). assert (Y' := cl_eqps _ _ _ _ _ _ C').
      destruct (f_state r) as [p1 s1], (f_state r') as [p2 s2]. cbn [Fpinv feqps] in *. congruence.
    - now rewrite (cl_kept _ _ _ _ _ _ C Es), (cl_kept _ _ _ _ _ _ C' Est). }
  split; [exact Est'|]. split; [exact Est|].
  assert (K := cl_carried _ _ _ _ _ _ C). assert (K' := cl_carried _ _ _ _ _ _ C'). rewrite Est' in K'.
  rewrite (cl_mandel _ _ _ _ _ _ C) in K. rewrite (cl_mandel _ _ _ _ _ _ C') in K'.
  assert (KT : carried (elastic (f_state r) (rotated 3 Q H)) (r_stress r0) (mmul 3 Q (mmul 3 (kirchhoff H (f_stress r)) (transpose Q)))).
  { destruct K as [B [H1 [H2 H3]]]. exists (mmul 3 Q B). rewrite TE, transpose_mul. split; [|split].
    - rewrite mmul_assoc, <- (mmul_assoc 3 B), H1, mmul_ident_l. exact Q2.
    - rewrite mmul_assoc, <- (mmul_assoc 3 (transpose Q)), Q1, mmul_ident_l. exact H2.
    - rewrite H3. now rewrite !mmul_assoc. }
  assert (X := carried_unique _ _ _ _ K' KT). unfold kirchhoff in X. rewrite DD, mmul_scal_l, mmul_scal_r in X.
  intros i j Hi Hj. assert (Y := X i j Hi Hj). unfold mscal in Y. apply (Rmult_eq_reg_l (det3 (deformation H))); assumption.
Qed.

(** ** coaxial matrices *)
Definition coax (e : eigen) (B : mat) (f : R -> R) : Prop := meq 3 B (recompose e f).
Section Coax.
Variable e : eigen.
Hypothesis Fr : framed e.
Lemma coax_ext B f g : (forall k, (k < 3)%nat -> f (entry (lam e) k) = g (entry (lam e) k)) -> coax e B f -> coax e B g.
Proof. intros H C. eapply meq_trans; [exact C|]. now apply recompose_ext. Qed.
Lemma coax_meq B B' f : meq 3 B B' -> coax e B f -> coax e B' f.
Proof. intros H C. eapply meq_trans; [apply meq_sym, H|exact C]. Qed.
Lemma coax_scal c B f : coax e B f -> coax e (mscal c B) (fun x => c * f x).
Proof.
  intros C i j Hi Hj. rewrite (recompose_comp e _ i j Hi Hj). unfold mscal. rewrite (C i j Hi Hj), (recompose_comp e f i j Hi Hj). unfold comp. cbn [sumn]. ring.
Qed.
Lemma coax_add B C f g : coax e B f -> coax e C g -> coax e (madd B C) (fun x => f x + g x).
Proof.
  intros HB HC i j Hi Hj. rewrite (recompose_comp e _ i j Hi Hj). unfold madd.
  rewrite (HB i j Hi Hj), (HC i j Hi Hj), (recompose_comp e f i j Hi Hj), (recompose_comp e g i j Hi Hj). unfold comp. cbn [sumn]. ring.
Qed.
Lemma coax_ident : coax e ident (fun _ => 1).
Proof.
  apply meq_sym. eapply meq_trans; [apply recompose_comp|]. eapply meq_trans; [apply comp_const, framed_orth, Fr|].
  intros i j _ _. ring.
Qed.
Lemma coax_dev B f : coax e B f -> coax e (dev 3 B) (fun x => f x + - (tr 3 B / 3) * 1).
Proof.
  intro C. apply (coax_meq (madd B (mscal (- (tr 3 B / 3)) ident))).
  - intros i j _ _. unfold dev, madd, mscal, ident. replace (INR 3) with 3 by (cbn [INR]; lra). destruct (Nat.eqb i j); field.
  - apply coax_add; [exact C|]. apply coax_scal, coax_ident.
Qed.
Lemma coax_mul B C f g : coax e B f -> coax e C g -> coax e (mmul 3 B C) (fun x => f x * g x).
Proof. intros HB HC. unfold coax in *. rewrite HB, HC. now apply recompose_mul. Qed.
Lemma coax_commute B C f g : coax e B f -> coax e C g -> meq 3 (mmul 3 B C) (mmul 3 C B).
Proof.
  intros HB HC. assert (X := coax_mul _ _ _ _ HB HC). assert (Y := coax_mul _ _ _ _ HC HB). unfold coax in X, Y. rewrite X, Y.
  apply recompose_ext. intros. ring.
Qed.
Lemma coax_sym B f : coax e B f -> meq 3 (transpose B) B.
Proof. intros C i j Hi Hj. unfold transpose. rewrite (C i j Hi Hj), (C j i Hj Hi). apply recompose_symmetric. Qed.
Lemma coax_function B f g e' : coax e B f -> eig_symm B = Some e' -> decomposes B e' -> coax e (recompose e' g) (fun x => g (f x)).
Proof.
  intros C E D. apply function_compose; [exact Fr|now rewrite <- (eig_symm_ext _ _ C)|].
  intros k Hk. rewrite <- (D k Hk). symmetry. now apply mv3_ext.
Qed.
Lemma coax_exp D A f : coax e D f -> exact_eig D -> exp_symm D = Some A -> coax e A (fun x => exp (f x)).
Proof.
  intros C [e' [E' D']] X. unfold exp_symm, matrix_function in X. rewrite E' in X. cbn [option_map] in X. injection X as <-. now apply (coax_function D f exp e').
Qed.
Lemma coax_log B L f : coax e B f -> exact_eig B -> log_symm B = Some L -> coax e L (fun x => ln (f x)).
Proof.
  intros C [e' [E' D']] X. unfold log_symm in X. rewrite E' in X. destruct (positive_dec e'); [|discriminate]. injection X as <-. now apply (coax_function B f ln e').
Qed.
End Coax.

(** ** the Kirchhoff stress of a coaxial Mandel stress *)
Lemma carried_symmetric Fe M tau : carried Fe M tau -> meq 3 (transpose M) M ->
  meq 3 (mmul 3 M (mmul 3 (transpose Fe) Fe)) (mmul 3 (mmul 3 (transpose Fe) Fe) M) -> meq 3 (transpose tau) tau.
Proof.
  intros [B [H1 [H2 H3]]] SM CM. rewrite H3. rewrite !transpose_mul, transpose_twice, SM.
  assert (HB : meq 3 (mmul 3 Fe (transpose B)) ident).
  { rewrite <- (transpose_twice Fe), <- transpose_mul, H1. apply transpose_ident. }
  (* both sides are B (M C) B^T *)
  transitivity (mmul 3 B (mmul 3 (mmul 3 M (mmul 3 (transpose Fe) Fe)) (transpose B))).
  - rewrite CM, !mmul_assoc, <- (mmul_assoc 3 B (transpose Fe)), H1, mmul_ident_l. reflexivity.
  - rewrite !mmul_assoc, HB, mmul_ident_r. reflexivity.
Qed.
Lemma similar_tr B C X : meq 3 (mmul 3 C B) ident -> tr 3 (mmul 3 (mmul 3 B X) C) = tr 3 X.
Proof. intro H. rewrite tr_mul_comm. apply tr_proper. rewrite <- mmul_assoc, H. apply mmul_ident_l. Qed.
Lemma carried_mises Fe M tau : carried Fe M tau -> meq 3 (transpose M) M -> meq 3 (transpose tau) tau -> mises (dev 3 tau) = mises (dev 3 M).
Proof.
  intros [B [H1 [H2 H3]]] SM ST. unfold mises. f_equal. f_equal. rewrite !sqn_inner, !inner_tr.
  assert (DT : meq 3 (dev 3 tau) (mmul 3 (mmul 3 B (dev 3 M)) (transpose Fe))).
  { assert (DM : forall X, meq 3 (dev 3 X) (msub X (mscal (tr 3 X / 3) ident))).
    { intros X i j _ _. unfold dev, msub, mscal, ident. replace (INR 3) with 3 by (cbn [INR]; lra). destruct (Nat.eqb i j); field. }
    rewrite (DM tau), (DM M). assert (T : tr 3 tau = tr 3 M) by (rewrite (tr_proper 3 _ _ H3); now apply similar_tr).
    rewrite T, H3, mmul_sub_r, mmul_sub_l, mmul_scal_r, mmul_scal_l, mmul_ident_r, H1. reflexivity. }
  assert (SD : forall X, meq 3 (transpose X) X -> meq 3 (transpose (dev 3 X)) (dev 3 X)).
  { intros X SX. exact (dev_symmetric 3 X SX). }
  rewrite (tr_proper 3 _ (mmul 3 (dev 3 tau) (dev 3 tau))) by (rewrite (SD tau ST); reflexivity).
  rewrite (tr_proper 3 (mmul 3 (transpose (dev 3 M)) (dev 3 M)) (mmul 3 (dev 3 M) (dev 3 M))) by (rewrite (SD M SM); reflexivity).
  rewrite (tr_proper 3 _ (mmul 3 (mmul 3 B (mmul 3 (dev 3 M) (dev 3 M))) (transpose Fe))).
  - now apply similar_tr.
  - rewrite DT, !mmul_assoc, <- (mmul_assoc 3 (transpose Fe) B), H2, mmul_ident_l. reflexivity.
Qed.
