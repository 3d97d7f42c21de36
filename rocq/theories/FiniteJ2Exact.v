(** * Plastic steps whose eigendecompositions have no error (C59) *)
From Coq Require Import Reals Lra Lia List Setoid Morphisms.
From Verif Require Import Sums Tensor MatAlg Materials MaterialFacts ScalarSolve Plasticity PlasticityEx SymEig SymEigFacts SymEigRotate SymEigMain IsoFun IsoEig FiniteJ2 FiniteJ2Facts FiniteJ2Main.
Local Open Scope R_scope.

(** the three eigendecompositions of a call have no error: of the stretch before and after, and of the plastic increment *)
Definition exact_step (m : fj2) (st : fstate) (H : mat) (r : fresult) : Prop :=
  exact_eig (stretch st H) /\ exact_eig (stretch (f_state r) H) /\
  (f_status r <> None -> forall L, log_symm (stretch st H) = Some L ->
     exact_eig (mscal (- (feqps (f_state r) - feqps st)) (flow_direction m L))).

Section Exact.
Variables (m : fj2) (st : fstate) (H : mat) (r : fresult).
Hypothesis M : sound_finite m.
Hypothesis Pos : 0 <= feqps st.
Hypothesis DF : det3 (deformation H) <> 0.
Hypothesis DP : det3 (Fpinv st) <> 0.
Hypothesis Ran : j2_finite m st H = FReturned r.
Hypothesis Ex : exact_step m st H r.

Lemma state_invertible : det3 (elastic (f_state r) H) <> 0.
Proof.
  destruct (finite_volume m st H r M Pos DF DP Ran) as [V _]. unfold elastic. rewrite det3_mul, V. now apply Rmult_integral_contrapositive_currified.
Qed.

(** what the call computed, in the frame of the stretch *)
Lemma step_frame : exists e L r0, call m st H r L r0 /\ framed e /\ (forall k, (k < 3)%nat -> 0 < entry (lam e) k) /\
  coax e (stretch st H) (fun x => x) /\ coax e L ln /\
  (exists g, coax e (ep (r_state r0)) g) /\
  (f_status r <> None -> meq 3 (ep (r_state r0)) (mscal (feqps (f_state r) - feqps st) (flow_direction m L))) /\
  (f_status r = None -> meq 3 (ep (r_state r0)) (fun _ _ => 0)).
Proof.
  destruct (finite_call m st H M Pos DF DP) as [r1 [L [r0 [E1 C]]]]. rewrite Ran in E1. injection E1 as <-.
  destruct Ex as [[e [Ee De]] _]. assert (DE : det3 (elastic st H) <> 0) by (unfold elastic; rewrite det3_mul; now apply Rmult_integral_contrapositive_currified).
  assert (Sy : symmetric3 (stretch st H)) by apply gram_symmetric.
  destruct (eig_framed _ _ Sy Ee) as [Fr _]. assert (PV := returned_positive _ _ Sy (gram_definite _ DE) Ee).
  assert (EL := cl_log _ _ _ _ _ _ C). assert (EL' := EL). unfold log_symm in EL'. rewrite Ee in EL'. destruct (positive_dec e); [|contradiction]. injection EL' as EL'.
  assert (SL := log_symmetric _ _ EL).
  exists e, L, r0. split; [exact C|]. split; [exact Fr|]. split; [now apply values_entries|].
  split; [apply meq_sym; now apply function_identity|]. split; [rewrite <- EL'; apply meq_refl|].
  assert (CL : coax e L ln) by (rewrite <- EL'; apply meq_refl).
  assert (CD : exists h, coax e (flow_direction m L) h).
  { unfold flow_direction. cbv zeta. eexists. apply coax_scal, coax_scal, (coax_dev e Fr), coax_scal, CL. }
  assert (E0 := cl_small _ _ _ _ _ _ C).
  destruct (j2_returns _ (as_small_sound m M) _ (at_rest_sound st Pos) (strain L)) as [r0' [E0' D]]. rewrite E0 in E0'. injection E0' as <-.
  assert (Q := cl_status _ _ _ _ _ _ C). assert (QE := cl_eqps _ _ _ _ _ _ C).
  destruct D as [[_ ->]|[_ [a [_ [_ [_ ->]]]]]]; cbn [r_state r_status ep eqps at_rest] in *.
  - split; [|split].
    + exists (fun _ => 0). intros i j Hi Hj. rewrite (recompose_comp e _ i j Hi Hj). unfold comp. cbn [sumn]. ring.
    + intro N. now rewrite Q in N.
    + intros _. apply meq_refl.
  - assert (EF : flow (as_small m) (at_rest st) (strain L) = flow_direction m L).
    { unfold flow. rewrite (predictor_same m st L SL). cbn [t_q t_eta]. reflexivity. }
    rewrite EF. assert (X : meq 3 (madd (fun _ _ => 0) (mscal (a_x a) (flow_direction m L))) (mscal (feqps (f_state r) - feqps st) (flow_direction m L))).
    { intros i j _ _. unfold madd, mscal. rewrite QE. ring. }
    split; [|split].
    + destruct CD as [h Ch]. eexists. apply (coax_meq e _ _ _ (meq_sym _ _ _ X)), coax_scal, Ch.
    + intros _. exact X.
    + intro N. rewrite Q in N. discriminate.
Qed.

(** the elastic logarithmic strain after the call is the one before minus the plastic increment *)
Lemma step_strain : exists e L L' r0, call m st H r L r0 /\ log_symm (stretch (f_state r) H) = Some L' /\ framed e /\
  (exists f, coax e (stretch (f_state r) H) f) /\ (exists f, coax e (strain L') f) /\
  meq 3 (strain L') (msub (strain L) (ep (r_state r0))).
Proof.
  destruct step_frame as (e & L & r0 & C & Fr & PE & CS & CL & [g Cg] & FI & FN).
  assert (DE' := state_invertible). destruct (log_total (stretch (f_state r) H) (gram_symmetric _) (gram_definite _ DE')) as [e' [Ee' [Fr' [PV' EL']]]].
  exists e, L, (recompose e' ln), r0. split; [exact C|]. split; [exact EL'|]. split; [exact Fr|].
  destruct Ex as [_ [X' XD]].
  destruct (f_status r) as [a|] eqn:Es.
  - destruct (cl_flow _ _ _ _ _ _ C a Es) as [A [EA [SA [_ FP]]]].
    assert (CX : coax e (mscal (-1) (ep (r_state r0))) (fun x => -1 * g x)) by now apply coax_scal.
    assert (XD' : exact_eig (mscal (-1) (ep (r_state r0)))).
    { apply (exact_eig_ext (mscal (- (feqps (f_state r) - feqps st)) (flow_direction m L))).
      - intros i j Hi Hj. unfold mscal at 2. rewrite (FI ltac:(discriminate) i j Hi Hj). unfold mscal. ring.
      - apply XD; [discriminate|exact (cl_log _ _ _ _ _ _ C)]. }
    assert (CA := coax_exp e Fr _ _ _ CX XD' EA).
    assert (ES : meq 3 (stretch (f_state r) H) (mmul 3 A (mmul 3 (stretch st H) A))).
    { assert (EE : meq 3 (elastic (f_state r) H) (mmul 3 (elastic st H) A)).
      { unfold elastic. rewrite FP. now rewrite mmul_assoc. }
      assert (TA : meq 3 (transpose A) A) by (intros i j Hi Hj; unfold transpose; now apply SA).
      unfold stretch. rewrite EE, transpose_mul, TA. now rewrite !mmul_assoc. }
    assert (CS' : coax e (stretch (f_state r) H) (fun x => exp (-1 * g x) * (x * exp (-1 * g x)))).
    { apply (coax_meq e _ _ _ (meq_sym _ _ _ ES)). apply (coax_mul e Fr); [exact CA|]. now apply (coax_mul e Fr). }
    assert (CL' := coax_log e Fr _ _ _ CS' X' EL').
    split; [eexists; exact CS'|]. split; [eexists; unfold strain; apply coax_scal, CL'|].
    assert (CR : coax e (msub (strain L) (ep (r_state r0))) (fun x => 0.5 * ln x + -1 * g x)).
    { apply (coax_meq e (madd (strain L) (mscal (-1) (ep (r_state r0))))).
      - intros i j _ _. unfold madd, msub, mscal. ring.
      - apply coax_add; [|exact CX]. unfold strain. now apply coax_scal. }
    assert (CSt : coax e (strain (recompose e' ln)) (fun x => 0.5 * ln (exp (-1 * g x) * (x * exp (-1 * g x))))) by (unfold strain; now apply coax_scal).
    unfold coax in CR, CSt. rewrite CR, CSt. apply recompose_ext. intros k Hk. assert (P := PE k Hk). set (x := entry (lam e) k) in *. clearbody x.
    assert (P' := exp_pos (-1 * g x)). rewrite !ln_mult, !ln_exp; auto; [lra|]. now apply Rmult_lt_0_compat.
  - rewrite (cl_kept _ _ _ _ _ _ C Es) in *. rewrite (cl_log _ _ _ _ _ _ C) in EL'. injection EL' as ->.
    split; [eexists; exact CS|]. split; [eexists; unfold strain; apply coax_scal, CL|].
    intros i j Hi Hj. unfold msub. rewrite (FN eq_refl i j Hi Hj). ring.
Qed.

(** ** the stress returned is the elastic stress of the state left behind *)
Lemma hencky_ext A B : meq 3 A B -> meq 3 (hencky m A) (hencky m B).
Proof. intro E. unfold hencky, total. now rewrite E. Qed.
Lemma step_mandel : exists e L L' r0, call m st H r L r0 /\ log_symm (stretch (f_state r) H) = Some L' /\ framed e /\
  (exists f, coax e (stretch (f_state r) H) f) /\ (exists f, coax e (f_mandel r) f) /\
  meq 3 (strain L') (msub (strain L) (ep (r_state r0))) /\ meq 3 (f_mandel r) (hencky m (strain L')).
Proof.
  destruct step_strain as (e & L & L' & r0 & C & EL' & Fr & CS & CL & ES). exists e, L, L', r0. split; [exact C|]. split; [exact EL'|]. split; [exact Fr|].
  split; [exact CS|].
  assert (E0 := cl_small _ _ _ _ _ _ C). assert (SS := at_rest_sound st Pos). assert (SM := as_small_sound m M).
  assert (SL := log_symmetric _ _ (cl_log _ _ _ _ _ _ C)).
  destruct (j2_state _ SM _ SS _ _ E0) as [[_ _ T0] _].
  assert (EM : meq 3 (f_mandel r) (hencky m (strain L'))).
  { rewrite (cl_mandel _ _ _ _ _ _ C), (hencky_ext _ _ ES). unfold hencky. rewrite tr_sub, T0, Rminus_0_r.
    assert (DD : meq 3 (dev 3 (msub (strain L) (ep (r_state r0)))) (msub (dev 3 (strain L)) (ep (r_state r0)))).
    { rewrite dev_msub, (dev_of_traceless (ep (r_state r0)) T0). reflexivity. }
    destruct (j2_returns _ SM _ SS (strain L)) as [r0' [E0' D]]. rewrite E0 in E0'. injection E0' as <-.
    destruct D as [[_ ->]|[_ [a [_ [_ [_ ->]]]]]]; cbn [r_state r_stress ep at_rest] in *; unfold total; rewrite DD, (predictor_same m st L SL); cbn [t_s t_p].
    - f_equiv. intros i j _ _. unfold mscal, msub. ring.
    - f_equiv. intros i j _ _. unfold mscal, msub, madd. cbn [as_small j_E j_nu]. ring. }
  split; [|split; [exact ES|exact EM]].
  destruct CL as [f Cf]. eexists. apply (coax_meq e _ _ _ (meq_sym _ _ _ EM)). unfold hencky, total.
  apply coax_add; [apply coax_scal, (coax_dev e Fr), Cf|apply coax_scal, coax_ident, Fr].
Qed.

Theorem step_elastic : exists L', log_symm (stretch (f_state r) H) = Some L' /\
  carried (elastic (f_state r) H) (hencky m (mscal 0.5 L')) (kirchhoff H (f_stress r)).
Proof.
  destruct step_mandel as (e & L & L' & r0 & C & EL' & Fr & _ & _ & _ & EM). exists L'. split; [exact EL'|].
  destruct (cl_carried _ _ _ _ _ _ C) as [B [H1 [H2 H3]]]. exists B. split; [exact H1|]. split; [exact H2|]. rewrite H3, EM. reflexivity.
Qed.
Lemma step_kirchhoff : meq 3 (transpose (kirchhoff H (f_stress r))) (kirchhoff H (f_stress r)) /\ meq 3 (transpose (f_mandel r)) (f_mandel r).
Proof.
  destruct step_mandel as (e & L & L' & r0 & C & EL' & Fr & [f Cf] & [g Cg] & _ & _).
  assert (SM := coax_sym e _ _ Cg). split; [|exact SM].
  apply (carried_symmetric (elastic (f_state r) H) (f_mandel r)); [exact (cl_carried _ _ _ _ _ _ C)|exact SM|].
  exact (coax_commute e Fr _ _ _ _ Cg Cf).
Qed.
Theorem step_symmetric : symmetric 3 (f_stress r).
Proof.
  destruct step_kirchhoff as [X _]. intros i j Hi Hj. assert (Y := X i j Hi Hj). unfold kirchhoff, transpose, mscal in Y. unfold transpose.
  now apply (Rmult_eq_reg_l (det3 (deformation H))).
Qed.

(** ** yield *)
Lemma step_overstress r0 L : call m st H r L r0 ->
  mises (dev 3 (kirchhoff H (f_stress r))) - h_Y (f_h m) (feqps (f_state r)) = overstress (as_small m) (r_state r0) (r_stress r0).
Proof.
  intro C. destruct step_kirchhoff as [SK SM]. rewrite (carried_mises _ _ _ (cl_carried _ _ _ _ _ _ C) SM SK).
  unfold overstress. rewrite (cl_eqps _ _ _ _ _ _ C), (cl_mandel _ _ _ _ _ _ C). cbn [as_small j_h]. f_equal. apply mises_ext.
  intros i j _ _. unfold back_stress, msub, mscal. cbn [as_small j_Hk]. ring.
Qed.
Theorem step_yield : (forall a, f_status r = Some a -> a_converged a = true) ->
  mises (dev 3 (kirchhoff H (f_stress r))) - h_Y (f_h m) (feqps (f_state r)) <= tolerance * h_sy (f_h m) /\
  (f_status r <> None -> Rabs (mises (dev 3 (kirchhoff H (f_stress r))) - h_Y (f_h m) (feqps (f_state r))) <= tolerance * h_sy (f_h m)).
Proof.
  intro Cv. destruct step_mandel as (e & L & L' & r0 & C & _).
  rewrite (step_overstress r0 L C). assert (E0 := cl_small _ _ _ _ _ _ C). assert (SS := at_rest_sound st Pos). assert (SM := as_small_sound m M).
  assert (Q := cl_status _ _ _ _ _ _ C).
  assert (On : f_status r <> None -> Rabs (overstress (as_small m) (r_state r0) (r_stress r0)) <= tolerance * h_sy (f_h m)).
  { intro N. destruct (f_status r) as [a|]; [|congruence]. apply (j2_on_surface _ SM _ SS _ r0 a E0); [now rewrite Q|now apply Cv]. }
  split; [|exact On]. destruct (f_status r) as [a|].
  - eapply Rle_trans; [apply Rle_abs|]. apply On. discriminate.
  - destruct (j2_returns _ SM _ SS (strain L)) as [r0' [E0' D]]. rewrite E0 in E0'. injection E0' as <-.
    destruct D as [[Le ->]|[_ [a [_ [_ [_ ->]]]]]]; [|discriminate]. cbn [r_state r_stress] in *.
    eapply Rle_trans; [|exact Le]. right. unfold overstress, yield_residual. rewrite Rmult_0_r, Rminus_0_r. f_equal; [|now rewrite Rplus_0_r].
    rewrite q_is_mises. apply mises_ext. rewrite dev_total by apply s_traceless. reflexivity.
Qed.

(** plastic flow: isochoric, measured by the accumulated strain, along the stress *)
Theorem step_flow : exists L L', log_symm (stretch st H) = Some L /\ log_symm (stretch (f_state r) H) = Some L' /\
  equivalent_strain (msub (mscal 0.5 L) (mscal 0.5 L')) = feqps (f_state r) - feqps st /\
  tr 3 (msub (mscal 0.5 L) (mscal 0.5 L')) = 0 /\
  0 <= inner 3 3 (f_mandel r) (msub (mscal 0.5 L) (mscal 0.5 L')).
Proof.
  destruct step_mandel as (e & L & L' & r0 & C & EL' & _ & _ & _ & ES & _). exists L, L'. split; [exact (cl_log _ _ _ _ _ _ C)|]. split; [exact EL'|].
  assert (E0 := cl_small _ _ _ _ _ _ C). assert (SS := at_rest_sound st Pos). assert (SM := as_small_sound m M).
  assert (EI : meq 3 (msub (mscal 0.5 L) (mscal 0.5 L')) (ep (r_state r0))).
  { intros i j Hi Hj. assert (X := ES i j Hi Hj). unfold strain, msub in *. lra. }
  destruct (j2_state _ SM _ SS _ _ E0) as [[_ _ T0] [_ [Eq _]]].
  assert (EZ : meq 3 (msub (ep (r_state r0)) (ep (at_rest st))) (ep (r_state r0))) by (intros i j _ _; unfold msub; cbn [at_rest ep]; ring).
  split; [|split].
  - rewrite (cl_eqps _ _ _ _ _ _ C). rewrite equivalent_of_mises in *. rewrite (mises_ext _ _ EI), <- (mises_ext _ _ EZ). exact Eq.
  - now rewrite (tr_proper 3 _ _ EI).
  - assert (Di := j2_dissipation _ SM _ SS _ _ E0). rewrite (inner_proper 3 _ _ (meq_refl 3 _) _ _ EZ) in Di.
    rewrite (inner_proper 3 _ _ (meq_refl 3 (f_mandel r)) _ _ EI), (cl_mandel _ _ _ _ _ _ C).
    eapply Rle_trans; [exact Di|]. right.
    rewrite (inner_proper 3 (msub (dev 3 (r_stress r0)) (back_stress (as_small m) (r_state r0))) (msub (r_stress r0) (mscal (tr 3 (r_stress r0) / 3) ident))
      ltac:(intros i j _ _; unfold dev, msub, back_stress, mscal, ident; cbn [as_small j_Hk]; replace (INR 3) with 3 by (cbn [INR]; lra); destruct (Nat.eqb i j); field) _ _ (meq_refl 3 _)).
    set (X := ep (r_state r0)) in *. clearbody X. clear - T0. unfold tr in T0. cbn [sumn] in T0. unfold inner, msub, mscal, ident. cbn [sumn Nat.eqb].
    set (u := tr 3 (r_stress r0) / 3). clearbody u.
    transitivity (sumn 3 (fun i => sumn 3 (fun j => r_stress r0 i j * X i j)) - u * (X 0%nat 0%nat + X 1%nat 1%nat + X 2%nat 2%nat)); [cbn [sumn]; ring|].
    rewrite (Rplus_assoc (X 0%nat 0%nat)). replace (X 0%nat 0%nat + (X 1%nat 1%nat + X 2%nat 2%nat)) with 0 by lra. cbn [sumn]. ring.
Qed.

(** ** calling again with the updated state changes nothing *)
Theorem step_repeat : (forall a, f_status r = Some a -> a_converged a = true) ->
  exists r', j2_finite m (f_state r) H = FReturned r' /\ f_status r' = None /\ f_state r' = f_state r /\ meq 3 (f_stress r') (f_stress r).
Proof.
  intro Cv. destruct step_mandel as (e & L & L' & r0 & C & EL' & Fr & _ & _ & ES & EM).
  destruct (finite_volume m st H r M Pos DF DP Ran) as [V Q].
  assert (P' : 0 <= feqps (f_state r)) by lra. assert (DP' : det3 (Fpinv (f_state r)) <> 0) by now rewrite V.
  destruct (finite_call m (f_state r) H M P' DF DP') as [r' [L2 [r1 [E' C']]]]. exists r'. split; [exact E'|].
  assert (E2 := cl_log _ _ _ _ _ _ C'). rewrite EL' in E2. injection E2 as <-.
  assert (SS' := at_rest_sound (f_state r) P'). assert (SM := as_small_sound m M). assert (SL' := log_symmetric _ _ EL').
  assert (El : j2_small (as_small m) (at_rest (f_state r)) (strain L') =
    Returned {| r_stress := hencky m (strain L'); r_state := at_rest (f_state r); r_status := None |}).
  { assert (PS := predictor_same m (f_state r) L' SL').
    assert (Z := j2_elastic (as_small m) (at_rest (f_state r)) (strain L')). rewrite PS in Z. cbn [t_s t_p] in Z. apply Z.
    - apply (sm_nu _ SM).
    - fold (hencky m (strain L')). destruct (step_yield Cv) as [Y _]. rewrite (step_overstress r0 L C) in Y.
      eapply Rle_trans; [|exact Y]. right. unfold overstress. cbn [at_rest eqps]. rewrite (cl_eqps _ _ _ _ _ _ C). f_equal. apply mises_ext.
      rewrite <- (cl_mandel _ _ _ _ _ _ C), EM. intros i j _ _. unfold msub, back_stress, mscal. cbn [as_small j_Hk]. ring. }
  assert (E3 := cl_small _ _ _ _ _ _ C'). rewrite El in E3. injection E3 as E3. 
  assert (N : f_status r' = None) by (rewrite (cl_status _ _ _ _ _ _ C'), <- E3; reflexivity).
  assert (K := cl_kept _ _ _ _ _ _ C' N). split; [exact N|]. split; [exact K|].
  assert (K1 := cl_carried _ _ _ _ _ _ C). assert (K2 := cl_carried _ _ _ _ _ _ C'). rewrite K, (cl_mandel _ _ _ _ _ _ C'), <- E3 in K2. cbn [r_stress] in K2.
  assert (K3 : carried (elastic (f_state r) H) (hencky m (strain L')) (kirchhoff H (f_stress r))).
  { destruct K1 as [B [H1 [H2 H3]]]. exists B. split; [exact H1|]. split; [exact H2|]. rewrite H3, EM. reflexivity. }
  assert (X := carried_unique _ _ _ _ K2 K3). intros i j Hi Hj. assert (Y := X i j Hi Hj). unfold kirchhoff, mscal in Y.
  now apply (Rmult_eq_reg_l (det3 (deformation H))).
Qed.
End Exact.
