(** * Facts about finite-deformation plasticity (C59) *)
From Coq Require Import Reals Lra Lia List FunctionalExtensionality Setoid Morphisms.
From Verif Require Import Sums Tensor MatAlg Materials MaterialFacts ScalarSolve Plasticity PlasticityEx SymEig SymEigFacts SymEigRotate SymEigMain IsoFun IsoEig FiniteJ2.
Import ListNotations.
Local Open Scope R_scope.

(** ** positive definite matrices have positive determinants and a logarithm *)
Lemma pd_det A : symmetric3 A -> positive_definite A -> 0 < det3 A.
Proof.
  intros S P. assert (S01 := S 0%nat 1%nat ltac:(lia) ltac:(lia)). assert (S02 := S 0%nat 2%nat ltac:(lia) ltac:(lia)). assert (S12 := S 1%nat 2%nat ltac:(lia) ltac:(lia)).
  unfold det3. rewrite <- S01, <- S02, <- S12.
  set (a := A 0%nat 0%nat) in *. set (b := A 0%nat 1%nat) in *. set (c := A 0%nat 2%nat) in *.
  set (d := A 1%nat 1%nat) in *. set (e := A 1%nat 2%nat) in *. set (f := A 2%nat 2%nat) in *.
  assert (Q : forall x y z, (x <> 0 \/ y <> 0 \/ z <> 0) ->
    0 < x * (a * x + b * y + c * z) + y * (b * x + d * y + e * z) + z * (c * x + e * y + f * z)).
  { intros x y z N. assert (X := P (V x y z)). unfold dot3, mv3 in X. cbn [c0 c1 c2] in X. fold a b c d e f in X. rewrite <- S01, <- S02, <- S12 in X. apply X.
    intro Z. unfold zero3 in Z. injection Z as -> -> ->. lra. }
  assert (Pa : 0 < a). { assert (X := Q 1 0 0 ltac:(left; lra)). lra. }
  assert (Pm : 0 < a * d - b * b).
  { assert (X := Q (- b) a 0 ltac:(right; left; lra)). apply (Rmult_lt_reg_l a); [exact Pa|]. rewrite Rmult_0_r.
    eapply Rlt_le_trans; [exact X|]. right. ring. }
  assert (X := Q (b * e - c * d) (b * c - a * e) (a * d - b * b) ltac:(right; right; lra)).
  apply (Rmult_lt_reg_l (a * d - b * b)); [exact Pm|]. rewrite Rmult_0_r. eapply Rlt_le_trans; [exact X|]. right. ring.
Qed.
Lemma pd_shift A x : symmetric3 A -> positive_definite A -> x <= 0 -> charpoly A x <> 0.
Proof.
  intros S P Hx. apply Rgt_not_eq. unfold charpoly. apply pd_det.
  - intros i j Hi Hj. rewrite (S i j Hi Hj). rewrite (Nat.eqb_sym i j). reflexivity.
  - intros u N. assert (X := P u N). assert (Y := dot3_self u).
    replace (dot3 u (mv3 _ u)) with (dot3 u (mv3 A u) - x * dot3 u u); [|unfold dot3, mv3; cbn [c0 c1 c2 Nat.eqb]; ring].
    assert (0 <= - x * dot3 u u) by (apply Rmult_le_pos; lra). lra.
Qed.
Lemma returned_positive A e : symmetric3 A -> positive_definite A -> eig_symm A = Some e -> positive_values e.
Proof.
  intros S P E. destruct (eig_symm_total A S) as [e' [E' [F [_ [_ C]]]]]. rewrite E in E'. injection E' as <-. apply positive_entries_values.
  assert (Ex : forall k, (k < 3)%nat -> residual A (entry (lam e) k) (column e k) = zero3 -> 0 < entry (lam e) k).
  { intros k Hk R. apply residual_zero in R. assert (X := P _ (column_nonzero e k F Hk)). rewrite R, dot3_scal_r, F, Nat.eqb_refl in X by assumption. lra. }
  destruct C as [[Sp _]|(i & j & k & Hi & Hj & Hk & N1 & N2 & N3 & R & _ & Eq & b & _ & Ri & Rj)].
  - intros k Hk. destruct (Rlt_le_dec 0 (entry (lam e) k)) as [L|L]; [exact L|]. exfalso. apply (pd_shift A _ S P L).
    assert (X := Sp (entry (lam e) k)).
    assert (Z : (entry (lam e) k - c0 (lam e)) * (entry (lam e) k - c1 (lam e)) * (entry (lam e) k - c2 (lam e)) = 0) by (destruct k as [|[|[|]]]; try lia; cbn [entry]; ring). lra.
  - assert (Av : forall i j, (i < 3)%nat -> (j < 3)%nat -> i <> j -> residual A (entry (lam e) i) (column e i) = vscal b (column e j) -> 0 < entry (lam e) i).
    { clear - F P. intros i j Hi Hj N R. assert (X := P _ (column_nonzero e i F Hi)).
      assert (Y := f_equal (dot3 (column e i)) R). rewrite dot3_scal_r, (F i j Hi Hj) in Y. destruct (Nat.eqb_spec i j); [contradiction|].
      assert (Z := F i i Hi Hi). rewrite Nat.eqb_refl in Z. unfold residual in Y. unfold vsub, vscal, dot3 in *. cbn [c0 c1 c2] in *. nra. }
    intros k' Hk'. destruct (Nat.eq_dec k' k) as [->|]; [now apply Ex|]. destruct (Nat.eq_dec k' i) as [->|]; [now apply (Av i j)|].
    assert (k' = j) as -> by lia. apply (Av j i); auto.
Qed.
Lemma recompose_symmetric e f i j : recompose e f i j = recompose e f j i.
Proof.
  unfold recompose, mmul, transpose, diag3. apply eq_trans with (sumn 3 (fun k => f (entry (lam e) k) * basis e i k * basis e j k)).
  - apply sumn_ext. intros k Hk. rewrite <- (Rmult_1_r (f _ * _ * _)). destruct k as [|[|[|]]]; try lia; cbn [sumn Nat.eqb]; ring.
  - apply sumn_ext. intros k Hk. rewrite <- (Rmult_1_r (basis e j k * _)). destruct k as [|[|[|]]]; try lia; cbn [sumn Nat.eqb]; ring.
Qed.
Lemma log_total A : symmetric3 A -> positive_definite A -> exists e, eig_symm A = Some e /\ framed e /\ positive_values e /\ log_symm A = Some (recompose e ln).
Proof.
  intros S P. destruct (eig_symm_total A S) as [e [E [F _]]]. exists e. split; [exact E|]. split; [exact F|].
  assert (V := returned_positive A e S P E). split; [exact V|]. unfold log_symm. rewrite E. destruct (positive_dec e); [reflexivity|contradiction].
Qed.
Lemma log_symmetric A L : log_symm A = Some L -> forall i j, L i j = L j i.
Proof.
  intros E i j. unfold log_symm in E. destruct (eig_symm A) as [e|]; [|discriminate]. destruct (positive_dec e); [|discriminate].
  injection E as <-. apply recompose_symmetric.
Qed.
Lemma gram_symmetric B : symmetric3 (mmul 3 (transpose B) B).
Proof. intros i j Hi Hj. unfold mmul, transpose. apply sumn_ext. intros. ring. Qed.
Lemma mv3_mul A B u : mv3 (mmul 3 A B) u = mv3 A (mv3 B u).
Proof. unfold mv3, mmul. cbn [sumn c0 c1 c2]. f_equal; ring. Qed.
Lemma dot3_transpose A u w : dot3 u (mv3 (transpose A) w) = dot3 (mv3 A u) w.
Proof. unfold dot3, mv3, transpose. cbn [c0 c1 c2]. ring. Qed.
Lemma mv3_ext A B u : meq 3 A B -> mv3 A u = mv3 B u.
Proof. intro H. unfold mv3. rewrite !H by lia. reflexivity. Qed.
Lemma mv3_ident u : mv3 ident u = u.
Proof. destruct u as [x y z]. unfold mv3, ident. cbn [Nat.eqb c0 c1 c2]. f_equal; ring. Qed.
Lemma gram_definite B : det3 B <> 0 -> positive_definite (mmul 3 (transpose B) B).
Proof.
  intros D u N. rewrite mv3_mul, dot3_transpose. apply inv3_defined in D. destruct D as [C E]. destruct (inv3_mul _ _ E) as [_ H].
  assert (X := dot3_self (mv3 B u)). destruct (Rle_lt_or_eq_dec _ _ X) as [L|Z]; [exact L|]. exfalso. apply N.
  symmetry in Z. apply dot3_zero in Z. rewrite <- (mv3_ident u), <- (mv3_ext _ _ u H), mv3_mul, Z. unfold mv3, zero3. cbn [c0 c1 c2]. f_equal; ring.
Qed.

(** ** the return map is the one for small strains, applied to the elastic logarithmic strain *)
Definition as_small (m : fj2) : j2 := {| j_E := f_E m; j_nu := f_nu m; j_h := f_h m; j_Hk := 0 |}.
Definition at_rest (st : fstate) : pstate := {| ep := fun _ _ => 0; eqps := feqps st |}.
Definition strain (L : mat) : mat := mscal 0.5 L.
Lemma as_small_sound m : sound_finite m -> sound_material (as_small m).
Proof. intros [HE [Hn Hh]]. apply sound_from_hardening; auto. lra. Qed.
Lemma at_rest_sound st : 0 <= feqps st -> sound_state (at_rest st).
Proof. intro H. split; cbn [ep eqps at_rest]; [exact H|intros i j _ _; reflexivity|unfold tr; cbn [sumn]; ring]. Qed.
Lemma mat_ext (A B : mat) : (forall i j, A i j = B i j) -> A = B.
Proof. intro H. apply functional_extensionality. intro i. apply functional_extensionality. intro j. apply H. Qed.
Lemma predictor_same m st L : (forall i j, L i j = L j i) ->
  predictor (as_small m) (at_rest st) (strain L) =
  {| t_p := bulk (f_E m) (f_nu m) * tr 3 (strain L); t_s := mscal (2 * shear (f_E m) (f_nu m)) (dev 3 (strain L));
     t_eta := mscal (2 * shear (f_E m) (f_nu m)) (dev 3 (strain L));
     t_q := sqrt 1.5 * sqrt (squared_norm 3 3 (mscal (2 * shear (f_E m) (f_nu m)) (dev 3 (strain L)))) |}.
Proof.
  intro S. assert (E : msub (sym (strain L)) (ep (at_rest st)) = strain L).
  { apply mat_ext. intros i j. unfold msub, sym, strain, mscal. cbn [at_rest ep]. rewrite (S j i). lra. }
  unfold predictor. rewrite E. cbn [as_small j_E j_nu j_Hk].
  assert (E' : forall s, msub s (mscal (2 / 3 * 0) (ep (at_rest st))) = s) by (intro s; apply mat_ext; intros i j; unfold msub, mscal; ring).
  rewrite E'. reflexivity.
Qed.
Lemma finite_reduces m st H L : log_symm (stretch st H) = Some L ->
  j2_finite m st H =
  match j2_small (as_small m) (at_rest st) (strain L) with
  | Stopped => FStopped
  | NaN => FNaN
  | Returned r =>
    match r_status r with
    | None => conclude (deformation H) (elastic st H) (r_stress r) st None
    | Some a =>
      match exp_symm (mscal (-1) (ep (r_state r))) with
      | None => FNaN
      | Some A => conclude (deformation H) (mmul 3 (elastic st H) A) (r_stress r) (FState (mmul 3 (Fpinv st) A) (eqps (r_state r))) (Some a)
      end
    end
  end.
Proof.
  intro E. assert (S := log_symmetric _ _ E). unfold j2_finite, j2_small. cbn [as_small j_nu]. destruct (finite_moduli_dec (f_nu m)); [|reflexivity]. cbv zeta.
  change (mmul 3 (deformation H) (Fpinv st)) with (elastic st H). fold (stretch st H). rewrite E. fold (strain L).
  fold (as_small m). rewrite (predictor_same m st L S). cbn [t_p t_s t_eta t_q].
  set (q := sqrt 1.5 * _). set (s := mscal _ (dev 3 (strain L))).
  assert (RE : flow_residual m (feqps st) q = yield_residual (as_small m) (feqps st) q).
  { apply functional_extensionality. intro d. unfold flow_residual, yield_residual. cbn [as_small j_E j_nu j_h j_Hk]. ring. }
  assert (RS : flow_slope m (feqps st) = yield_slope (as_small m) (feqps st)).
  { apply functional_extensionality. intro d. unfold flow_slope, yield_slope. cbn [as_small j_E j_nu j_h j_Hk]. ring. }
  rewrite RE, RS. unfold solver_options, upper_bound. cbn [as_small j_E j_nu j_h j_Hk at_rest eqps]. rewrite Rplus_0_r.
  destruct (Rlt_dec _ _); [|reflexivity]. destruct (Req_EM_T (3 * shear (f_E m) (f_nu m)) 0); [reflexivity|].
  destruct (solve_scalar_equation _ _ _ _ _ _) as [| |a]; [reflexivity|reflexivity|]. destruct (Req_EM_T q 0); [reflexivity|].
  cbn [r_status r_state r_stress ep eqps].
  assert (EA : mscal (- a_x a) (mscal (1.5 / q) s) = mscal (-1) (madd (fun _ _ => 0) (mscal (a_x a) (mscal (1.5 / q) s)))).
  { apply mat_ext. intros i j. unfold madd, mscal. ring. }
  rewrite EA. reflexivity.
Qed.
