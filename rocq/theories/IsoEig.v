(** * Functions of symmetric 3x3 matrices as the code computes them (C58) *)
From Coq Require Import Reals Lra Lia Bool Psatz.
From Verif Require Import Sums Tensor MatAlg SymEig SymEigFacts SymEigRotate SymEigMain IsoFun IsoDeriv.
Local Open Scope R_scope.

(** the code's eigendecomposition of this matrix has no error *)
Definition exact_eig (A : mat) : Prop := exists e, eig_symm A = Some e /\ decomposes A e.

Lemma framed_orth e : framed e -> orth 3 (basis e).
Proof.
  intro F. assert (O := framed_orthogonal e F). split; [exact O|].
  assert (D : detn 3 (basis e) <> 0).
  { intro Z. assert (X := det3_ext _ _ O). rewrite det3_mul, det3_ident, det3_transpose in X. unfold detn in Z. cbn in Z. rewrite Z in X. lra. }
  destruct (invn 3 (basis e)) as [B|] eqn:E.
  - assert (D3 : dim23 3) by (right; reflexivity). destruct (invn_some 3 (basis e) B D3 E) as [H1 H2].
    assert (U : meq 3 (transpose (basis e)) B) by (apply (inverse_unique 3 (basis e)); assumption).
    intros i j Hi Hj. rewrite <- (H1 i j Hi Hj). unfold mmul. apply sumn_ext. intros k Hk. now rewrite (U k j Hk Hj).
  - exfalso. unfold invn, inv3 in E. cbn in E. unfold detn in D. cbn in D. destruct (Req_EM_T (det3 (basis e)) 0); [contradiction|discriminate].
Qed.
Lemma recompose_comp e f : meq 3 (recompose e f) (comp 3 (basis e) (entry (lam e)) f).
Proof.
  intros i j Hi Hj. unfold recompose, comp, mmul, transpose, diag3. apply sumn_ext. intros k Hk.
  rewrite (sumn_ext 3 (fun k0 => (if Nat.eqb k k0 then f (entry (lam e) k) else 0) * basis e j k0) (fun k0 => if Nat.eqb k0 k then f (entry (lam e) k) * basis e j k else 0)).
  - rewrite (sumn_delta 3 k (fun _ => f (entry (lam e) k) * basis e j k) Hk). ring.
  - intros m _. rewrite (Nat.eqb_sym k m). destruct (Nat.eqb_spec m k) as [->|]; ring.
Qed.
Lemma decomposes_eigs A e : decomposes A e -> eigs 3 A (basis e) (entry (lam e)).
Proof.
  intros H i k Hi Hk. assert (X := f_equal (fun v => entry v i) (H k Hk)). unfold basis. cbn [sumn].
  unfold mv3, vscal in X. destruct i as [|[|[|]]]; try lia; cbn [entry c0 c1 c2] in *; lra.
Qed.
Lemma symmetric3_n A : symmetric3 A -> symmetricn 3 A.
Proof. intros H i j Hi Hj. now apply H. Qed.

(** ** values *)
Lemma eig_framed A e : symmetric3 A -> eig_symm A = Some e -> framed e /\ ascending (lam e) /\ c0 (lam e) + c1 (lam e) + c2 (lam e) = tr 3 A.
Proof. intros S E. destruct (eig_symm_total A S) as [e' [E' [F [As [Sm _]]]]]. rewrite E in E'. injection E' as <-. auto. Qed.

(** f(A) for any decomposition of A *)
Lemma function_unique A e f Q l : symmetric3 A -> eig_symm A = Some e -> decomposes A e -> orth 3 Q -> eigs 3 A Q l ->
  meq 3 (recompose e f) (comp 3 Q l f).
Proof.
  intros S E D O G. destruct (eig_framed A e S E) as [F _]. eapply meq_trans; [apply recompose_comp|].
  apply (comp_unique 3 A); auto using symmetric3_n, framed_orth, decomposes_eigs.
Qed.
Lemma function_identity A e : symmetric3 A -> eig_symm A = Some e -> decomposes A e -> meq 3 (recompose e (fun x => x)) A.
Proof.
  intros S E D. destruct (eig_framed A e S E) as [F _]. eapply meq_trans; [apply recompose_comp|].
  apply comp_id; auto using framed_orth, decomposes_eigs.
Qed.
Lemma recompose_sym e f : symmetric3 (recompose e f).
Proof. intros i j Hi Hj. rewrite (recompose_comp e f i j Hi Hj), (recompose_comp e f j i Hj Hi). apply comp_sym. Qed.
Lemma recompose_mul e f g : framed e -> meq 3 (mmul 3 (recompose e f) (recompose e g)) (recompose e (fun x => f x * g x)).
Proof.
  intro F. eapply meq_trans; [apply mmul_ext; apply recompose_comp|]. eapply meq_trans; [apply comp_mul, framed_orth, F|]. apply meq_sym, recompose_comp.
Qed.
Lemma recompose_ext e f g : (forall k, (k < 3)%nat -> f (entry (lam e) k) = g (entry (lam e) k)) -> meq 3 (recompose e f) (recompose e g).
Proof.
  intro H. eapply meq_trans; [apply recompose_comp|]. eapply meq_trans; [apply comp_ext; exact H|]. apply meq_sym, recompose_comp.
Qed.
Lemma recompose_tr e f : framed e -> tr 3 (recompose e f) = f (c0 (lam e)) + f (c1 (lam e)) + f (c2 (lam e)).
Proof.
  intro F. transitivity (tr 3 (comp 3 (basis e) (entry (lam e)) f)).
  - unfold tr. apply sumn_ext. intros i Hi. now apply recompose_comp.
  - rewrite comp_tr by now apply framed_orth. cbn [sumn entry]. ring.
Qed.
Lemma recompose_det e f : framed e -> det3 (recompose e f) = f (c0 (lam e)) * f (c1 (lam e)) * f (c2 (lam e)).
Proof.
  intro F. unfold recompose. rewrite !det3_mul, det3_transpose.
  assert (X := det3_ext _ _ (framed_orthogonal e F)). rewrite det3_mul, det3_ident, det3_transpose in X.
  replace (det3 (diag3 (fun k => f (entry (lam e) k)))) with (f (c0 (lam e)) * f (c1 (lam e)) * f (c2 (lam e))) by (unfold det3, diag3; cbn [Nat.eqb entry]; ring).
  transitivity (det3 (basis e) * det3 (basis e) * (f (c0 (lam e)) * f (c1 (lam e)) * f (c2 (lam e)))); [ring|]. rewrite X. ring.
Qed.

(** the exponential of a symmetric matrix always has determinant exp(tr A), whether or not the eigenvectors are right *)
Lemma exp_det A : symmetric3 A -> exists B, exp_symm A = Some B /\ symmetric3 B /\ det3 B = exp (tr 3 A).
Proof.
  intro S. destruct (eig_symm_total A S) as [e [E [F [_ [Sm _]]]]]. unfold exp_symm, matrix_function. rewrite E. cbn [option_map].
  exists (recompose e exp). split; [reflexivity|]. split; [apply recompose_sym|]. rewrite recompose_det by exact F.
  rewrite <- !exp_plus. now rewrite Sm.
Qed.

(** a positive definite matrix *)
Definition positive_definite (A : mat) : Prop := forall u, u <> zero3 -> 0 < dot3 u (mv3 A u).
Lemma column_nonzero e k : framed e -> (k < 3)%nat -> column e k <> zero3.
Proof. intros F Hk Z. assert (X := F k k Hk Hk). rewrite Nat.eqb_refl, Z in X. unfold zero3, dot3 in X. cbn [c0 c1 c2] in X. lra. Qed.
Lemma positive_entries A e : framed e -> decomposes A e -> positive_definite A -> forall k, (k < 3)%nat -> 0 < entry (lam e) k.
Proof.
  intros F D P k Hk. assert (X := P _ (column_nonzero e k F Hk)). rewrite D, dot3_scal_r, F, Nat.eqb_refl in X by assumption. lra.
Qed.
Lemma positive_entries_values e : (forall k, (k < 3)%nat -> 0 < entry (lam e) k) -> positive_values e.
Proof. intro H. repeat split; [apply (H 0%nat)|apply (H 1%nat)|apply (H 2%nat)]; lia. Qed.
Lemma values_entries e : positive_values e -> forall k, (k < 3)%nat -> 0 < entry (lam e) k.
Proof. intros [A [B C]] k Hk. destruct k as [|[|[|]]]; try lia; assumption. Qed.
Lemma nonneg_entries e : nonneg_values e -> forall k, (k < 3)%nat -> 0 <= entry (lam e) k.
Proof. intros [A [B C]] k Hk. destruct k as [|[|[|]]]; try lia; assumption. Qed.

Lemma log_defined A : symmetric3 A -> exact_eig A -> positive_definite A ->
  exists L, log_symm A = Some L /\ symmetric3 L /\ tr 3 L = ln (det3 A).
Proof.
  intros S [e [E D]] P. destruct (eig_framed A e S E) as [F _]. assert (PE := positive_entries A e F D P).
  unfold log_symm. rewrite E. destruct (positive_dec e) as [V|V]; [|elim V; now apply positive_entries_values].
  exists (recompose e ln). split; [reflexivity|]. split; [apply recompose_sym|].
  rewrite recompose_tr by exact F. rewrite <- (det3_ext _ _ (function_identity A e S E D)), recompose_det by exact F.
  destruct V as [V0 [V1 V2]]. rewrite !ln_mult; auto. now apply Rmult_lt_0_compat.
Qed.

(** the eigenvectors of A are eigenvectors of f(A) *)
Lemma function_eigs e f : framed e -> eigs 3 (recompose e f) (basis e) (fun k => f (entry (lam e) k)).
Proof.
  intros F i k Hi Hk. rewrite <- (comp_eigs 3 (basis e) (entry (lam e)) f (framed_orth e F) i k Hi Hk).
  apply sumn_ext. intros j Hj. now rewrite recompose_comp.
Qed.
(** a function of a function *)
Lemma function_compose e f e' g : framed e -> eig_symm (recompose e f) = Some e' -> decomposes (recompose e f) e' ->
  meq 3 (recompose e' g) (recompose e (fun x => g (f x))).
Proof.
  intros F E' D'. eapply meq_trans; [apply (function_unique (recompose e f) e' g (basis e) (fun k => f (entry (lam e) k)) (recompose_sym e f) E' D' (framed_orth e F) (function_eigs e f F))|].
  eapply meq_trans; [apply comp_compose|]. apply meq_sym, recompose_comp.
Qed.

Lemma exp_log A : symmetric3 A -> exact_eig A -> forall L, log_symm A = Some L -> exact_eig L ->
  exists B, exp_symm L = Some B /\ meq 3 B A.
Proof.
  intros S [e [E D]] L HL [e' [E' D']]. destruct (eig_framed A e S E) as [F _]. unfold log_symm in HL. rewrite E in HL.
  destruct (positive_dec e) as [V|V]; [|discriminate]. injection HL as <-.
  unfold exp_symm, matrix_function. rewrite E'. cbn [option_map]. exists (recompose e' exp). split; [reflexivity|].
  eapply meq_trans; [apply (function_compose e ln e' exp F E' D')|]. eapply meq_trans; [|apply (function_identity A e S E D)].
  apply recompose_ext. intros k Hk. apply exp_ln. now apply values_entries.
Qed.
Lemma log_exp A : symmetric3 A -> exact_eig A -> forall B, exp_symm A = Some B -> exact_eig B ->
  exists L, log_symm B = Some L /\ meq 3 L A.
Proof.
  intros S [e [E D]] B HB [e' [E' D']]. destruct (eig_framed A e S E) as [F _]. unfold exp_symm, matrix_function in HB. rewrite E in HB.
  cbn [option_map] in HB. injection HB as <-. assert (S' := recompose_sym e exp). destruct (eig_framed _ e' S' E') as [F' _].
  (* eigenvalues of exp A are positive *)
  assert (PE : forall k, (k < 3)%nat -> 0 < entry (lam e') k).
  { apply (positive_entries (recompose e exp) e' F' D'). intros u Hu.
    assert (X : dot3 u (mv3 (recompose e exp) u) = sumn 3 (fun k => exp (entry (lam e) k) * (dot3 u (column e k) * dot3 u (column e k)))).
    { unfold mv3. rewrite !(recompose_comp e exp) by lia. unfold comp, basis, dot3. cbn [sumn c0 c1 c2 entry]. ring. }
    assert (Y : dot3 u u = sumn 3 (fun k => dot3 u (column e k) * dot3 u (column e k))).
    { assert (O := framed_orth e F). transitivity (sumn 3 (fun i => sumn 3 (fun j => entry u i * entry u j * ident i j))).
      - unfold dot3, ident. cbn [sumn entry Nat.eqb]. ring.
      - rewrite (sumn_ext 3 _ (fun i => sumn 3 (fun j => entry u i * entry u j * sumn 3 (fun k => basis e i k * basis e j k)))).
        + unfold basis, dot3. cbn [sumn entry]. ring.
        + intros i Hi. apply sumn_ext. intros j Hj. now rewrite (rows_ 3 (basis e) i j O Hi Hj). }
    rewrite X. cbn [sumn] in *.
    assert (P0 := exp_pos (entry (lam e) 0)). assert (P1 := exp_pos (entry (lam e) 1)). assert (P2 := exp_pos (entry (lam e) 2)).
    assert (Up : 0 < dot3 u u).
    { assert (N := dot3_self u). destruct (Rle_lt_or_eq_dec _ _ N) as [|Z]; [assumption|]. elim Hu. apply dot3_zero. lra. }
    rewrite Y in Up.
    set (x := dot3 u (column e 0)) in *. set (y := dot3 u (column e 1)) in *. set (z := dot3 u (column e 2)) in *.
    set (p := exp (entry (lam e) 0)) in *. set (q := exp (entry (lam e) 1)) in *. set (r := exp (entry (lam e) 2)) in *. clearbody x y z p q r.
    assert (Sx : 0 <= x * x) by apply Rle_0_sqr. assert (Sy : 0 <= y * y) by apply Rle_0_sqr. assert (Sz : 0 <= z * z) by apply Rle_0_sqr.
    assert (C : 0 < x * x \/ 0 < y * y \/ 0 < z * z) by lra.
    assert (A0 : 0 <= p * (x * x)) by (apply Rmult_le_pos; lra). assert (A1 : 0 <= q * (y * y)) by (apply Rmult_le_pos; lra).
    assert (A2 : 0 <= r * (z * z)) by (apply Rmult_le_pos; lra).
    destruct C as [C|[C|C]]; [assert (0 < p * (x * x)) by (now apply Rmult_lt_0_compat)|assert (0 < q * (y * y)) by (now apply Rmult_lt_0_compat)|assert (0 < r * (z * z)) by (now apply Rmult_lt_0_compat)]; lra. }
  unfold log_symm. rewrite E'. destruct (positive_dec e') as [V|V]; [|elim V; now apply positive_entries_values].
  exists (recompose e' ln). split; [reflexivity|].
  eapply meq_trans; [apply (function_compose e exp e' ln F E' D')|]. eapply meq_trans; [|apply (function_identity A e S E D)].
  apply recompose_ext. intros k Hk. apply ln_exp.
Qed.
Lemma sqrt_symm_square A : symmetric3 A -> exact_eig A -> forall B, sqrt_symm A = Some B -> symmetric3 B /\ meq 3 (mmul 3 B B) A.
Proof.
  intros S [e [E D]] B HB. destruct (eig_framed A e S E) as [F _]. unfold sqrt_symm in HB. rewrite E in HB.
  destruct (nonneg_dec e) as [V|V]; [|discriminate]. injection HB as <-. split; [apply recompose_sym|].
  eapply meq_trans; [apply recompose_mul, F|]. eapply meq_trans; [|apply (function_identity A e S E D)].
  apply recompose_ext. intros k Hk. apply sqrt_sqrt. now apply nonneg_entries.
Qed.
Lemma sqrt_defined A : symmetric3 A -> exact_eig A -> positive_definite A -> exists B, sqrt_symm A = Some B.
Proof.
  intros S [e [E D]] P. destruct (eig_framed A e S E) as [F _]. assert (PE := positive_entries A e F D P).
  unfold sqrt_symm. rewrite E. destruct (nonneg_dec e) as [V|V]; [eexists; reflexivity|]. elim V.
  destruct (positive_entries_values e PE) as [V0 [V1 V2]]. repeat split; lra.
Qed.

(** ** secants *)
Definition divided (f f' : R -> R) (x y : R) : R := if Req_EM_T x y then f' x else (f y - f x) / (y - x).
Lemma divided_secant f f' x y : secant_of f (divided f f') x y.
Proof. unfold secant_of, divided. destruct (Req_EM_T x y) as [->|N]; [ring|field; lra]. Qed.
Lemma divided_cont f f' x y : derivable_pt_lim f x (f' x) -> cont f y -> cont (divided f f' x) y.
Proof.
  intros Df Cf eps He. destruct (Req_dec x y) as [->|N].
  - destruct (Df eps He) as [[d Hd] H]. exists d. split; [exact Hd|]. intros z Hz. unfold divided.
    destruct (Req_EM_T y y) as [_|X]; [|contradiction]. destruct (Req_EM_T y z) as [->|Nz].
    + replace (f' z - f' z) with 0 by ring. now rewrite Rabs_R0.
    + assert (X := H (z - y) ltac:(lra) Hz). replace (y + (z - y)) with z in X by ring. exact X.
  - (* the quotient of two continuous functions, the denominator far from zero *)
    set (q := Rabs (y - x)). assert (Pq : 0 < q) by (apply Rabs_pos_lt; lra).
    set (s := (f y - f x) / (y - x)).
    destruct (Cf (eps * q / 4) ltac:(apply Rdiv_lt_0_compat; [now apply Rmult_lt_0_compat|lra])) as [d1 [Hd1 H1]].
    set (d2 := eps * q / (4 * (Rabs s + 1))).
    assert (Ps := Rabs_pos s).
    assert (Hd2 : 0 < d2) by (apply Rdiv_lt_0_compat; [now apply Rmult_lt_0_compat|lra]).
    exists (Rmin d1 (Rmin d2 (q / 2))). split; [repeat apply Rmin_glb_lt; lra|]. intros z Hz.
    assert (Z1 : Rabs (z - y) < d1) by (eapply Rlt_le_trans; [exact Hz|apply Rmin_l]).
    assert (Z2 : Rabs (z - y) < d2) by (eapply Rlt_le_trans; [exact Hz|eapply Rle_trans; [apply Rmin_r|apply Rmin_l]]).
    assert (Z3 : Rabs (z - y) < q / 2) by (eapply Rlt_le_trans; [exact Hz|eapply Rle_trans; [apply Rmin_r|apply Rmin_r]]).
    assert (Fz : q / 2 < Rabs (z - x)).
    { assert (T := Rabs_triang (z - x) (- (z - y))). rewrite Rabs_Ropp in T. replace (z - x + - (z - y)) with (y - x) in T by ring. fold q in T. lra. }
    assert (Nz : x <> z) by (intro E; subst z; replace (x - x) with 0 in Fz by ring; rewrite Rabs_R0 in Fz; lra).
    unfold divided. destruct (Req_EM_T x z); [contradiction|]. destruct (Req_EM_T x y); [contradiction|]. fold s.
    assert (Id : (f z - f x) / (z - x) - s = ((f z - f y) - s * (z - y)) / (z - x)) by (unfold s; field; split; lra).
    rewrite Id. unfold Rdiv. rewrite Rabs_mult, Rabs_inv.
    assert (Nu : Rabs (f z - f y - s * (z - y)) < eps * q / 2).
    { unfold Rminus at 1. eapply Rle_lt_trans; [apply Rabs_triang|]. rewrite Rabs_Ropp, Rabs_mult.
      assert (F1 := H1 z Z1).
      assert (F2 : Rabs s * Rabs (z - y) <= eps * q / 4).
      { apply Rle_trans with (Rabs s * d2); [apply Rmult_le_compat_l; lra|]. unfold d2.
        replace (Rabs s * (eps * q / (4 * (Rabs s + 1)))) with (eps * q / 4 * (Rabs s / (Rabs s + 1))) by (field; lra).
        assert (Rabs s / (Rabs s + 1) <= 1) by (apply (Rmult_le_reg_r (Rabs s + 1)); [lra|]; field_simplify; lra).
        rewrite <- (Rmult_1_r (eps * q / 4)) at 2. apply Rmult_le_compat_l; [|assumption].
        apply Rlt_le, Rdiv_lt_0_compat; [now apply Rmult_lt_0_compat|lra]. }
      lra. }
    apply (Rmult_lt_reg_r (Rabs (z - x))); [lra|]. rewrite Rmult_assoc, Rinv_l, Rmult_1_r by lra.
    apply Rlt_le_trans with (eps * q / 2); [exact Nu|]. replace (eps * q / 2) with (eps * (q / 2)) by field. apply Rmult_le_compat_l; lra.
Qed.
Lemma cont_of f y : continuity_pt f y -> cont f y.
Proof.
  intros C eps He. destruct (C eps He) as [d [Hd H]]. exists d. split; [exact Hd|]. intros z Hz. destruct (Req_dec y z) as [->|N].
  - replace (f z - f z) with 0 by ring. now rewrite Rabs_R0.
  - apply (H z). split; [split; [exact Logic.I|exact N]|exact Hz].
Qed.
Lemma cont_local g h y : (exists d, 0 < d /\ forall z, Rabs (z - y) < d -> g z = h z) -> cont h y -> cont g y.
Proof.
  intros [d [Hd E]] C eps He. destruct (C eps He) as [d' [Hd' H]]. exists (Rmin d d'). split; [now apply Rmin_glb_lt|]. intros z Hz.
  rewrite !E; [apply H; eapply Rlt_le_trans; [exact Hz|apply Rmin_r]| |eapply Rlt_le_trans; [exact Hz|apply Rmin_l]].
  replace (y - y) with 0 by ring. now rewrite Rabs_R0.
Qed.

Lemma exp_secant_divided x y : exp_secant x y = divided exp exp x y.
Proof.
  unfold exp_secant, divided. destruct (Req_EM_T x y) as [|N]; [reflexivity|].
  assert (E : exp x = exp y * exp (x - y)) by (rewrite <- exp_plus; f_equal; ring). rewrite E. field. split; lra.
Qed.
Lemma log_secant_divided x y : 0 < x -> 0 < y -> log_secant x y = divided ln Rinv x y.
Proof.
  intros Px Py. unfold log_secant, divided. destruct (Req_EM_T x y) as [|N]; [lra|].
  unfold Rdiv at 3. rewrite ln_mult, ln_Rinv by (auto; now apply Rinv_0_lt_compat). field. repeat split; lra.
Qed.
Lemma sqrt_secant_divided x y : 0 < x -> 0 < y -> sqrt_secant x y = divided sqrt (fun z => / (2 * sqrt z)) x y.
Proof.
  intros Px Py. assert (Sx := sqrt_lt_R0 x Px). assert (Sy := sqrt_lt_R0 y Py). unfold sqrt_secant, divided. destruct (Req_EM_T x y) as [->|N].
  - field. lra.
  - assert (E : y - x = (sqrt y - sqrt x) * (sqrt x + sqrt y)).
    { assert (Ex := sqrt_sqrt x ltac:(lra)). assert (Ey := sqrt_sqrt y ltac:(lra)).
      replace ((sqrt y - sqrt x) * (sqrt x + sqrt y)) with (sqrt y * sqrt y - sqrt x * sqrt x) by ring. lra. }
    rewrite E. field. split; [lra|]. intro Z. apply N. apply sqrt_inj; lra.
Qed.
Lemma sqrt_works A : symmetric3 A -> exact_eig A -> positive_definite A ->
  exists B, sqrt_symm A = Some B /\ symmetric3 B /\ meq 3 (mmul 3 B B) A.
Proof.
  intros S X P. destruct (sqrt_defined A S X P) as [B HB]. exists B. destruct (sqrt_symm_square A S X B HB). auto.
Qed.

(** ** only the nine entries matter *)
Lemma longest_ext r s : (forall i, (i < 3)%nat -> r i = s i) -> longest r = longest s /\ (longest r < 3)%nat.
Proof.
  intro H. unfold longest. rewrite <- (H 0%nat), <- (H 1%nat), <- (H 2%nat) by lia.
  destruct (Rlt_dec (norm3 (r 0%nat)) (norm3 (r 1%nat))).
  - rewrite <- (H 1%nat) by lia. destruct (Rlt_dec (norm3 (r 1%nat)) (norm3 (r 2%nat))); lia.
  - rewrite <- (H 0%nat) by lia. destruct (Rlt_dec (norm3 (r 0%nat)) (norm3 (r 2%nat))); lia.
Qed.
Lemma plane_ext r s : (forall i, (i < 3)%nat -> r i = s i) -> plane r = plane s.
Proof.
  intro H. destruct (longest_ext r s H) as [E L]. unfold plane. rewrite <- E. set (m := longest r) in *. clearbody m.
  rewrite <- (H m L). assert (M1 := Nat.mod_upper_bound (m + 1) 3). assert (M2 := Nat.mod_upper_bound (m + 2) 3).
  rewrite <- (H (Nat.modulo (m + 1) 3)), <- (H (Nat.modulo (m + 2) 3)) by lia. reflexivity.
Qed.
Lemma eig_symm_ext A B : meq 3 A B -> eig_symm A = eig_symm B.
Proof.
  intro H. assert (T : tr 3 A = tr 3 B) by (unfold tr; apply sumn_ext; intros i Hi; now apply H).
  assert (D : meq 3 (dev 3 A) (dev 3 B)) by (intros i j Hi Hj; unfold dev; rewrite T, (H i j Hi Hj); reflexivity).
  assert (S : second A = second B).
  { unfold second, inner. f_equal. apply sumn_ext. intros i Hi. apply sumn_ext. intros j Hj. now rewrite (D i j Hi Hj). }
  assert (J : det3 (dev 3 A) = det3 (dev 3 B)) by (apply det3_ext, D).
  assert (M : forall u, mv3 (dev 3 A) u = mv3 (dev 3 B) u).
  { intro u. unfold mv3. rewrite !D by lia. reflexivity. }
  unfold eig_symm, of_deviator. rewrite S, J, T. unfold deflate. set (eta := lead _ _).
  rewrite (plane_ext (shifted_row (dev 3 A) eta) (shifted_row (dev 3 B) eta)).
  - destruct (plane _) as [[s0 s1]|]; [|reflexivity]. rewrite (M s0), (M s1). reflexivity.
  - intros i Hi. unfold shifted_row. rewrite !D by lia. reflexivity.
Qed.
Lemma exact_eig_ext A B : meq 3 A B -> exact_eig A -> exact_eig B.
Proof.
  intros H [e [E D]]. exists e. rewrite <- (eig_symm_ext A B H). split; [exact E|]. intros k Hk. rewrite <- (D k Hk).
  unfold mv3. rewrite !H by lia. reflexivity.
Qed.
