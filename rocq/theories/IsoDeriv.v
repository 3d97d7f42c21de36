(** * The derivative of a function of a symmetric matrix (C58) *)
From Coq Require Import Reals Lra Lia Bool Psatz.
From Verif Require Import Sums Tensor IsoFun.
Local Open Scope R_scope.

(** nearness to zero *)
Definition near0 (P : R -> Prop) : Prop := exists d, 0 < d /\ forall t, Rabs t < d -> P t.
Lemma near0_and P Q : near0 P -> near0 Q -> near0 (fun t => P t /\ Q t).
Proof.
  intros [d [Hd HP]] [e [He HQ]]. exists (Rmin d e). split; [now apply Rmin_glb_lt|]. intros t Ht. split.
  - apply HP. eapply Rlt_le_trans; [exact Ht|apply Rmin_l].
  - apply HQ. eapply Rlt_le_trans; [exact Ht|apply Rmin_r].
Qed.
Lemma near0_imp (P Q : R -> Prop) : (forall t, P t -> Q t) -> near0 P -> near0 Q.
Proof. intros H [d [Hd HP]]. exists d. split; [exact Hd|]. auto. Qed.
Lemma near0_all n (P : nat -> R -> Prop) : (forall k, (k < n)%nat -> near0 (P k)) -> near0 (fun t => forall k, (k < n)%nat -> P k t).
Proof.
  induction n as [|n IH]; intro H.
  - exists 1. split; [lra|]. intros. lia.
  - assert (X := near0_and _ _ (IH (fun k Hk => H k ltac:(lia))) (H n ltac:(lia))).
    revert X. apply near0_imp. intros t [X Y] k Hk. destruct (Nat.eq_dec k n) as [->|N]; [exact Y|apply X; lia].
Qed.
(** tending to zero *)
Definition vanish (f : R -> R) : Prop := forall eps, 0 < eps -> near0 (fun t => Rabs (f t) < eps).
Lemma vanish_sum n (f : nat -> R -> R) : (forall k, (k < n)%nat -> vanish (f k)) -> vanish (fun t => sumn n (fun k => f k t)).
Proof.
  induction n as [|n IH]; intros H eps He.
  - exists 1. split; [lra|]. intros. cbn [sumn]. now rewrite Rabs_R0.
  - assert (X := near0_and _ _ (IH (fun k Hk => H k ltac:(lia)) (eps / 2) ltac:(lra)) (H n ltac:(lia) (eps / 2) ltac:(lra))).
    revert X. apply near0_imp. intros t [X Y]. cbn [sumn]. eapply Rle_lt_trans; [apply Rabs_triang|]. lra.
Qed.
Lemma vanish_abs f : vanish f -> vanish (fun t => Rabs (f t)).
Proof. intros H eps He. generalize (H eps He). apply near0_imp. intros t X. now rewrite Rabs_Rabsolu. Qed.
Lemma vanish_bound f c g : vanish f -> near0 (fun t => Rabs (g t) <= c) -> vanish (fun t => f t * g t).
Proof.
  intros H B eps He. set (c' := Rmax c 1). assert (Hc : 0 < c') by (unfold c'; assert (X := Rmax_r c 1); lra).
  generalize (near0_and _ _ (H (eps / c') ltac:(now apply Rdiv_lt_0_compat)) B). apply near0_imp. intros t [X Y].
  rewrite Rabs_mult. assert (Y' : Rabs (g t) <= c') by (unfold c'; assert (Z := Rmax_l c 1); lra).
  apply Rle_lt_trans with (Rabs (f t) * c'); [apply Rmult_le_compat_l; [apply Rabs_pos|exact Y']|].
  apply (Rmult_lt_compat_r c') in X; [|exact Hc]. replace (eps / c' * c') with eps in X by (field; lra). exact X.
Qed.
Lemma vanish_le f g : near0 (fun t => Rabs (f t) <= Rabs (g t)) -> vanish g -> vanish f.
Proof. intros B H eps He. generalize (near0_and _ _ B (H eps He)). apply near0_imp. intros t [X Y]. lra. Qed.
Lemma vanish_ext f g : near0 (fun t => f t = g t) -> vanish g -> vanish f.
Proof. intro B. apply vanish_le. revert B. apply near0_imp. intros t ->. lra. Qed.
Lemma vanish_plus f g : vanish f -> vanish g -> vanish (fun t => f t + g t).
Proof.
  intros F G eps He. generalize (near0_and _ _ (F (eps / 2) ltac:(lra)) (G (eps / 2) ltac:(lra))). apply near0_imp.
  intros t [X Y]. eapply Rle_lt_trans; [apply Rabs_triang|]. lra.
Qed.

(** ** the curve of matrices *)
Section Curve.
Variables (n : nat) (A Q : R -> mat) (l : R -> vec).
Hypothesis curve : near0 (fun t => symmetricn n (A t) /\ orth n (Q t) /\ eigs n (A t) (Q t) (l t)).
Hypothesis continuous : forall i j, (i < n)%nat -> (j < n)%nat -> vanish (fun t => A t i j - A 0 i j).

Lemma at0 : symmetricn n (A 0) /\ orth n (Q 0) /\ eigs n (A 0) (Q 0) (l 0).
Proof. destruct curve as [d [Hd H]]. apply H. now rewrite Rabs_R0. Qed.
Lemma dist_vanish : vanish (fun t => dist n (A 0) (A t)).
Proof. unfold dist. apply vanish_sum. intros i Hi. apply vanish_sum. intros j Hj. apply vanish_abs. now apply continuous. Qed.

Lemma comp_diff Q0 l0 Q' l' h i j : orth n Q0 -> orth n Q' -> (i < n)%nat -> (j < n)%nat ->
  comp n Q' l' h i j - comp n Q0 l0 h i j =
  sumn n (fun a => sumn n (fun b => Q0 i a * Q' j b * meet n Q0 Q' a b * (h (l' b) - h (l0 a)))).
Proof.
  intros O O' Hi Hj.
  transitivity (sumn n (fun b => h (l' b) * Q' j b * sumn n (fun a => Q0 i a * meet n Q0 Q' a b)) -
                sumn n (fun a => h (l0 a) * Q0 i a * sumn n (fun b => meet n Q0 Q' a b * Q' j b))).
  + f_equal; unfold comp; apply sumn_ext; intros k Hk; [rewrite meet_back by assumption|rewrite meet_fore by assumption]; ring.
  + rewrite (sumn_ext n (fun b => h (l' b) * Q' j b * sumn n (fun a => Q0 i a * meet n Q0 Q' a b))
               (fun b => sumn n (fun a => h (l' b) * Q' j b * (Q0 i a * meet n Q0 Q' a b)))) by (intros; now rewrite sumn_scal_l).
    rewrite sumn_swap, <- sumn_minus. apply sumn_ext. intros a Ha. rewrite <- sumn_scal_l, <- sumn_minus. apply sumn_ext. intros b Hb. ring.
Qed.

Definition cont (h : R -> R) (x : R) : Prop := forall eps, 0 < eps -> exists d, 0 < d /\ forall y, Rabs (y - x) < d -> Rabs (h y - h x) < eps.

(** a continuous function of the matrices is continuous along the curve, however the bases jump *)
Lemma comp_continuous h : (forall a, (a < n)%nat -> cont h (l 0 a)) ->
  forall i j, (i < n)%nat -> (j < n)%nat -> vanish (fun t => comp n (Q t) (l t) h i j - comp n (Q 0) (l 0) h i j).
Proof.
  intros C i j Hi Hj. destruct at0 as [S0 [O0 E0]].
  apply vanish_ext with (fun t => sumn n (fun a => sumn n (fun b => Q 0 i a * Q t j b * meet n (Q 0) (Q t) a b * (h (l t b) - h (l 0 a))))).
  { revert curve. apply near0_imp. intros t [_ [O _]]. now apply comp_diff. }
  apply vanish_sum. intros a Ha. apply vanish_sum. intros b Hb.
  apply vanish_le with (fun t => meet n (Q 0) (Q t) a b * (h (l t b) - h (l 0 a))).
  { revert curve. apply near0_imp. intros t [_ [O _]]. rewrite !Rabs_mult.
    assert (X := orth_le1 n (Q 0) i a O0 Hi Ha). assert (Y := orth_le1 n (Q t) j b O Hj Hb).
    set (u := Rabs (Q 0 i a)) in *. set (v := Rabs (Q t j b)) in *. set (w := Rabs (meet n (Q 0) (Q t) a b)) in *. set (z := Rabs (h (l t b) - h (l 0 a))) in *.
    assert (U := Rabs_pos (Q 0 i a)). assert (VV := Rabs_pos (Q t j b)). assert (W := Rabs_pos (meet n (Q 0) (Q t) a b)). assert (Z := Rabs_pos (h (l t b) - h (l 0 a))).
    fold u in U. fold v in VV. fold w in W. fold z in Z. clearbody u v w z.
    assert (UV : u * v <= 1) by nra. replace (u * v * w * z) with (u * v * (w * z)) by ring.
    assert (WZ : 0 <= w * z) by (now apply Rmult_le_pos). apply Rle_trans with (1 * (w * z)); [now apply Rmult_le_compat_r|lra]. }
  intros eps He.
  (* one radius for all eigenvalues *)
  assert (D : exists d, 0 < d /\ forall c, (c < n)%nat -> forall y, Rabs (y - l 0 c) < d -> Rabs (h y - h (l 0 c)) < eps).
  { clear - C He. revert C. generalize n. intro m. induction m as [|m IH]; intro C.
    - exists 1. split; [lra|]. intros. lia.
    - destruct IH as [d [Hd H]]; [intros; apply C; lia|]. destruct (C m ltac:(lia) eps He) as [d' [Hd' H']].
      exists (Rmin d d'). split; [now apply Rmin_glb_lt|]. intros c Hc y Hy. destruct (Nat.eq_dec c m) as [->|N].
      + apply H'. eapply Rlt_le_trans; [exact Hy|apply Rmin_r].
      + apply H; [lia|]. eapply Rlt_le_trans; [exact Hy|apply Rmin_l]. }
  destruct D as [d [Hd D]].
  set (M := sumn n (fun c => Rabs (h (l 0 c))) + eps).
  assert (Mc : forall c, (c < n)%nat -> Rabs (h (l 0 c)) <= sumn n (fun c => Rabs (h (l 0 c)))).
  { intros c Hc. rewrite <- (sumn_delta n c (fun c => Rabs (h (l 0 c))) Hc). apply sumn_le. intros m _.
    assert (P := Rabs_pos (h (l 0 m))). destruct (Nat.eqb m c); lra. }
  assert (Mp : 0 < M) by (unfold M; assert (X := Rabs_pos (h (l 0 a))); assert (Y := Mc a Ha); lra).
  assert (Np : 0 < INR n) by (apply lt_0_INR; lia).
  generalize (near0_and _ _ curve (near0_and _ _ (dist_vanish (d / INR n) ltac:(now apply Rdiv_lt_0_compat))
     (dist_vanish (eps * d / (2 * M)) ltac:(apply Rdiv_lt_0_compat; [now apply Rmult_lt_0_compat|lra])))).
  apply near0_imp. intros t [[St [Ot Et]] [X1 X2]].
  rewrite (Rabs_pos_eq (dist n (A 0) (A t))) in X1, X2 by apply dist_nonneg.
  rewrite Rabs_mult.
  destruct (Rlt_dec (Rabs (l t b - l 0 a)) d) as [Nr|Fr].
  - assert (Y := D a Ha _ Nr). assert (Z := meet_le1 n (Q 0) (Q t) a b O0 Ot Ha Hb).
    assert (Z0 := Rabs_pos (meet n (Q 0) (Q t) a b)). assert (Y0 := Rabs_pos (h (l t b) - h (l 0 a))).
    apply Rle_lt_trans with (1 * Rabs (h (l t b) - h (l 0 a))); [now apply Rmult_le_compat_r|lra].
  - assert (Y := near n (A 0) (A t) (Q 0) (l 0) (Q t) (l t) a b S0 O0 Ot E0 Et Ha Hb).
    destruct (some_near n (A 0) (A t) (Q 0) (l 0) (Q t) (l t) b S0 O0 Ot E0 Et Hb) as [c [Hc Nc]].
    assert (Nc' : Rabs (l t b - l 0 c) < d).
    { eapply Rle_lt_trans; [exact Nc|]. apply (Rmult_lt_compat_l (INR n)) in X1; [|exact Np]. replace (INR n * (d / INR n)) with d in X1 by (field; lra). exact X1. }
    assert (H1 : Rabs (h (l t b)) <= M).
    { assert (W := D c Hc _ Nc'). assert (W' := Mc c Hc). replace (h (l t b)) with ((h (l t b) - h (l 0 c)) + h (l 0 c)) by ring.
      eapply Rle_trans; [apply Rabs_triang|]. unfold M. lra. }
    assert (H2 : Rabs (h (l 0 a)) <= M) by (assert (W' := Mc a Ha); unfold M; lra).
    assert (H3 : Rabs (h (l t b) - h (l 0 a)) <= 2 * M).
    { unfold Rminus. eapply Rle_trans; [apply Rabs_triang|]. rewrite Rabs_Ropp. lra. }
    set (w := Rabs (meet n (Q 0) (Q t) a b)) in *. assert (W0 : 0 <= w) by apply Rabs_pos. clearbody w.
    assert (Y2 : d * w <= dist n (A 0) (A t)).
    { eapply Rle_trans; [|exact Y]. apply Rmult_le_compat_r; [exact W0|lra]. }
    assert (Y3 : d * w < eps * d / (2 * M)) by lra.
    assert (Y4 : w * (2 * M) < eps).
    { apply (Rmult_lt_reg_l d); [exact Hd|]. apply (Rmult_lt_compat_r (2 * M)) in Y3; [|lra].
      replace (eps * d / (2 * M) * (2 * M)) with (d * eps) in Y3 by (field; lra). lra. }
    apply Rle_lt_trans with (w * (2 * M)); [apply Rmult_le_compat_l; assumption|exact Y4].
Qed.
End Curve.

(** ** the derivative *)
Section Derivative.
Variables (n : nat) (A Q : R -> mat) (l : R -> vec) (D : mat) (f : R -> R) (g : R -> R -> R).
Hypothesis curve : near0 (fun t => symmetricn n (A t) /\ orth n (Q t) /\ eigs n (A t) (Q t) (l t)).
Hypothesis derivative : forall i j, (i < n)%nat -> (j < n)%nat -> derivable_pt_lim (fun t => A t i j) 0 (D i j).
Hypothesis secant : near0 (fun t => forall a b, (a < n)%nat -> (b < n)%nat -> secant_of f g (l 0 a) (l t b)).
Hypothesis secant_cont : forall a b, (a < n)%nat -> (b < n)%nat -> cont (g (l 0 a)) (l 0 b).

Definition rate (i j : nat) : R := sumn n (fun k => sumn n (fun m => sumn n (fun a => sumn n (fun b =>
  g (l 0 a) (l 0 b) * Q 0 k a * Q 0 m b * Q 0 i a * Q 0 j b * D k m)))).

Lemma quotient_vanish i j : (i < n)%nat -> (j < n)%nat ->
  vanish (fun t => (if Req_EM_T t 0 then D i j else (A t i j - A 0 i j) / t) - D i j).
Proof.
  intros Hi Hj eps He. destruct (derivative i j Hi Hj eps He) as [[d Hd] H]. exists d. split; [exact Hd|]. intros t Ht.
  destruct (Req_EM_T t 0) as [E|N].
  - replace (D i j - D i j) with 0 by ring. now rewrite Rabs_R0.
  - assert (X := H t N Ht). now rewrite Rplus_0_l in X.
Qed.
Lemma entries_vanish i j : (i < n)%nat -> (j < n)%nat -> vanish (fun t => A t i j - A 0 i j).
Proof.
  intros Hi Hj. apply vanish_ext with (fun t => ((if Req_EM_T t 0 then D i j else (A t i j - A 0 i j) / t) - D i j) * t + t * D i j).
  - exists 1. split; [lra|]. intros t _. destruct (Req_EM_T t 0) as [->|N]; [ring|field; exact N].
  - assert (I : vanish (fun t => t)) by (intros eps He; exists eps; auto).
    apply vanish_plus.
    + apply vanish_bound with 1; [now apply quotient_vanish|]. exists 1. split; [lra|]. intros. lra.
    + apply vanish_bound with (Rabs (D i j)); [exact I|]. exists 1. split; [lra|]. intros. lra.
Qed.

Theorem comp_derivative i j : (i < n)%nat -> (j < n)%nat ->
  derivable_pt_lim (fun t => comp n (Q t) (l t) f i j) 0 (rate i j).
Proof.
  intros Hi Hj.
  set (psi := fun k m t => if Req_EM_T t 0 then D k m else (A t k m - A 0 k m) / t).
  set (H := fun a m t => comp n (Q t) (l t) (g (l 0 a)) m j).
  (* the difference quotient *)
  assert (V : vanish (fun t => sumn n (fun a => sumn n (fun k => sumn n (fun m => Q 0 i a * Q 0 k a * psi k m t * H a m t))) - rate i j)).
  { assert (R0 : rate i j = sumn n (fun a => sumn n (fun k => sumn n (fun m => Q 0 i a * Q 0 k a * D k m * H a m 0)))).
    { unfold rate. transitivity (sumn n (fun k => sumn n (fun a => sumn n (fun m => Q 0 i a * Q 0 k a * D k m * H a m 0)))); [|apply sumn_swap].
      apply sumn_ext. intros k Hk.
      transitivity (sumn n (fun m => sumn n (fun a => Q 0 i a * Q 0 k a * D k m * H a m 0))); [|apply sumn_swap].
      apply sumn_ext. intros m Hm. apply sumn_ext. intros a Ha. unfold H, comp. rewrite <- sumn_scal_l. apply sumn_ext. intros b Hb. ring. }
    rewrite R0.
    apply vanish_ext with (fun t => sumn n (fun a => sumn n (fun k => sumn n (fun m =>
       Q 0 i a * Q 0 k a * ((psi k m t - D k m) * H a m t + (H a m t - H a m 0) * D k m))))).
    { exists 1. split; [lra|]. intros t _. rewrite <- sumn_minus. apply sumn_ext. intros a Ha. rewrite <- sumn_minus. apply sumn_ext. intros k Hk.
      rewrite <- sumn_minus. apply sumn_ext. intros m Hm. ring. }
    apply vanish_sum. intros a Ha. apply vanish_sum. intros k Hk. apply vanish_sum. intros m Hm.
    assert (HC : vanish (fun t => H a m t - H a m 0)).
    { unfold H. apply (comp_continuous n A Q l curve entries_vanish (g (l 0 a))); auto. }
    apply vanish_ext with (fun t => ((psi k m t - D k m) * H a m t + (H a m t - H a m 0) * D k m) * (Q 0 i a * Q 0 k a)).
    { exists 1. split; [lra|]. intros t _. ring. }
    apply vanish_bound with (Rabs (Q 0 i a * Q 0 k a)); [|exists 1; split; [lra|]; intros; lra].
    apply vanish_plus.
    - apply vanish_bound with (Rabs (H a m 0) + 1); [now apply quotient_vanish|].
      generalize (HC 1 ltac:(lra)). apply near0_imp. intros t X. replace (H a m t) with ((H a m t - H a m 0) + H a m 0) by ring.
      eapply Rle_trans; [apply Rabs_triang|]. lra.
    - apply vanish_bound with (Rabs (D k m)); [exact HC|]. exists 1. split; [lra|]. intros. lra. }
  intros eps He. destruct (near0_and _ _ (V eps He) (near0_and _ _ curve secant)) as [d [Hd X]].
  exists (mkposreal d Hd). intros t N Ht. cbn [pos] in Ht. destruct (X t Ht) as [Y [[St [Ot Et]] Se]].
  rewrite Rplus_0_l.
  assert (C0 : symmetricn n (A 0) /\ orth n (Q 0) /\ eigs n (A 0) (Q 0) (l 0)) by (apply (at0 n A Q l curve)). destruct C0 as [S0 [O0 E0]].
  rewrite (comp_change n (A 0) (A t) (Q 0) (l 0) (Q t) (l t) f g S0 O0 Ot E0 Et Se i j Hi Hj).
  replace (sumn n (fun a => sumn n (fun k => sumn n (fun m => Q 0 i a * Q 0 k a * (A t k m - A 0 k m) * comp n (Q t) (l t) (g (l 0 a)) m j))) / t)
    with (sumn n (fun a => sumn n (fun k => sumn n (fun m => Q 0 i a * Q 0 k a * psi k m t * H a m t)))); [exact Y|].
  unfold Rdiv. rewrite <- sumn_scal_r. apply sumn_ext. intros a Ha. rewrite <- sumn_scal_r. apply sumn_ext. intros k Hk.
  rewrite <- sumn_scal_r. apply sumn_ext. intros m Hm. unfold psi, H. destruct (Req_EM_T t 0); [contradiction|]. field. exact N.
Qed.
End Derivative.
