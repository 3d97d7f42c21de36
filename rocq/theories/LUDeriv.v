(** * Derivatives of linear solves and inverses (C15, C19)

    tuple_tensor_dual_functions.hpp:419-443 (linear_solve with duals) and 473-488 (inv of duals) use the analytic rules
    instead of running the elimination on duals. *)
From Coq Require Import Reals Lra Lia.
From Coquelicot Require Import Coquelicot.
From Verif Require Import Sums Tensor LU Dual.
Local Open Scope R_scope.

(** tuple_tensor_dual_functions.hpp:473-488: entry of one gradient component of the inverse *)
Definition inv_grad (n : nat) (B dA : mat) : mat :=
  fun i j => - sumn n (fun k => sumn n (fun l => B i k * dA k l * B l j)).

(** ** success means the matrix is injective *)
Lemma upper_injective n U z : (forall i, (i < n)%nat -> U i i <> 0) -> (forall r k, (r < n)%nat -> (k < r)%nat -> U r k = 0) ->
  (forall i, (i < n)%nat -> sumn n (fun k => U i k * z k) = 0) -> forall i, (i < n)%nat -> z i = 0.
Proof.
  intros Nz Lo H.
  assert (K : forall m i, (n - m <= i)%nat -> (i < n)%nat -> z i = 0).
  { induction m as [|m IH]; intros i Hm Hi; [lia|]. destruct (PeanoNat.Nat.lt_ge_cases i (n - m)) as [Hl|Hg]; [|now apply IH].
    specialize (H i Hi). rewrite (sumn_ext n _ (fun k => if Nat.eqb k i then U i k * z k else 0)) in H.
    - rewrite sumn_delta in H by exact Hi. apply Rmult_integral in H. destruct H as [H|H]; [|exact H]. now apply Nz in H.
    - intros k Hk. destruct (PeanoNat.Nat.eqb_spec k i) as [->|N]; [reflexivity|].
      destruct (PeanoNat.Nat.lt_ge_cases k i) as [Hl'|Hg].
      + rewrite (Lo i k) by assumption. ring.
      + rewrite (IH k) by lia. ring. }
  intros i Hi. apply (K n); lia.
Qed.

Lemma lower_injective n L z : (forall i, L i i = 1) -> (forall r k, (r < k)%nat -> L r k = 0) ->
  (forall i, (i < n)%nat -> sumn n (fun k => L i k * z k) = 0) -> forall i, (i < n)%nat -> z i = 0.
Proof.
  intros Di Up H.
  assert (K : forall m i, (i < m)%nat -> (i < n)%nat -> z i = 0).
  { induction m as [|m IH]; intros i Hm Hi; [lia|].
    specialize (H i Hi). rewrite (sumn_ext n _ (fun k => if Nat.eqb k i then L i k * z k else 0)) in H.
    - rewrite sumn_delta, Di in H by exact Hi. lra.
    - intros k Hk. destruct (PeanoNat.Nat.eqb_spec k i) as [->|N]; [reflexivity|].
      destruct (PeanoNat.Nat.lt_ge_cases k i) as [Hl'|Hg].
      + rewrite (IH k) by lia. ring.
      + rewrite (Up i k) by lia. ring. }
  intros i Hi. apply (K n); lia.
Qed.

Lemma linear_solve_injective n A b x : linear_solve n A b = Some x ->
  forall z, (forall i, (i < n)%nat -> mvec n A z i = 0) -> forall i, (i < n)%nat -> z i = 0.
Proof.
  intros E z Hz. unfold linear_solve in E. destruct (factorize_lu n A) as [F|] eqn:EF; [|discriminate]. cbn [LU.obind] in E.
  unfold factorize_lu in EF. destruct (pivots_ok n A) as [[Pin Pon] HU].
  destruct (pivots n A) as [P U0]. cbn [fst snd] in *.
  destruct (eliminate n U0) as [[L U]|] eqn:Ee; [|discriminate]. cbn [LU.obind fst snd] in EF. injection EF as <-.
  destruct (eliminate_inv n U0 (L, U) Ee) as [Pr Di Up To Ze]. cbn [fst snd] in *.
  unfold solve_factors in E. cbn [lu_L lu_P lu_U] in E.
  destruct (solve_lower n L b P) as [y|] eqn:Ey; [|discriminate]. cbn [LU.obind] in E.
  assert (Nz := solve_upper_pivots n U y x E).
  apply (upper_injective n U z Nz); [intros; apply Ze; lia|].
  intros k Hk. apply (lower_injective n L (fun k => sumn n (fun c => U k c * z c)) Di Up); [|exact Hk].
  intros i Hi. rewrite <- (Hz (P i) (Pin i Hi)). unfold mvec. rewrite <- HU.
  rewrite (sumn_ext n _ (fun q => sumn n (fun c => L i q * U q c * z c))).
  2:{ intros q _. rewrite <- sumn_scal_l. apply sumn_ext. intros; ring. }
  rewrite sumn_swap. apply sumn_ext. intros c Hc. rewrite <- (Pr i c Hi Hc), <- sumn_scal_r. reflexivity.
Qed.

(** a right inverse of an injective matrix is a left inverse *)
Lemma right_left_inverse n A B : (forall z, (forall i, (i < n)%nat -> mvec n A z i = 0) -> forall i, (i < n)%nat -> z i = 0) ->
  meq n (mmul n A B) ident -> meq n (mmul n B A) ident.
Proof.
  intros Inj H i j Hi Hj.
  assert (Z : mmul n B A i j - ident i j = 0); [|lra].
  apply (Inj (fun k => mmul n B A k j - ident k j)); [|exact Hi]. intros r Hr. unfold mvec.
  rewrite (sumn_ext n _ (fun k => A r k * mmul n B A k j - A r k * ident k j)) by (intros; ring).
  rewrite sumn_minus. change (sumn n (fun k => A r k * mmul n B A k j)) with (mmul n A (mmul n B A) r j).
  change (sumn n (fun k => A r k * ident k j)) with (mmul n A ident r j).
  rewrite (mmul_ident_r n A r j Hr Hj), <- (mmul_assoc n A B A r j Hr Hj).
  rewrite (mmul_ext n _ ident A A H) by (try assumption; intros ? ? _ _; reflexivity).
  rewrite (mmul_ident_l n A r j Hr Hj). ring.
Qed.

(** a solve that succeeds provides the inverse *)
Lemma solve_inverse n A b x : linear_solve n A b = Some x ->
  exists B, (forall j, (j < n)%nat -> exists c, inv_column n A j = Some c /\ forall i, (i < n)%nat -> B i j = c i) /\
    meq n (mmul n A B) ident /\ meq n (mmul n B A) ident.
Proof.
  intros E.
  exists (fun i j => match inv_column n A j with Some c => c i | None => 0 end).
  assert (C : forall j, exists c, inv_column n A j = Some c) by (intros j; apply (linear_solve_any_rhs n A b x _ E)).
  assert (R : meq n (mmul n A (fun i j => match inv_column n A j with Some c => c i | None => 0 end)) ident).
  { intros i j Hi Hj. unfold mmul. destruct (C j) as [c Hc]. rewrite Hc. exact (linear_solve_ok n A _ c Hc i Hi). }
  split; [|split; [exact R|]].
  - intros j Hj. destruct (C j) as [c Hc]. exists c. split; [exact Hc|]. intros i _. now rewrite Hc.
  - apply right_left_inverse; [|exact R]. exact (linear_solve_injective n A b x E).
Qed.

(** ** curves of solutions *)
Lemma cont_sumn (f : R -> nat -> R) n t0 :
  (forall i, (i < n)%nat -> continuous (fun t => f t i) t0) -> continuous (fun t => sumn n (f t)) t0.
Proof.
  induction n as [|n IH]; intros H; cbn [sumn]; [apply continuous_const|].
  apply (continuous_plus (fun t => sumn n (f t)) (fun t => f t n)); [apply IH; auto|apply H; auto].
Qed.

Lemma d_sumn (f : R -> nat -> R) n t0 l :
  (forall i, (i < n)%nat -> is_derive (fun t => f t i) t0 (l i)) -> is_derive (fun t => sumn n (f t)) t0 (sumn n l).
Proof.
  induction n as [|n IH]; intros H; cbn [sumn]; [apply d_const|].
  apply (d_plus (fun t => sumn n (f t)) (fun t => f t n)); [apply IH; auto|apply H; auto].
Qed.

Lemma cont_of_derive (f : R -> R) t0 l : is_derive f t0 l -> continuous f t0.
Proof. intros H. apply (ex_derive_continuous (K := R_AbsRing) (V := R_NormedModule)). now exists l. Qed.

Lemma cont_Rabs (f : R -> R) (t0 : R) : continuous f t0 -> continuous (fun t => Rabs (f t)) t0.
Proof. intros H. apply (continuous_comp f Rabs); [exact H|]. apply continuous_Rabs. Qed.

Lemma cont_near (f : R -> R) (t0 : R) e : continuous f t0 -> 0 < e -> locally t0 (fun t => Rabs (f t - f t0) < e).
Proof.
  intros H He. assert (B := H (ball (f t0) (mkposreal e He)) (locally_ball (f t0) (mkposreal e He))). exact B.
Qed.

Lemma near_cont (f : R -> R) (t0 : R) : (forall e, 0 < e -> locally t0 (fun t => Rabs (f t - f t0) < e)) -> continuous f t0.
Proof.
  intros H P [d Hd]. unfold filtermap. generalize (H d (cond_pos d)). apply filter_imp. intros t Ht. apply Hd. exact Ht.
Qed.

(** product of a function vanishing at t0 and a locally bounded one *)
Lemma cont_zero_bounded (g h : R -> R) (t0 M : R) : continuous g t0 -> g t0 = 0 ->
  locally t0 (fun t => Rabs (h t) <= M) -> continuous (fun t => g t * h t) t0.
Proof.
  intros Hg Z HM. apply near_cont. intros e He.
  assert (P : 0 < e / (Rabs M + 1)) by (apply Rdiv_lt_0_compat; [exact He|generalize (Rabs_pos M); lra]).
  generalize (filter_and _ _ HM (cont_near g t0 _ Hg P)). apply filter_imp. intros t [A B].
  rewrite Z in *. rewrite Rmult_0_l, !Rminus_0_r in *. rewrite Rabs_mult.
  assert (M0 := Rle_abs M). assert (M1 := Rabs_pos M). assert (H0 := Rabs_pos (h t)). assert (G0 := Rabs_pos (g t)).
  assert (Q : e / (Rabs M + 1) * (Rabs M + 1) = e) by (field; lra).
  assert (Rabs (g t) * (Rabs M + 1) < e).
  { rewrite <- Q. apply Rmult_lt_compat_r; lra. }
  nra.
Qed.

(** product of a differentiable function vanishing at t0 and a continuous one *)
Lemma d_zero_mult (g h : R -> R) (t0 l : R) : is_derive g t0 l -> g t0 = 0 -> continuous h t0 ->
  is_derive (fun t => g t * h t) t0 (l * h t0).
Proof.
  intros Hg Z Hh.
  assert (E : is_derive (fun t => g t * (h t - h t0)) t0 0).
  { apply is_derive_Reals. intros e He.
    assert (B : exists K, 0 < K /\ locally t0 (fun t => Rabs (g t) <= K * Rabs (t - t0))).
    { apply is_derive_Reals in Hg. destruct (Hg 1 ltac:(lra)) as [d Hd]. exists (Rabs l + 1).
      split; [generalize (Rabs_pos l); lra|]. exists d. intros t Ht. change (Rabs (t - t0) < d) in Ht.
      destruct (Req_EM_T t t0) as [->|N].
      - rewrite Z, Rminus_eq_0, !Rabs_R0. generalize (Rabs_pos l). lra.
      - assert (N' : t - t0 <> 0) by lra. specialize (Hd (t - t0) N' Ht). rewrite Z in Hd.
        assert (Q : forall u v : R, u + (v - u) = v) by (intros; ring). rewrite Q, Rminus_0_r in Hd.
        assert (G : g t = (g t / (t - t0) - l) * (t - t0) + l * (t - t0)) by (field; exact N').
        rewrite G. eapply Rle_trans; [apply Rabs_triang|]. rewrite !Rabs_mult.
        assert (P := Rabs_pos (t - t0)). nra. }
    destruct B as [K [HK [d1 B]]].
    assert (P : 0 < e / K) by now apply Rdiv_lt_0_compat.
    destruct (cont_near h t0 (e / K) Hh P) as [d2 C].
    exists (mkposreal (Rmin d1 d2) (Rmin_stable_in_posreal d1 d2)). intros s Ns Hs. simpl in Hs.
    assert (S1 : Rabs s < d1) by (eapply Rlt_le_trans; [exact Hs|apply Rmin_l]).
    assert (S2 : Rabs s < d2) by (eapply Rlt_le_trans; [exact Hs|apply Rmin_r]).
    assert (B1 : Rabs (g (t0 + s)) <= K * Rabs s).
    { replace s with (t0 + s - t0) at 2 by ring. apply B. change (Rabs (t0 + s - t0) < d1). now replace (t0 + s - t0) with s by ring. }
    assert (C1 : Rabs (h (t0 + s) - h t0) < e / K).
    { apply C. change (Rabs (t0 + s - t0) < d2). now replace (t0 + s - t0) with s by ring. }
    rewrite Z, Rmult_0_l, !Rminus_0_r. unfold Rdiv at 1. rewrite !Rabs_mult, Rabs_inv.
    assert (P0 : 0 < Rabs s) by now apply Rabs_pos_lt.
    apply (Rmult_lt_reg_r (Rabs s)); [exact P0|]. rewrite Rmult_assoc, Rinv_l by lra. rewrite Rmult_1_r.
    assert (Q : e / K * K = e) by (field; lra). assert (H0 := Rabs_pos (h (t0 + s) - h t0)).
    assert (G0 := Rabs_pos (g (t0 + s))).
    eapply Rle_lt_trans; [apply Rmult_le_compat_r; [exact H0|exact B1]|].
    replace (e * Rabs s) with (K * Rabs s * (e / K)) by (field; lra). apply Rmult_lt_compat_l; [nra|exact C1]. }
  apply (is_derive_ext (fun t => g t * (h t - h t0) + g t * h t0)); [intros t; simpl; ring|].
  eapply d_ext; [apply d_plus; [exact E|apply d_mult; [exact Hg|apply d_const]]|]. rewrite Z. ring.
Qed.

Section Curve.
Variable n : nat.
Variable A : R -> mat.
Variable dA : mat.
Variable b : R -> vec.
Variable db : vec.
Variable X : R -> vec.
Variable t0 : R.
Variable B : mat.
Hypothesis dA_ok : forall i j, (i < n)%nat -> (j < n)%nat -> is_derive (fun t => A t i j) t0 (dA i j).
Hypothesis db_ok : forall i, (i < n)%nat -> is_derive (fun t => b t i) t0 (db i).
Hypothesis solves : locally t0 (fun t => forall i, (i < n)%nat -> mvec n (A t) (X t) i = b t i).
Hypothesis left_inv : meq n (mmul n B (A t0)) ident.

(** X = B b - B (A - A0) X *)
Lemma curve_fix : locally t0 (fun t => forall i, (i < n)%nat ->
  X t i = sumn n (fun j => B i j * b t j) - sumn n (fun j => sumn n (fun k => B i j * ((A t j k - A t0 j k) * X t k)))).
Proof.
  generalize solves. apply filter_imp. intros t H i Hi.
  assert (E : sumn n (fun j => B i j * mvec n (A t0) (X t) j) = X t i).
  { unfold mvec. rewrite (sumn_ext n _ (fun j => sumn n (fun k => B i j * A t0 j k * X t k))).
    2:{ intros j _. rewrite <- sumn_scal_l. apply sumn_ext. intros; ring. }
    rewrite sumn_swap. rewrite (sumn_ext n _ (fun k => ident k i * X t k)).
    - now apply sumn_ident.
    - intros k Hk. rewrite sumn_scal_r. rewrite ident_comm, <- (left_inv i k Hi Hk). reflexivity. }
  rewrite <- E at 1. rewrite <- sumn_minus. apply sumn_ext. intros j Hj. rewrite <- (H j Hj). unfold mvec.
  rewrite <- !sumn_scal_l, <- sumn_minus. apply sumn_ext. intros k _. ring.
Qed.

Let delta j k t := A t j k - A t0 j k.

Lemma delta_derive j k : (j < n)%nat -> (k < n)%nat -> is_derive (delta j k) t0 (dA j k).
Proof.
  intros Hj Hk. unfold delta. eapply d_ext; [apply d_minus; [now apply dA_ok|apply d_const]|ring].
Qed.

Lemma curve_bounded : exists M, locally t0 (fun t => forall i, (i < n)%nat -> Rabs (X t i) <= M).
Proof.
  set (beta := fun t => sumn n (fun i => Rabs (sumn n (fun j => B i j * b t j)))).
  set (eps := fun t => sumn n (fun i => sumn n (fun j => sumn n (fun k => Rabs (B i j) * Rabs (delta j k t))))).
  assert (Cb : continuous beta t0).
  { unfold beta. apply (cont_sumn (fun t i => Rabs (sumn n (fun j => B i j * b t j)))). intros i Hi. apply cont_Rabs.
    apply (cont_sumn (fun t j => B i j * b t j)). intros j Hj. eapply cont_of_derive.
    apply d_mult; [apply d_const|now apply db_ok]. }
  assert (Ce : continuous eps t0).
  { unfold eps. apply (cont_sumn (fun t i => sumn n (fun j => sumn n (fun k => Rabs (B i j) * Rabs (delta j k t))))).
    intros i Hi. apply (cont_sumn (fun t j => sumn n (fun k => Rabs (B i j) * Rabs (delta j k t)))). intros j Hj.
    apply (cont_sumn (fun t k => Rabs (B i j) * Rabs (delta j k t))). intros k Hk.
    apply (continuous_mult (fun _ => Rabs (B i j)) (fun t => Rabs (delta j k t))); [apply continuous_const|].
    apply cont_Rabs. eapply cont_of_derive. now apply delta_derive. }
  assert (E0 : eps t0 = 0).
  { unfold eps. apply sumn_zero; intros i _. apply sumn_zero; intros j _. apply sumn_zero; intros k _. unfold delta.
    rewrite Rminus_eq_0, Rabs_R0. ring. }
  exists (2 * (beta t0 + 1)).
  assert (N1 := cont_near beta t0 1 Cb ltac:(lra)). assert (N2 := cont_near eps t0 (1 / 2) Ce ltac:(lra)).
  generalize (filter_and _ _ curve_fix (filter_and _ _ N1 N2)). apply filter_imp. intros t [H [H1 H2]].
  rewrite E0 in H2. set (m := sumn n (fun i => Rabs (X t i))).
  assert (Mpos : forall i, (i < n)%nat -> 0 <= Rabs (X t i)) by (intros; apply Rabs_pos).
  assert (Hm : m <= beta t + eps t * m).
  { unfold m at 1, beta, eps. rewrite <- sumn_scal_r, <- sumn_plus. apply sumn_le. intros i Hi. rewrite (H i Hi) at 1.
    unfold Rminus. eapply Rle_trans; [apply Rabs_triang|]. rewrite Rabs_Ropp. apply Rplus_le_compat_l.
    eapply Rle_trans; [apply sumn_abs|]. rewrite <- sumn_scal_r. apply sumn_le. intros j Hj.
    eapply Rle_trans; [apply sumn_abs|]. rewrite <- sumn_scal_r. apply sumn_le. intros k Hk.
    rewrite !Rabs_mult, <- Rmult_assoc. fold (delta j k t). apply Rmult_le_compat_l.
    - apply Rmult_le_pos; apply Rabs_pos.
    - unfold m. exact (sumn_term n (fun i => Rabs (X t i)) k Mpos Hk). }
  assert (m0 : 0 <= m) by (unfold m; apply sumn_nonneg; exact Mpos).
  assert (A1 := Rle_abs (beta t - beta t0)). assert (A2 := Rle_abs (eps t - 0)).
  intros i Hi. apply Rle_trans with m; [exact (sumn_term n (fun i => Rabs (X t i)) i Mpos Hi)|]. nra.
Qed.

Lemma curve_continuous i : (i < n)%nat -> continuous (fun t => X t i) t0.
Proof.
  intros Hi. destruct curve_bounded as [M HM].
  set (F := fun t => sumn n (fun j => B i j * b t j) - sumn n (fun j => sumn n (fun k => B i j * (delta j k t * X t k)))).
  assert (CF : continuous F t0).
  { unfold F. apply (continuous_minus (fun t => sumn n (fun j => B i j * b t j))).
    - apply (cont_sumn (fun t j => B i j * b t j)). intros j Hj. eapply cont_of_derive.
      apply d_mult; [apply d_const|now apply db_ok].
    - apply (cont_sumn (fun t j => sumn n (fun k => B i j * (delta j k t * X t k)))). intros j Hj.
      apply (cont_sumn (fun t k => B i j * (delta j k t * X t k))). intros k Hk.
      apply (continuous_mult (fun _ => B i j) (fun t => delta j k t * X t k)); [apply continuous_const|].
      apply (cont_zero_bounded _ _ _ M).
      + eapply cont_of_derive. now apply delta_derive.
      + unfold delta. ring.
      + generalize HM. apply filter_imp. intros t Ht. now apply Ht. }
  apply (continuous_ext_loc (fun t => X t i) F t0); [|exact CF].
  generalize curve_fix. apply filter_imp. intros t Ht. unfold F, delta. now rewrite <- Ht.
Qed.

Theorem solution_curve i : (i < n)%nat ->
  is_derive (fun t => X t i) t0 (sumn n (fun j => B i j * (db j - mvec n dA (X t0) j))).
Proof.
  intros Hi.
  set (F := fun t => sumn n (fun j => B i j * b t j) - sumn n (fun j => sumn n (fun k => B i j * (delta j k t * X t k)))).
  apply (d_ext_loc F).
  { generalize curve_fix. apply filter_imp. intros t Ht. unfold F, delta. now rewrite <- Ht. }
  eapply d_ext.
  - unfold F. apply d_minus.
    + apply (d_sumn (fun t j => B i j * b t j) n t0 (fun j => B i j * db j)). intros j Hj.
      eapply d_ext; [apply d_mult; [apply d_const|now apply db_ok]|]. cbv beta; ring.
    + apply (d_sumn (fun t j => sumn n (fun k => B i j * (delta j k t * X t k))) n t0
               (fun j => sumn n (fun k => B i j * (dA j k * X t0 k)))). intros j Hj.
      apply (d_sumn (fun t k => B i j * (delta j k t * X t k)) n t0 (fun k => B i j * (dA j k * X t0 k))). intros k Hk.
      eapply d_ext; [apply d_mult; [apply d_const|apply d_zero_mult; [now apply delta_derive|unfold delta; ring|now apply curve_continuous]]|].
      cbv beta; ring.
  - rewrite <- sumn_minus. apply sumn_ext. intros j Hj. rewrite sumn_scal_l. unfold mvec. ring.
Qed.
End Curve.

(** linear_solve on duals: value and derivative of every curve of solutions *)
Theorem linear_solve_derivative n A dA b db X t0 x dx :
  (forall i j, (i < n)%nat -> (j < n)%nat -> is_derive (fun t => A t i j) t0 (dA i j)) ->
  (forall i, (i < n)%nat -> is_derive (fun t => b t i) t0 (db i)) ->
  locally t0 (fun t => forall i, (i < n)%nat -> mvec n (A t) (X t) i = b t i) ->
  linear_solve_dual n (A t0) dA (b t0) db = Some (x, dx) ->
  forall i, (i < n)%nat -> X t0 i = x i /\ is_derive (fun t => X t i) t0 (dx i).
Proof.
  intros HA Hb HX E. destruct (linear_solve_dual_ok n _ _ _ _ _ _ E) as [E0 [Ex Ed]].
  destruct (solve_inverse n _ _ _ E0) as [B [_ [_ BL]]].
  assert (HX0 := locally_singleton _ _ HX). cbv beta in HX0.
  assert (V : forall i, (i < n)%nat -> X t0 i = x i).
  { intros i Hi. assert (Z : X t0 i - x i = 0); [|lra].
    apply (linear_solve_injective n _ _ _ E0 (fun i => X t0 i - x i)); [|exact Hi]. intros r Hr. unfold mvec.
    rewrite (sumn_ext n _ (fun j => A t0 r j * X t0 j - A t0 r j * x j)) by (intros; ring). rewrite sumn_minus.
    fold (mvec n (A t0) (X t0) r) (mvec n (A t0) x r). rewrite HX0, Ex by exact Hr. ring. }
  intros i Hi. split; [now apply V|].
  eapply d_ext; [apply (solution_curve n A dA b db X t0 B); assumption|].
  rewrite (sumn_ext n _ (fun j => sumn n (fun k => B i j * A t0 j k * dx k))).
  - rewrite sumn_swap. rewrite (sumn_ext n _ (fun k => ident k i * dx k)); [now apply sumn_ident|].
    intros k Hk. rewrite sumn_scal_r. rewrite ident_comm, <- (BL i k Hi Hk). reflexivity.
  - intros j Hj. rewrite (sumn_ext n _ (fun k => B i j * (A t0 j k * dx k))) by (intros; ring). rewrite sumn_scal_l. f_equal.
    assert (Q := Ed j Hj). fold (mvec n (A t0) dx j).
    assert (W : mvec n dA (X t0) j = mvec n dA x j).
    { unfold mvec. apply sumn_ext. intros k Hk. now rewrite V. }
    lra.
Qed.

(** inverse of duals: derivative of every curve of inverses *)
Theorem inverse_derivative n (A B : R -> mat) dA t0 :
  (forall i j, (i < n)%nat -> (j < n)%nat -> is_derive (fun t => A t i j) t0 (dA i j)) ->
  locally t0 (fun t => meq n (mmul n (A t) (B t)) ident) -> meq n (mmul n (B t0) (A t0)) ident ->
  forall i j, (i < n)%nat -> (j < n)%nat -> is_derive (fun t => B t i j) t0 (inv_grad n (B t0) dA i j).
Proof.
  intros HA HB BL i j Hi Hj.
  eapply d_ext.
  - apply (solution_curve n A dA (fun _ k => ident k j) (fun _ => 0) (fun t k => B t k j) t0 (B t0) HA); auto.
    + intros; apply d_const.
    + generalize HB. apply filter_imp. intros t Ht k Hk. exact (Ht k j Hk Hj).
  - unfold inv_grad. rewrite <- sumn_opp. apply sumn_ext. intros k Hk. unfold mvec.
    rewrite <- sumn_opp. rewrite Rminus_0_l, Ropp_mult_distr_r_reverse, <- sumn_scal_l, <- sumn_opp. apply sumn_ext. intros l Hl. ring.
Qed.

Theorem inv2_derivative (A : R -> mat) dA (t0 : R) :
  (forall i j, (i < 2)%nat -> (j < 2)%nat -> is_derive (fun t => A t i j) t0 (dA i j)) -> det2 (A t0) <> 0 ->
  exists B, locally t0 (fun t => inv2 (A t) = Some (B t)) /\
    forall i j, (i < 2)%nat -> (j < 2)%nat -> is_derive (fun t => B t i j) t0 (inv_grad 2 (B t0) dA i j).
Proof.
  intros HA D. exists (fun t => inv2_raw (A t)).
  assert (L : locally t0 (fun t => inv2 (A t) = Some (inv2_raw (A t)))).
  { assert (C : exists l, is_derive (fun t => det2 (A t)) t0 l).
    { eexists. unfold det2. apply d_minus; apply d_mult; apply HA; lia. }
    destruct C as [l C]. generalize (locally_neq_div _ t0 l C D). apply filter_imp. intros t Ht. unfold inv2.
    destruct (Req_EM_T (det2 (A t)) 0); [contradiction|reflexivity]. }
  split; [exact L|]. apply (inverse_derivative 2 A (fun t => inv2_raw (A t)) dA t0 HA).
  - generalize L. apply filter_imp. intros t Ht. apply (inv2_mul _ _ Ht).
  - apply (inv2_mul (A t0)). exact (locally_singleton _ _ L).
Qed.

Theorem inv3_derivative (A : R -> mat) dA (t0 : R) :
  (forall i j, (i < 3)%nat -> (j < 3)%nat -> is_derive (fun t => A t i j) t0 (dA i j)) -> det3 (A t0) <> 0 ->
  exists B, locally t0 (fun t => inv3 (A t) = Some (B t)) /\
    forall i j, (i < 3)%nat -> (j < 3)%nat -> is_derive (fun t => B t i j) t0 (inv_grad 3 (B t0) dA i j).
Proof.
  intros HA D. exists (fun t => inv3_raw (A t)).
  assert (L : locally t0 (fun t => inv3 (A t) = Some (inv3_raw (A t)))).
  { assert (C : exists l, is_derive (fun t => det3 (A t)) t0 l).
    { assert (M : forall i j k l p q, (i < 3)%nat -> (j < 3)%nat -> (k < 3)%nat -> (l < 3)%nat -> (p < 3)%nat -> (q < 3)%nat ->
        exists m, is_derive (fun t => A t i j * A t k l * A t p q) t0 m).
      { intros i j k l p q H1 H2 H3 H4 H5 H6. eexists.
        apply (d_mult (fun t => A t i j * A t k l) (fun t => A t p q)); [|now apply HA].
        apply (d_mult (fun t => A t i j) (fun t => A t k l)); now apply HA. }
      destruct (M 0 0 1 1 2 2)%nat as [m1 D1]; try lia. destruct (M 0 1 1 2 2 0)%nat as [m2 D2]; try lia.
      destruct (M 0 2 1 0 2 1)%nat as [m3 D3]; try lia. destruct (M 0 0 1 2 2 1)%nat as [m4 D4]; try lia.
      destruct (M 0 1 1 0 2 2)%nat as [m5 D5]; try lia. destruct (M 0 2 1 1 2 0)%nat as [m6 D6]; try lia.
      exists (m1 + m2 + m3 - m4 - m5 - m6). unfold det3.
      exact (d_minus _ _ _ _ _ (d_minus _ _ _ _ _ (d_minus _ _ _ _ _ (d_plus _ _ _ _ _ (d_plus _ _ _ _ _ D1 D2) D3) D4) D5) D6). }
    destruct C as [l C]. generalize (locally_neq_div _ t0 l C D). apply filter_imp. intros t Ht. unfold inv3.
    destruct (Req_EM_T (det3 (A t)) 0); [contradiction|reflexivity]. }
  split; [exact L|]. apply (inverse_derivative 3 A (fun t => inv3_raw (A t)) dA t0 HA).
  - generalize L. apply filter_imp. intros t Ht. apply (inv3_mul _ _ Ht).
  - apply (inv3_mul (A t0)). exact (locally_singleton _ _ L).
Qed.
