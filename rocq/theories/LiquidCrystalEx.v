(** * Liquid crystal elastomers: the first call, rotations, witnesses (C60) *)
From Coq Require Import Reals Lra Lia Bool Setoid Morphisms List.
From Coquelicot Require Import Coquelicot.
From Verif Require Import Sums Dual Tensor LU LUDeriv MatAlg Materials MaterialFacts SymEig SymEigFacts SymEigMain IsoFun MatSqrt LiquidCrystal.
Import ListNotations.
Local Open Scope R_scope.

Theorem brighenti_accepted rho G K c q0 T N m : make_brighenti rho G K c q0 T N = Some m <->
  0 < rho /\ 0 < G /\ 0 < K /\ 0 < c /\ 0 < T /\ m = {| bi_density := rho; bi_G := G; bi_K := K; bi_c := c; bi_q0 := q0; bi_T := T; bi_N := N |}.
Proof.
  unfold make_brighenti. destruct (Rle_dec rho 0), (Rle_dec G 0), (Rle_dec K 0), (Rle_dec c 0), (Rle_dec T 0);
    (split; [intro X; try discriminate; injection X as <-; repeat split; lra|intros (? & ? & ? & ? & ? & ->); try lra; reflexivity]).
Qed.

(** the first call of a history keeps only the change of volume *)
Lemma brighenti_first m H T gamma : 0 < detn 3 (defgrad H) -> bi_N m <> 0 -> exists s st, brighenti_response m fresh H T gamma = Some (s, st) /\
  meq 3 s (mscal (lame (bi_K m) (bi_G m) * ln (detn 3 (defgrad H)) / detn 3 (defgrad H)) ident) /\
  last_F st = defgrad H /\ meq 3 (last_mu st) (rest_mu m (director gamma)) /\ last_T st = T.
Proof.
  intros J N. set (st0 := {| last_F := madd H ident; last_mu := rest_mu m (director gamma); last_T := T |}).
  destruct (again m st0 H T gamma J N eq_refl) as [mu [E HM]]. cbn [st0 last_mu last_T] in HM.
  assert (K : meq 3 mu (rest_mu m (director gamma))) by (rewrite HM; intros i j _ _; unfold madd, mscal, msub; ring).
  assert (E' : brighenti_response m fresh H T gamma = brighenti_response m st0 H T gamma).
  { unfold brighenti_response. cbv zeta. rewrite started_fresh. fold st0. rewrite (started_set m st0); [reflexivity|]. unfold st0. cbn [last_F]. fold (defgrad H). lra. }
  rewrite E', E. eexists; eexists. split; [reflexivity|]. cbn [last_F last_mu last_T]. split; [|split; [reflexivity|split; [exact K|reflexivity]]].
  rewrite K. unfold stress_of. intros i j _ _. unfold mscal, madd, msub. field. split; lra.
Qed.
Theorem brighenti_reference m T gamma : bi_N m <> 0 -> exists s st, brighenti_response m fresh zero T gamma = Some (s, st) /\ meq 3 s zero.
Proof.
  intro N. assert (J : detn 3 (defgrad zero) = 1) by (rewrite (detn_ext 3 _ _ (or_intror eq_refl) (defgrad_zero 3)); apply detn_ident; now right).
  destruct (brighenti_first m zero T gamma) as [s [st [E [HS _]]]]; [lra|exact N|]. exists s, st. split; [exact E|].
  rewrite HS, J, ln_1. intros i j _ _. unfold mscal, zero. field.
Qed.

(** the displacement gradient of a deformation gradient *)
Definition grad_of (F : mat) : mat := msub F ident.
Lemma defgrad_grad F : meq 3 (defgrad (grad_of F)) F.
Proof. intros i j _ _. unfold defgrad, grad_of, madd, msub. ring. Qed.

(** the undeformed body first, then the deformation F at the same temperature *)
Lemma second_call m F T gamma U Rt : 0 < detn 3 F -> bi_N m <> 0 -> (forall Fh, meq 3 Fh F -> exists U' Rt', polar Fh = Some (U', Rt') /\ meq 3 U' U /\ meq 3 Rt' Rt) ->
  exists s0 s st, history m fresh [(zero, T, gamma); (grad_of F, T, gamma)] = Some ([s0; s], st) /\
    let Q := order_tensor (order m T) (director gamma) in
    let mu0 := rest_mu m (director gamma) in
    meq 3 s (mscal (/ detn 3 F) (madd (mscal (3 * bi_G m / bi_N m)
      (msub (madd (mmul 3 F (mmul 3 mu0 (transpose F))) (mscal (2 * bi_N m / 3) (msub Q (mmul 3 Rt (mmul 3 Q (transpose Rt)))))) mu0))
      (mscal (lame (bi_K m) (bi_G m) * ln (detn 3 F)) ident))).
Proof.
  intros J N P. assert (D3 : dim23 3) by now right.
  assert (J0 : detn 3 (defgrad zero) = 1) by (rewrite (detn_ext 3 _ _ D3 (defgrad_zero 3)); now apply detn_ident).
  assert (JF : detn 3 (defgrad (grad_of F)) = detn 3 F) by (apply detn_ext; [exact D3|apply defgrad_grad]).
  destruct (brighenti_first m zero T gamma) as [s0 [st0 [E0 [_ [F0 [M0 T0]]]]]]; [lra|exact N|].
  assert (Dn : detn 3 (last_F st0) <> 0) by (rewrite F0; lra).
  destruct (invn_works 3 (last_F st0) D3 Dn) as [Fi EI]. destruct (invn_some 3 _ Fi D3 EI) as [I1 _].
  assert (HI : meq 3 Fi ident). { rewrite F0, defgrad_zero, mmul_ident_l in I1. exact I1. }
  assert (HF : meq 3 (mmul 3 (defgrad (grad_of F)) Fi) F) by (rewrite HI, mmul_ident_r; apply defgrad_grad).
  destruct (P _ HF) as [U' [Rt' [EP [_ HR]]]].
  assert (ED : exists mu, distribution m st0 (mmul 3 (defgrad (grad_of F)) Fi) T (director gamma) = Some mu /\
    meq 3 mu (madd (mmul 3 F (mmul 3 (rest_mu m (director gamma)) (transpose F)))
      (mscal (2 * bi_N m / 3) (msub (order_tensor (order m T) (director gamma)) (mmul 3 Rt (mmul 3 (order_tensor (order m T) (director gamma)) (transpose Rt))))))).
  { unfold distribution. rewrite EP. cbv zeta. eexists. split; [reflexivity|]. rewrite HF, HR, T0, M0.
    assert (Z : meq 3 (madd (rest_mu m (director gamma)) (mscal (2 * bi_N m / 3) (msub (order_tensor (order m T) (director gamma)) (order_tensor (order m T) (director gamma)))))
      (rest_mu m (director gamma))) by (intros i j _ _; unfold madd, mscal, msub; ring).
    rewrite Z. reflexivity. }
  destruct ED as [mu [ED HM]].
  assert (E1 := response_from m st0 (grad_of F) T gamma Fi mu ltac:(lra) N Dn EI ED).
  exists s0, (stress_of m (director gamma) (grad_of F) mu), {| last_F := defgrad (grad_of F); last_mu := mu; last_T := T |}.
  split; [cbn [history]; now rewrite E0, E1|]. cbv zeta. unfold stress_of. rewrite JF, HM. reflexivity.
Qed.

Definition turn_stress (m : brighenti) (Q : mat) (T : R) (n : vec) : mat :=
  mscal (3 * bi_G m / bi_N m * (3 * bi_q0 m - bi_N m * order m T)) (msub (mmul 3 Q (mmul 3 (dyad n) (transpose Q))) (dyad n)).
Lemma conjugate_split Q a b M : meq 3 (mmul 3 Q (transpose Q)) ident ->
  meq 3 (mmul 3 Q (mmul 3 (madd (mscal a ident) (mscal b M)) (transpose Q))) (madd (mscal a ident) (mscal b (mmul 3 Q (mmul 3 M (transpose Q))))).
Proof. intro O. rewrite mmul_add_l, mmul_add_r, !mmul_scal_l, !mmul_scal_r, mmul_ident_l, O. reflexivity. Qed.
Lemma brighenti_turn m Q T gamma : rotation 3 Q -> bi_N m <> 0 ->
  exists s0 s st, history m fresh [(zero, T, gamma); (grad_of Q, T, gamma)] = Some ([s0; s], st) /\ meq 3 s (turn_stress m Q T (director gamma)).
Proof.
  intros [Q1 [Q2 Q3]] N.
  destruct (second_call m Q T gamma ident Q) as [s0 [s [st [E HS]]]]; [lra|exact N| |].
  - intros Fh HF. assert (O : meq 3 (mmul 3 (transpose Fh) Fh) ident) by (rewrite HF; exact Q1).
    destruct (sqrt_of_ident _ O) as [U [EU HU]]. destruct (polar_orthogonal Fh O) as [U' [Rt [EP HR]]].
    assert (EU' : U' = U) by (unfold polar in EP; rewrite EU in EP; destruct (invn 3 U); [injection EP; congruence|discriminate]).
    exists U', Rt. split; [exact EP|]. split; [now rewrite EU'|now rewrite HR].
  - exists s0, s, st. split; [exact E|]. cbv zeta in HS. rewrite Q3, ln_1 in HS. rewrite HS. unfold rest_mu, order_tensor.
    assert (A : meq 3 (madd (mscal (bi_N m / 3) (mscal (1 - bi_q0 m) ident)) (mscal (3 * bi_q0 m) (dyad (director gamma))))
      (madd (mscal (bi_N m / 3 * (1 - bi_q0 m)) ident) (mscal (3 * bi_q0 m) (dyad (director gamma))))) by (intros i j _ _; unfold madd, mscal; ring).
    assert (B : meq 3 (mscal 0.5 (madd (mscal (1 - order m T) ident) (mscal (3 * order m T) (dyad (director gamma)))))
      (madd (mscal (0.5 * (1 - order m T)) ident) (mscal (0.5 * (3 * order m T)) (dyad (director gamma))))) by (intros i j _ _; unfold madd, mscal; ring).
    rewrite A, B, !conjugate_split by exact Q2. unfold turn_stress. replace 0.5 with (/ 2) by lra. intros i j _ _. unfold mscal, madd, msub. field. exact N.
Qed.

(** a rotation about the director leaves the body free of stress *)
Theorem brighenti_axis m Q T gamma : rotation 3 Q -> bi_N m <> 0 ->
  (forall i, (i < 3)%nat -> mvec 3 Q (director gamma) i = director gamma i) ->
  exists s0 s st, history m fresh [(zero, T, gamma); (grad_of Q, T, gamma)] = Some ([s0; s], st) /\ meq 3 s zero.
Proof.
  intros HQ N A. destruct (brighenti_turn m Q T gamma HQ N) as [s0 [s [st [E HS]]]]. exists s0, s, st. split; [exact E|]. rewrite HS.
  assert (Z : meq 3 (mmul 3 Q (mmul 3 (dyad (director gamma)) (transpose Q))) (dyad (director gamma))).
  { intros i j Hi Hj. transitivity (mvec 3 Q (director gamma) i * mvec 3 Q (director gamma) j).
    - unfold mmul, mvec, dyad, transpose. cbn [sumn]. ring.
    - rewrite !A by assumption. reflexivity. }
  unfold turn_stress. rewrite Z. intros i j _ _. unfold mscal, msub, zero. ring.
Qed.

(** ** a quarter turn *)
Definition quarter : mat := fun i j => match i, j with O, Datatypes.S O => -1 | Datatypes.S O, O => 1 | Datatypes.S (Datatypes.S O), Datatypes.S (Datatypes.S O) => 1 | _, _ => 0 end.
Lemma quarter_rotation : rotation 3 quarter.
Proof.
  repeat split.
  - intros i j Hi Hj. destruct i as [|[|[|]]]; try lia; destruct j as [|[|[|]]]; try lia; unfold mmul, transpose, quarter, ident; cbn [sumn Nat.eqb]; ring.
  - intros i j Hi Hj. destruct i as [|[|[|]]]; try lia; destruct j as [|[|[|]]]; try lia; unfold mmul, transpose, quarter, ident; cbn [sumn Nat.eqb]; ring.
  - unfold detn, det3, quarter. cbn [Nat.eqb]. ring.
Qed.
Lemma quarter_stress m T : turn_stress m quarter T (director 0) 0%nat 0%nat = - (3 * bi_G m / bi_N m * (3 * bi_q0 m - bi_N m * order m T)).
Proof. unfold turn_stress, mscal, msub, mmul, transpose, dyad, director, quarter. cbn [sumn]. rewrite cos_0, sin_0. ring. Qed.
Definition sample (N : R) : brighenti := {| bi_density := 1; bi_G := 1; bi_K := 1; bi_c := 1; bi_q0 := 0.5; bi_T := 1; bi_N := N |}.
Lemma sample_made N : make_brighenti 1 1 1 1 0.5 1 N = Some (sample N).
Proof. apply brighenti_accepted. repeat split; lra. Qed.
Lemma sample_order N : order (sample N) 1 = 0.25.
Proof. unfold order, sample. cbn [bi_q0 bi_T bi_c]. replace ((1 - 1) / 1) with 0 by field. rewrite exp_0. lra. Qed.

(** turning the unstressed body by a quarter produces stress *)
Theorem brighenti_turned : exists m s0 s st, make_brighenti 1 1 1 1 0.5 1 3 = Some m /\
  history m fresh [(zero, 1, 0); (grad_of quarter, 1, 0)] = Some ([s0; s], st) /\ meq 3 s0 zero /\ s 0%nat 0%nat = -0.75.
Proof.
  exists (sample 3). destruct (brighenti_turn (sample 3) quarter 1 0 quarter_rotation) as [s0 [s [st [E HS]]]]; [cbn [sample bi_N]; lra|].
  exists s0, s, st. split; [apply sample_made|]. split; [exact E|]. split.
  - destruct (brighenti_reference (sample 3) 1 0) as [r [st' [E' Hr]]]; [cbn [sample bi_N]; lra|]. cbn [history] in E. rewrite E' in E.
    match type of E with match ?x with _ => _ end = _ => destruct x as [[? ?]|]; [|discriminate] end. injection E as <- _ _. exact Hr.
  - rewrite (HS 0%nat 0%nat) by lia. rewrite quarter_stress, sample_order. cbn [sample bi_G bi_N bi_q0]. lra.
Qed.
(** and how much depends on the number of Kuhn segments, although a comment expects that number to cancel *)
Theorem brighenti_segments : exists m1 m2 s1 s2 r1 r2 st1 st2, make_brighenti 1 1 1 1 0.5 1 3 = Some m1 /\ make_brighenti 1 1 1 1 0.5 1 6 = Some m2 /\
  history m1 fresh [(zero, 1, 0); (grad_of quarter, 1, 0)] = Some ([r1; s1], st1) /\
  history m2 fresh [(zero, 1, 0); (grad_of quarter, 1, 0)] = Some ([r2; s2], st2) /\ s1 0%nat 0%nat <> s2 0%nat 0%nat.
Proof.
  exists (sample 3), (sample 6).
  destruct (brighenti_turn (sample 3) quarter 1 0 quarter_rotation) as [r1 [s1 [st1 [E1 H1]]]]; [cbn [sample bi_N]; lra|].
  destruct (brighenti_turn (sample 6) quarter 1 0 quarter_rotation) as [r2 [s2 [st2 [E2 H2]]]]; [cbn [sample bi_N]; lra|].
  exists s1, s2, r1, r2, st1, st2. split; [apply sample_made|]. split; [apply sample_made|]. split; [exact E1|]. split; [exact E2|].
  rewrite (H1 0%nat 0%nat), (H2 0%nat 0%nat) by lia. rewrite !quarter_stress, !sample_order. cbn [sample bi_G bi_N bi_q0]. lra.
Qed.

(** ** a stretch by two along the director *)
Definition pull : mat := fun i j => if Nat.eqb i j then match i with O => 2 | _ => 1 end else 0.
Definition pull_l : vec := fun k => match k with O => 4 | _ => 1 end.
Lemma orth_ident : orth 3 ident.
Proof. split; [rewrite transpose_ident, mmul_ident_l; reflexivity|rewrite mmul_ident_l, transpose_ident; reflexivity]. Qed.
Lemma pull_polar Fh : meq 3 Fh pull -> exists U Rt, polar Fh = Some (U, Rt) /\ meq 3 U (comp 3 ident pull_l (fun x => heron 15 x x)) /\
  meq 3 Rt (mmul 3 pull (comp 3 ident pull_l (fun x => / heron 15 x x))).
Proof.
  intro HF. set (A := mmul 3 (transpose Fh) Fh).
  assert (HA : meq 3 A (mmul 3 (transpose pull) pull)) by (unfold A; now rewrite HF).
  assert (G : eigs 3 A ident pull_l).
  { intros i k Hi Hk. cbn [sumn]. rewrite !(HA i _ Hi) by lia.
    destruct i as [|[|[|]]]; try lia; destruct k as [|[|[|]]]; try lia; unfold mmul, transpose, pull, pull_l, ident; cbn [sumn Nat.eqb]; ring. }
  assert (P : forall k, (k < 3)%nat -> 0 < pull_l k) by (intros [|k] _; cbn [pull_l]; lra).
  destruct (steps_comp A ident pull_l orth_ident G P 15 A (fun x => x) P) as [B [EB HB]]; [symmetry; apply comp_id; [apply orth_ident|exact G]|].
  destruct (comp_inverse ident pull_l (fun x => heron 15 x x) B orth_ident) as [C [EC HC]]; [|exact HB|].
  { intros k Hk. assert (X := heron_pos 15 (pull_l k) (pull_l k) (P k Hk) (P k Hk)). lra. }
  exists B, (mmul 3 Fh C). unfold polar. fold A. change (matrix_sqrt A) with (sqrt_steps 15 A A). rewrite EB, EC. split; [reflexivity|]. split; [exact HB|].
  now rewrite HF, HC.
Qed.

(** applied on the first call the stretch produces the stress of its volume change only; applied on the second call it produces more *)
Theorem brighenti_absorbed : exists m s1 st1 s0 s2 st2, make_brighenti 1 1 1 1 0.5 1 3 = Some m /\
  history m fresh [(grad_of pull, 1, 0)] = Some ([s1], st1) /\ s1 0%nat 0%nat = s1 1%nat 1%nat /\
  history m fresh [(zero, 1, 0); (grad_of pull, 1, 0)] = Some ([s0; s2], st2) /\ s2 1%nat 1%nat = s1 1%nat 1%nat /\ s1 0%nat 0%nat + 3 <= s2 0%nat 0%nat.
Proof.
  exists (sample 3).
  assert (J : detn 3 pull = 2) by (unfold detn, det3, pull; cbn [Nat.eqb]; ring).
  assert (JF : detn 3 (defgrad (grad_of pull)) = 2) by (rewrite <- J; apply detn_ext; [now right|apply defgrad_grad]).
  destruct (brighenti_first (sample 3) (grad_of pull) 1 0) as [s1 [st1 [E1 [H1 _]]]]; [lra|cbn [sample bi_N]; lra|].
  destruct (second_call (sample 3) pull 1 0 (comp 3 ident pull_l (fun x => heron 15 x x)) (mmul 3 pull (comp 3 ident pull_l (fun x => / heron 15 x x)))) as [s0 [s2 [st2 [E2 H2]]]];
    [lra|cbn [sample bi_N]; lra|exact pull_polar|].
  exists s1, st1, s0, s2, st2. split; [apply sample_made|]. split; [cbn [history]; now rewrite E1|]. split.
  { rewrite (H1 0%nat 0%nat), (H1 1%nat 1%nat) by lia. reflexivity. }
  split; [exact E2|]. cbv zeta in H2. rewrite sample_order in H2. rewrite JF in H1. rewrite J in H2.
  assert (Hh := heron_15 4 ltac:(rewrite ten6; lra)). cbv zeta in Hh. destruct Hh as [Ph [Hh _]]. set (h := heron 15 4 4) in *.
  assert (H11 : heron 15 1 1 = 1). { assert (X : forall n, heron n 1 1 = 1); [|apply X]. induction n as [|n IH]; [reflexivity|]. cbn [heron]. replace (0.5 * (1 + 1 * / 1)) with 1 by lra. exact IH. }
  rewrite (H1 1%nat 1%nat), (H1 0%nat 0%nat), (H2 1%nat 1%nat), (H2 0%nat 0%nat) by lia.
  assert (C0 : comp 3 ident pull_l (fun x => / heron 15 x x) 0%nat 0%nat = / h) by (unfold comp, pull_l, ident; cbn [sumn Nat.eqb]; fold h; ring).
  assert (C1 : comp 3 ident pull_l (fun x => / heron 15 x x) 1%nat 1%nat = 1) by (unfold comp, pull_l, ident; cbn [sumn Nat.eqb]; rewrite H11, Rinv_1; ring).
  assert (Cz : forall i j, (i < 3)%nat -> (j < 3)%nat -> i <> j -> comp 3 ident pull_l (fun x => / heron 15 x x) i j = 0).
  { intros i j Hi Hj N. unfold comp, ident. destruct i as [|[|[|]]]; try lia; destruct j as [|[|[|]]]; try lia; cbn [sumn Nat.eqb]; ring. }
  set (C := comp 3 ident pull_l (fun x => / heron 15 x x)) in *. clearbody C.
  assert (R : forall i j, (i < 2)%nat -> (j < 3)%nat -> mmul 3 pull C i j = if Nat.eqb i j then match i with O => 2 * / h | _ => 1 end else 0).
  { intros i j Hi Hj. unfold mmul, pull. destruct i as [|[|]]; try lia; destruct j as [|[|[|]]]; try lia; cbn [sumn Nat.eqb]; rewrite ?C0, ?C1, ?Cz by lia; ring. }
  set (Rt := mmul 3 pull C) in *. clearbody Rt. cbn [sample bi_G bi_N bi_K bi_q0].
  assert (Q : forall X i, (i < 2)%nat -> mmul 3 Rt (mmul 3 X (transpose Rt)) i i = (match i with O => 2 * / h | _ => 1 end) * (match i with O => 2 * / h | _ => 1 end) * X i i).
  { intros X i Hi. unfold mmul, transpose. destruct i as [|[|]]; try lia; cbn [sumn]; rewrite !R by lia; cbn [Nat.eqb]; ring. }
  assert (QF : forall X i, (i < 2)%nat -> mmul 3 pull (mmul 3 X (transpose pull)) i i = (match i with O => 4 | _ => 1 end) * X i i).
  { intros X i Hi. unfold mmul, transpose, pull. destruct i as [|[|]]; try lia; cbn [sumn Nat.eqb]; ring. }
  unfold mscal, madd, msub. rewrite (QF (rest_mu (sample 3) (director 0))), (Q (order_tensor 0.25 (director 0))) by lia.
  rewrite (QF (rest_mu (sample 3) (director 0))), (Q (order_tensor 0.25 (director 0))) by lia.
  unfold rest_mu, order_tensor, dyad, director, madd, mscal, ident. cbn [Nat.eqb sample bi_N bi_q0]. rewrite cos_0, sin_0. split; [lra|].
  assert (Hr : 2 * / h * (2 * / h) <= 1).
  { replace (2 * / h * (2 * / h)) with (4 * / (h * h)) by (field; lra). apply (Rmult_le_reg_r (h * h)); [apply Rmult_lt_0_compat; lra|].
    rewrite Rmult_assoc, Rinv_l by (apply Rgt_not_eq, Rmult_lt_0_compat; lra). lra. }
  set (r := 2 * / h * (2 * / h)) in *. clearbody r. lra.
Qed.

(** ** the theorems' cases *)
Theorem cases : exists m, make_brighenti 1 1 1 1 0.5 1 3 = Some m /\
  (exists s1 s2 st, history m fresh [(zero, 1, 0); (grad_of pull, 2, 0)] = Some ([s1; s2], st)) /\
  rotation 3 quarter /\ 0 < bi_G m /\ 0 < bi_q0 m /\ 0 < bi_c m /\ bi_N m <> 0.
Proof.
  exists (sample 3). split; [apply sample_made|]. split; [|split; [apply quarter_rotation|cbn [sample bi_G bi_q0 bi_c bi_N]; lra]].
  assert (J0 : detn 3 (defgrad zero) = 1) by (rewrite (detn_ext 3 _ _ (or_intror eq_refl) (defgrad_zero 3)); apply detn_ident; now right).
  assert (J : detn 3 pull = 2) by (unfold detn, det3, pull; cbn [Nat.eqb]; ring).
  assert (JF : detn 3 (defgrad (grad_of pull)) = 2) by (rewrite <- J; apply detn_ext; [now right|apply defgrad_grad]).
  assert (N3 : bi_N (sample 3) <> 0) by (cbn [sample bi_N]; lra).
  destruct (brighenti_first (sample 3) zero 1 0) as [s0 [st0 [E0 [_ [F0 _]]]]]; [lra|exact N3|].
  assert (Dn : detn 3 (last_F st0) <> 0) by (rewrite F0; lra).
  destruct (invn_works 3 (last_F st0) (or_intror eq_refl) Dn) as [Fi EI]. destruct (invn_some 3 _ Fi (or_intror eq_refl) EI) as [I1 _].
  assert (HI : meq 3 Fi ident). { rewrite F0, defgrad_zero, mmul_ident_l in I1. exact I1. }
  assert (HF : meq 3 (mmul 3 (defgrad (grad_of pull)) Fi) pull) by (rewrite HI, mmul_ident_r; apply defgrad_grad).
  destruct (pull_polar _ HF) as [U [Rt [EP _]]].
  assert (ED : exists mu, distribution (sample 3) st0 (mmul 3 (defgrad (grad_of pull)) Fi) 2 (director 0) = Some mu) by (unfold distribution; rewrite EP; eauto).
  destruct ED as [mu ED]. assert (E1 := response_from (sample 3) st0 (grad_of pull) 2 0 Fi mu ltac:(lra) N3 Dn EI ED).
  do 3 eexists. cbn [history]. rewrite E0, E1. reflexivity.
Qed.
Definition bertoldi_sample : bertoldi := {| be_density := 1; be_E := 2; be_nu := 0.25; be_S0 := 0.4; be_beta := 3 |}.
Theorem bertoldi_case : make_bertoldi 1 2 0.25 0.4 3 = Some bertoldi_sample /\ finite_moduli (be_nu bertoldi_sample) /\
  exists s, bertoldi_stress bertoldi_sample (grad_of pull) 0.2 0.3 0.1 = Some s.
Proof.
  split; [apply bertoldi_accepted; repeat split; lra|]. assert (FM : finite_moduli (be_nu bertoldi_sample)) by (unfold finite_moduli; cbn [bertoldi_sample be_nu]; lra).
  split; [exact FM|]. unfold bertoldi_stress. destruct (finite_moduli_dec (be_nu bertoldi_sample)); [|contradiction]. unfold push.
  assert (J : detn 3 pull = 2) by (unfold detn, det3, pull; cbn [Nat.eqb]; ring).
  assert (JF : detn 3 (defgrad (grad_of pull)) = 2) by (rewrite <- J; apply detn_ext; [now right|apply defgrad_grad]).
  destruct (Req_EM_T (detn 3 (defgrad (grad_of pull))) 0); [lra|]. eauto.
Qed.
Theorem pull_moderate : moderate pull /\ symmetric3 (mmul 3 (transpose pull) pull) /\ within (/ 10 ^ 6) (10 ^ 6) (mmul 3 (transpose pull) pull).
Proof.
  assert (M : moderate pull).
  { intros [a b c]. rewrite ten6. unfold dot3, mv3, pull. cbn [c0 c1 c2 Nat.eqb].
    assert (Xa := Rle_0_sqr a). assert (Xb := Rle_0_sqr b). assert (Xc := Rle_0_sqr c). unfold Rsqr in *.
    replace ((2 * a + 0 * b + 0 * c) * (2 * a + 0 * b + 0 * c) + (0 * a + 1 * b + 0 * c) * (0 * a + 1 * b + 0 * c) + (0 * a + 0 * b + 1 * c) * (0 * a + 0 * b + 1 * c))
      with (4 * (a * a) + b * b + c * c) by ring. lra. }
  split; [exact M|]. split; [apply gram_sym|]. intro u. rewrite quad_gram. apply M.
Qed.
