(** * Liquid crystal elastomers (C60)

    physics/materials/liquid_crystal_elastomer.hpp, both models, over the reals.  [H] is the displacement gradient.  The
    inverse of a singular matrix, a division by zero and the logarithm of a number that is not positive are [None]. *)
From Coq Require Import Reals Lra Lia Bool Setoid Morphisms List.
From Coquelicot Require Import Coquelicot.
From Verif Require Import Sums Dual Tensor LU LUDeriv MatAlg Materials MaterialFacts MatSqrt.
Import ListNotations.
Local Open Scope R_scope.

(** outer(normal, normal) *)
Definition dyad (n : vec) : mat := fun i j => n i * n j.

(** ** Bertoldi's model (lines 210-350) *)
Record bertoldi := { be_density : R; be_E : R; be_nu : R; be_S0 : R; be_beta : R }.
(** 225-240: the constructor; every argument that is not positive is an error *)
Definition make_bertoldi (rho E nu S0 beta : R) : option bertoldi :=
  if Rle_dec rho 0 then None else if Rle_dec E 0 then None else if Rle_dec nu 0 then None else
  if Rle_dec S0 0 then None else if Rle_dec beta 0 then None else
  Some {| be_density := rho; be_E := E; be_nu := nu; be_S0 := S0; be_beta := beta |}.
(** 267, 321: the director of the two angles *)
Definition director2 (gamma eta : R) : vec := fun i =>
  match i with O => cos gamma * cos eta | Datatypes.S O => sin gamma * cos eta | _ => 0 * gamma + sin eta end.
(** 273-274, 327-328 *)
Definition be_lambda (m : bertoldi) : R := be_nu m * be_E m / (1 + be_nu m) / (1 - 2 * be_nu m).
Definition be_mu (m : bertoldi) : R := be_E m / 2 / (1 + be_nu m).
(** 277-280, 331-334: E = 0.5 * (dot(transpose(F), F) - I) *)
Definition lagrange_strain (H : mat) : mat := mscal 0.5 (msub (mmul 3 (transpose (defgrad H)) (defgrad H)) ident).
(** 3 * outer(normal, normal) - I *)
Definition aligned (n : vec) : mat := msub (mscal 3 (dyad n)) ident.
(** 284-286: the second Piola-Kirchhoff stress *)
Definition bertoldi_S (m : bertoldi) (H : mat) (St gamma eta : R) : mat :=
  madd (madd (mscal (be_lambda m * tr 3 (lagrange_strain H)) ident) (mscal (2 * be_mu m) (lagrange_strain H)))
       (mscal (-0.5 * be_beta m * (St - be_S0 m)) (aligned (director2 gamma eta))).
(** 258-292: the response; lambda is infinite when nu = 1/2 *)
Definition bertoldi_stress (m : bertoldi) (H : mat) (St gamma eta : R) : option mat :=
  if finite_moduli_dec (be_nu m) then push 3 H (bertoldi_S m H St gamma eta) else None.
(** 312-344: calculateStrainEnergy *)
Definition bertoldi_energy (m : bertoldi) (H : mat) (St gamma eta : R) : option R :=
  if finite_moduli_dec (be_nu m) then
    Some (0.5 * be_lambda m * tr 3 (lagrange_strain H) * tr 3 (lagrange_strain H)
          + be_mu m * inner 3 3 (lagrange_strain H) (lagrange_strain H)
          + -0.5 * be_beta m * (St - be_S0 m) * inner 3 3 (aligned (director2 gamma eta)) (lagrange_strain H))
  else None.

Lemma lagrange_green H : meq 3 (lagrange_strain H) (green_strain 3 H).
Proof. symmetry. apply green_alt. Qed.
Lemma aligned_symmetric n : symmetric 3 (aligned n).
Proof. intros i j _ _. unfold transpose, aligned, msub, mscal, dyad, ident. rewrite (Nat.eqb_sym j i). ring. Qed.
Lemma lagrange_symmetric H : symmetric 3 (lagrange_strain H).
Proof. unfold symmetric. rewrite lagrange_green. apply green_symmetric. Qed.
Lemma bertoldi_S_symmetric m H St gamma eta : symmetric 3 (bertoldi_S m H St gamma eta).
Proof.
  unfold symmetric, bertoldi_S. assert (S1 := lagrange_symmetric H). assert (S2 := aligned_symmetric (director2 gamma eta)). unfold symmetric in *.
  rewrite !transpose_add, !transpose_scal, S1, S2, transpose_ident. reflexivity.
Qed.
Lemma bertoldi_some m H St gamma eta s : bertoldi_stress m H St gamma eta = Some s ->
  finite_moduli (be_nu m) /\ push 3 H (bertoldi_S m H St gamma eta) = Some s.
Proof. unfold bertoldi_stress. destruct (finite_moduli_dec (be_nu m)); [auto|discriminate]. Qed.
Theorem bertoldi_symmetric m H St gamma eta s : bertoldi_stress m H St gamma eta = Some s -> symmetric 3 s.
Proof. intro E. apply bertoldi_some in E. destruct E as [_ E]. exact (push_symmetric 3 H _ s (bertoldi_S_symmetric _ _ _ _ _) E). Qed.

Lemma bertoldi_S_rotated m Q H St gamma eta : rotation 3 Q -> meq 3 (bertoldi_S m (rotated 3 Q H) St gamma eta) (bertoldi_S m H St gamma eta).
Proof. intro HQ. unfold bertoldi_S. rewrite !lagrange_green, (green_rotated 3 Q H HQ). reflexivity. Qed.
Theorem bertoldi_objective m Q H St gamma eta s : rotation 3 Q -> bertoldi_stress m H St gamma eta = Some s ->
  exists s', bertoldi_stress m (rotated 3 Q H) St gamma eta = Some s' /\ meq 3 s' (mmul 3 (mmul 3 Q s) (transpose Q)).
Proof.
  intros HQ E. apply bertoldi_some in E. destruct E as [FM E]. unfold bertoldi_stress. destruct (finite_moduli_dec (be_nu m)); [|contradiction].
  exact (push_rotated 3 Q H _ _ s (or_intror eq_refl) HQ (bertoldi_S_rotated m Q H St gamma eta HQ) E).
Qed.

Lemma inner_const_derive M A t0 D : mderive 3 A t0 D -> is_derive (fun t => inner 3 3 M (A t)) t0 (inner 3 3 M D).
Proof.
  intro H. apply (is_derive_ext (fun t => tr 3 (mmul 3 (transpose M) (A t)))); [intro t; symmetry; apply inner_tr|].
  rewrite inner_tr. eapply d_ext; [exact (tr_derive 3 _ t0 _ (mmul_derive 3 (fun _ => transpose M) A t0 _ _ (mconst_derive 3 (transpose M) t0) H))|].
  unfold tr. apply sumn_ext. intros i _. unfold madd, mmul. cbn [sumn]. ring.
Qed.
Theorem bertoldi_conjugate m H t0 D St gamma eta s : mderive 3 H t0 D -> bertoldi_stress m (H t0) St gamma eta = Some s ->
  exists P psi, cauchy_to_piola 3 s (H t0) = Some P /\ (forall t, bertoldi_energy m (H t) St gamma eta = Some (psi t)) /\
    is_derive psi t0 (inner 3 3 P D).
Proof.
  intros HD E. apply bertoldi_some in E. destruct E as [FM E]. destruct (push_piola 3 (H t0) _ s (or_intror eq_refl) E) as [P [EP HP]].
  set (psi := fun t => 0.5 * be_lambda m * tr 3 (lagrange_strain (H t)) * tr 3 (lagrange_strain (H t))
          + be_mu m * inner 3 3 (lagrange_strain (H t)) (lagrange_strain (H t))
          + -0.5 * be_beta m * (St - be_S0 m) * inner 3 3 (aligned (director2 gamma eta)) (lagrange_strain (H t))).
  exists P, psi. split; [exact EP|]. split.
  - intro t. unfold bertoldi_energy. destruct (finite_moduli_dec (be_nu m)); [reflexivity|contradiction].
  - assert (HE := green_derive 3 H t0 D HD).
    apply (mderive_value 3 _ (fun t => lagrange_strain (H t)) t0) in HE; [|intro t; symmetry; apply lagrange_green].
    set (X := mmul 3 (transpose (defgrad (H t0))) D) in *. set (E' := mscal 0.5 (madd X (transpose X))) in *.
    assert (SS := bertoldi_S_symmetric m (H t0) St gamma eta).
    assert (V : inner 3 3 P D = inner 3 3 (bertoldi_S m (H t0) St gamma eta) E').
    { unfold E'. rewrite inner_sym_part by exact SS. unfold X. rewrite <- inner_mul_l. unfold symmetric in SS. rewrite SS in HP. now rewrite HP. }
    rewrite V. unfold psi. eapply d_ext.
    + apply d_plus; [apply d_plus|apply d_scal, inner_const_derive, HE].
      * apply (is_derive_ext (fun t => 0.5 * be_lambda m * (tr 3 (lagrange_strain (H t)) * tr 3 (lagrange_strain (H t))))); [intro t; symmetry; apply Rmult_assoc|].
        apply d_scal, d_square. exact (tr_derive 3 _ t0 _ HE).
      * apply d_scal. exact (squared_norm_derive 3 _ t0 _ HE).
    + cbv beta. unfold bertoldi_S. rewrite !inner_add_l, !inner_scal_l, inner_ident_l. lra.
Qed.

Theorem bertoldi_rest m gamma eta : finite_moduli (be_nu m) -> exists s, bertoldi_stress m zero (be_S0 m) gamma eta = Some s /\ meq 3 s zero.
Proof.
  intro FM. unfold bertoldi_stress. destruct (finite_moduli_dec (be_nu m)); [|contradiction]. apply push_zero; [now right|].
  unfold bertoldi_S. rewrite lagrange_green, green_zero. rewrite (tr_zero 3 zero) by reflexivity. intros i j _ _. unfold madd, mscal, zero. ring.
Qed.
(** Hooke's law for Green's strain, with the prestress of the order parameter along the director *)
Lemma tr_add3 A B : tr 3 (madd A B) = tr 3 A + tr 3 B.
Proof. unfold tr, madd. cbn [sumn]. ring. Qed.
Lemma tr_scal3 c A : tr 3 (mscal c A) = c * tr 3 A.
Proof. unfold tr, mscal. cbn [sumn]. ring. Qed.
Theorem bertoldi_hooke m H St gamma eta s : bertoldi_stress m H St gamma eta = Some s ->
  exists P S A, cauchy_to_piola 3 s H = Some P /\ meq 3 P (mmul 3 (defgrad H) S) /\
    (let n := fun i : nat => match i with 0%nat => cos gamma * cos eta | 1%nat => sin gamma * cos eta | _ => sin eta end in
     forall i j, (i < 3)%nat -> (j < 3)%nat -> A i j = S i j + be_beta m * (St - be_S0 m) / 2 * (3 * n i * n j - ident i j)) /\
    forall i j, (i < 3)%nat -> (j < 3)%nat -> be_E m * green_strain 3 H i j = (1 + be_nu m) * A i j - be_nu m * tr 3 A * ident i j.
Proof.
  intro E. apply bertoldi_some in E. destruct E as [[F1 F2] E]. destruct (push_piola 3 H _ s (or_intror eq_refl) E) as [P [EP HP]].
  exists P, (bertoldi_S m H St gamma eta), (madd (mscal (be_lambda m * tr 3 (lagrange_strain H)) ident) (mscal (2 * be_mu m) (lagrange_strain H))).
  split; [exact EP|]. split; [|split].
  - rewrite HP. assert (SS := bertoldi_S_symmetric m H St gamma eta). unfold symmetric in SS. rewrite SS. reflexivity.
  - cbv zeta. intros i j Hi Hj. unfold bertoldi_S, madd, mscal, aligned, msub, mscal, dyad, director2.
    destruct i as [|[|[|i]]]; [| | |lia]; destruct j as [|[|[|j]]]; try lia; replace (-0.5) with (- / 2) by lra; unfold ident; cbn [Nat.eqb]; field.
  - intros i j Hi Hj. rewrite <- (lagrange_green H i j Hi Hj). rewrite tr_add3, !tr_scal3.
    replace (tr 3 ident) with 3 by (unfold tr, ident; cbn; ring). unfold madd, mscal, be_lambda, be_mu. field. split; lra.
Qed.
Theorem bertoldi_accepted rho E nu S0 beta m : make_bertoldi rho E nu S0 beta = Some m <->
  0 < rho /\ 0 < E /\ 0 < nu /\ 0 < S0 /\ 0 < beta /\ m = {| be_density := rho; be_E := E; be_nu := nu; be_S0 := S0; be_beta := beta |}.
Proof.
  unfold make_bertoldi. destruct (Rle_dec rho 0), (Rle_dec E 0), (Rle_dec nu 0), (Rle_dec S0 0), (Rle_dec beta 0);
    (split; [intro X; try discriminate; injection X as <-; repeat split; lra|intros (? & ? & ? & ? & ? & ->); try lra; reflexivity]).
Qed.
(** a material the constructor accepts and for which no deformation has a stress *)
Theorem bertoldi_infinite : exists m, make_bertoldi 1 1 0.5 1 1 = Some m /\ forall H St gamma eta, bertoldi_stress m H St gamma eta = None.
Proof.
  eexists. split; [apply bertoldi_accepted; repeat split; lra|]. intros. unfold bertoldi_stress. cbn [be_nu].
  destruct (finite_moduli_dec 0.5) as [[_ F]|]; [exfalso; apply F; lra|reflexivity].
Qed.

(** ** Brighenti's model (lines 29-200) *)
Record brighenti := { bi_density : R; bi_G : R; bi_K : R; bi_c : R; bi_q0 : R; bi_T : R; bi_N : R }.
(** 51-68: the constructor; the order parameter and N_b_squared are not checked *)
Definition make_brighenti (rho G K c q0 T N : R) : option brighenti :=
  if Rle_dec rho 0 then None else if Rle_dec G 0 then None else if Rle_dec K 0 then None else
  if Rle_dec c 0 then None else if Rle_dec T 0 then None else
  Some {| bi_density := rho; bi_G := G; bi_K := K; bi_c := c; bi_q0 := q0; bi_T := T; bi_N := N |}.
(** 34-38: State; a value-initialised state is all zeros *)
Record lce_state := { last_F : mat; last_mu : mat; last_T : R }.
Definition fresh : lce_state := {| last_F := zero; last_mu := zero; last_T := 0 |}.
(** 94: the director of the angle *)
Definition director (gamma : R) : vec := fun i => match i with O => cos gamma | Datatypes.S O => sin gamma | _ => 0 * gamma end.
(** 97, 110: (N_b_squared / 3) * ((1 - q0) * I) + (3 * q0 * outer(normal, normal)) *)
Definition rest_mu (m : brighenti) (n : vec) : mat :=
  madd (mscal (bi_N m / 3) (mscal (1 - bi_q0 m) ident)) (mscal (3 * bi_q0 m) (dyad n)).
(** 96-100: a state whose deformation gradient has norm zero is initialised from the current deformation *)
Definition started (m : brighenti) (st : lce_state) (H : mat) (T : R) (n : vec) : lce_state :=
  if Req_EM_T (norm 3 3 (last_F st)) 0 then {| last_F := madd H ident; last_mu := rest_mu m n; last_T := T |} else st.
(** 152-153: the nematic order *)
Definition order (m : brighenti) (T : R) : R := bi_q0 m / (1 + exp ((T - bi_T m) / bi_c m)).
(** 162-163: the nematic order tensor *)
Definition order_tensor (q : R) (n : vec) : mat := mscal 0.5 (madd (mscal (1 - q) ident) (mscal (3 * q) (dyad n))).
(** 146-177: calculateDistributionTensor *)
Definition distribution (m : brighenti) (st : lce_state) (Fh : mat) (T : R) (n : vec) : option mat :=
  match polar Fh with
  | None => None
  | Some (_, Rh) =>
      let Qold := order_tensor (order m (last_T st)) n in
      let Q := order_tensor (order m T) n in
      let alpha := 2 * bi_N m / 3 in
      let mu_hat := madd (last_mu st) (mscal alpha (msub Q Qold)) in
      let mu_a := mmul 3 Fh (mmul 3 mu_hat (transpose Fh)) in
      let mu_b := mscal alpha (msub Q (mmul 3 Rh (mmul 3 Q (transpose Rh)))) in
      Some (madd mu_a mu_b)
  end.
(** 83-127: the response and the new state *)
Definition brighenti_response (m : brighenti) (st : lce_state) (H : mat) (T gamma : R) : option (mat * lce_state) :=
  let n := director gamma in
  let st := started m st H T n in
  let F := defgrad H in
  match invn 3 (last_F st) with
  | None => None
  | Some Fi =>
      match distribution m st (mmul 3 F Fi) T n with
      | None => None
      | Some mu =>
          if Req_EM_T (bi_N m) 0 then None
          else if Rle_dec (detn 3 F) 0 then None
          else Some (mscal (/ detn 3 F)
                      (madd (mscal (3 * bi_G m / bi_N m) (msub mu (rest_mu m n))) (mscal (lame (bi_K m) (bi_G m) * ln (detn 3 F)) ident)),
                     {| last_F := F; last_mu := mu; last_T := T |})
      end
  end.
(** a history of calls, each with a displacement gradient, a temperature and an angle; the stresses in order *)
Fixpoint history (m : brighenti) (st : lce_state) (calls : list (mat * R * R)) : option (list mat * lce_state) :=
  match calls with
  | [] => Some ([], st)
  | (H, T, gamma) :: rest =>
      match brighenti_response m st H T gamma with
      | None => None
      | Some (s, st') => match history m st' rest with None => None | Some (ss, st'') => Some (s :: ss, st'') end
      end
  end.

Lemma dyad_symmetric n : symmetric 3 (dyad n).
Proof. intros i j _ _. unfold transpose, dyad. ring. Qed.
Lemma order_tensor_symmetric q n : symmetric 3 (order_tensor q n).
Proof.
  assert (S := dyad_symmetric n). unfold symmetric in *. unfold order_tensor. rewrite transpose_scal, transpose_add, !transpose_scal, S, transpose_ident. reflexivity.
Qed.
Lemma rest_mu_symmetric m n : symmetric 3 (rest_mu m n).
Proof.
  assert (S := dyad_symmetric n). unfold symmetric in *. unfold rest_mu. rewrite transpose_add, !transpose_scal, S, transpose_ident. reflexivity.
Qed.
Lemma transpose_sub A B : transpose (msub A B) = msub (transpose A) (transpose B).
Proof. reflexivity. Qed.
Lemma conjugate_symmetric F M : symmetric 3 M -> symmetric 3 (mmul 3 F (mmul 3 M (transpose F))).
Proof. unfold symmetric. intro S. rewrite !transpose_mul, S, transpose_twice. apply mmul_assoc. Qed.
Lemma distribution_symmetric m st Fh T n mu : symmetric 3 (last_mu st) -> distribution m st Fh T n = Some mu -> symmetric 3 mu.
Proof.
  intros S E. unfold distribution in E. destruct (polar Fh) as [[U Rh]|]; [|discriminate]. cbv zeta in E. injection E as <-.
  assert (SQ : forall T', symmetric 3 (order_tensor (order m T') n)) by (intro; apply order_tensor_symmetric).
  assert (A := conjugate_symmetric Fh (madd (last_mu st) (mscal (2 * bi_N m / 3) (msub (order_tensor (order m T) n) (order_tensor (order m (last_T st)) n))))).
  assert (B := conjugate_symmetric Rh (order_tensor (order m T) n) (SQ T)).
  unfold symmetric in *. rewrite transpose_add, A, transpose_scal, transpose_sub, B, SQ; [reflexivity|].
  rewrite transpose_add, transpose_scal, transpose_sub, !SQ, S. reflexivity.
Qed.
Lemma brighenti_some m st H T gamma s st' : brighenti_response m st H T gamma = Some (s, st') ->
  0 < detn 3 (defgrad H) /\ bi_N m <> 0 /\
  exists Fi mu, invn 3 (last_F (started m st H T (director gamma))) = Some Fi /\
    distribution m (started m st H T (director gamma)) (mmul 3 (defgrad H) Fi) T (director gamma) = Some mu /\
    s = mscal (/ detn 3 (defgrad H)) (madd (mscal (3 * bi_G m / bi_N m) (msub mu (rest_mu m (director gamma)))) (mscal (lame (bi_K m) (bi_G m) * ln (detn 3 (defgrad H))) ident)) /\
    st' = {| last_F := defgrad H; last_mu := mu; last_T := T |}.
Proof.
  unfold brighenti_response. cbv zeta. destruct (invn 3 _) as [Fi|]; [|discriminate].
  destruct (distribution _ _ _ _ _) as [mu|] eqn:ED; [|discriminate]. destruct (Req_EM_T (bi_N m) 0) as [|N]; [discriminate|].
  destruct (Rle_dec (detn 3 (defgrad H)) 0) as [|J]; [discriminate|]. intro E. injection E as <- <-. split; [lra|]. split; [exact N|].
  exists Fi, mu. auto.
Qed.
Lemma started_symmetric m st H T n : symmetric 3 (last_mu st) -> symmetric 3 (last_mu (started m st H T n)).
Proof. intro S. unfold started. destruct (Req_EM_T _ 0); [apply rest_mu_symmetric|exact S]. Qed.
Lemma brighenti_symmetric_step m st H T gamma s st' : symmetric 3 (last_mu st) -> brighenti_response m st H T gamma = Some (s, st') ->
  symmetric 3 s /\ symmetric 3 (last_mu st').
Proof.
  intros S E. apply brighenti_some in E. destruct E as [_ [_ [Fi [mu [_ [ED [-> ->]]]]]]].
  assert (SM := distribution_symmetric _ _ _ _ _ _ (started_symmetric m st H T (director gamma) S) ED).
  assert (SR := rest_mu_symmetric m (director gamma)). split; [|exact SM]. unfold symmetric in *.
  rewrite transpose_scal, transpose_add, !transpose_scal, transpose_sub, SM, SR, transpose_ident. reflexivity.
Qed.
Theorem brighenti_symmetric m calls : forall st ss st', symmetric 3 (last_mu st) -> history m st calls = Some (ss, st') -> List.Forall (symmetric 3) ss.
Proof.
  induction calls as [|[[H T] g] rest IH]; intros st ss st' S E; cbn [history] in E.
  - injection E as <- <-. constructor.
  - destruct (brighenti_response m st H T g) as [[s st1]|] eqn:E1; [|discriminate].
    destruct (history m st1 rest) as [[ss' st2]|] eqn:E2; [|discriminate]. injection E as <- <-.
    destruct (brighenti_symmetric_step _ _ _ _ _ _ _ S E1) as [S1 S2]. constructor; [exact S1|exact (IH _ _ _ S2 E2)].
Qed.

(** *** rotations and no deformation at all *)
Lemma sqrt_of_ident A : meq 3 A ident -> exists B, matrix_sqrt A = Some B /\ meq 3 B ident.
Proof.
  intro E. assert (O : IsoFun.orth 3 ident).
  { split; [rewrite transpose_ident, mmul_ident_l; reflexivity|rewrite mmul_ident_l, transpose_ident; reflexivity]. }
  assert (G : IsoFun.eigs 3 A ident (fun _ => 1)).
  { intros i k Hi Hk. cbn [sumn]. rewrite !(E i _ Hi) by lia. destruct i as [|[|[|]]]; try lia; destruct k as [|[|[|]]]; try lia; unfold ident; cbn [Nat.eqb]; ring. }
  assert (P1 : forall k, (k < 3)%nat -> 0 < (fun _ : nat => 1) k) by (intros; lra).
  destruct (steps_comp A ident (fun _ => 1) O G P1 15 A (fun x => x) P1) as [B [EB HB]]; [symmetry; now apply IsoFun.comp_id|].
  exists B. split; [exact EB|]. rewrite HB.
  assert (H1 : forall n, heron n 1 1 = 1). { induction n as [|n IH]; [reflexivity|]. cbn [heron]. replace (0.5 * (1 + 1 * / 1)) with 1 by lra. exact IH. }
  rewrite (IsoFun.comp_ext 3 ident (fun _ => 1) (fun x => heron 15 x x) (fun _ => 1)) by (intros; apply H1).
  rewrite (IsoFun.comp_const 3 ident (fun _ => 1) 1 O). intros i j _ _. ring.
Qed.
Lemma polar_orthogonal F : meq 3 (mmul 3 (transpose F) F) ident -> exists U Rt, polar F = Some (U, Rt) /\ meq 3 Rt F.
Proof.
  intro E. destruct (sqrt_of_ident _ E) as [U [EU HU]]. unfold polar. rewrite EU.
  destruct (inverse_is U ident) as [C [EC HC]]; [rewrite HU, mmul_ident_l; reflexivity|rewrite HU, mmul_ident_l; reflexivity|]. rewrite EC.
  eexists; eexists. split; [reflexivity|]. rewrite HC, mmul_ident_r. reflexivity.
Qed.
Lemma orthogonal_ident F : meq 3 F ident -> meq 3 (mmul 3 (transpose F) F) ident.
Proof. intro E. rewrite E, transpose_ident, mmul_ident_l. reflexivity. Qed.

(** an increment without deformation changes the distribution tensor by the change of order only *)
Lemma distribution_still m st Fh T n : meq 3 Fh ident -> exists mu, distribution m st Fh T n = Some mu /\
  meq 3 mu (madd (last_mu st) (mscal (2 * bi_N m / 3) (msub (order_tensor (order m T) n) (order_tensor (order m (last_T st)) n)))).
Proof.
  intro E. destruct (polar_orthogonal Fh (orthogonal_ident Fh E)) as [U [Rt [EP HR]]]. unfold distribution. rewrite EP. cbv zeta.
  eexists. split; [reflexivity|]. rewrite HR, E, transpose_ident, !mmul_ident_l, !mmul_ident_r.
  intros i j _ _. unfold madd, mscal, msub. ring.
Qed.
Lemma norm_zero_iff A : norm 3 3 A = 0 -> meq 3 A zero.
Proof.
  intro E. unfold norm in E. apply sqrt_eq_0 in E.
  - unfold squared_norm in E. cbn [sumn] in E. intros i j Hi Hj. unfold zero.
    assert (P : forall i j, 0 <= A i j * A i j) by (intros a b; assert (X := Rle_0_sqr (A a b)); exact X).
    apply Rsqr_0_uniq. unfold Rsqr.
    assert (P00 := P 0%nat 0%nat). assert (P01 := P 0%nat 1%nat). assert (P02 := P 0%nat 2%nat). assert (P10 := P 1%nat 0%nat). assert (P11 := P 1%nat 1%nat).
    assert (P12 := P 1%nat 2%nat). assert (P20 := P 2%nat 0%nat). assert (P21 := P 2%nat 1%nat). assert (P22 := P 2%nat 2%nat).
    destruct i as [|[|[|]]]; try lia; destruct j as [|[|[|]]]; try lia; lra.
  - unfold squared_norm. cbn [sumn]. assert (P : forall i j, 0 <= A i j * A i j) by (intros a b; assert (X := Rle_0_sqr (A a b)); exact X).
    assert (P00 := P 0%nat 0%nat). assert (P01 := P 0%nat 1%nat). assert (P02 := P 0%nat 2%nat). assert (P10 := P 1%nat 0%nat). assert (P11 := P 1%nat 1%nat).
    assert (P12 := P 1%nat 2%nat). assert (P20 := P 2%nat 0%nat). assert (P21 := P 2%nat 1%nat). assert (P22 := P 2%nat 2%nat). lra.
Qed.
Lemma started_set m st H T n : detn 3 (last_F st) <> 0 -> started m st H T n = st.
Proof.
  intro D. unfold started. destruct (Req_EM_T (norm 3 3 (last_F st)) 0) as [Z|]; [|reflexivity]. exfalso. apply D.
  apply norm_zero_iff in Z. rewrite (detn_ext 3 _ _ (or_intror eq_refl) Z). unfold detn, det3, zero. cbn [Nat.eqb]. ring.
Qed.
Lemma started_fresh m H T n : started m fresh H T n = {| last_F := madd H ident; last_mu := rest_mu m n; last_T := T |}.
Proof.
  unfold started. destruct (Req_EM_T (norm 3 3 (last_F fresh)) 0) as [|N]; [reflexivity|]. exfalso. apply N.
  unfold norm, squared_norm, fresh, zero. cbn [last_F sumn]. replace (0 + (0 + 0 * 0 + 0 * 0 + 0 * 0)  + (0 + 0 * 0 + 0 * 0 + 0 * 0) + (0 + 0 * 0 + 0 * 0 + 0 * 0)) with 0 by ring. apply sqrt_0.
Qed.

(** the stress for a given distribution tensor *)
Definition stress_of (m : brighenti) (n : vec) (H mu : mat) : mat :=
  mscal (/ detn 3 (defgrad H)) (madd (mscal (3 * bi_G m / bi_N m) (msub mu (rest_mu m n))) (mscal (lame (bi_K m) (bi_G m) * ln (detn 3 (defgrad H))) ident)).
#[global] Instance stress_of_proper m n H : Proper (meq 3 ==> meq 3) (stress_of m n H).
Proof. intros a b E. unfold stress_of. now rewrite E. Qed.
Lemma response_from m st H T gamma Fi mu : 0 < detn 3 (defgrad H) -> bi_N m <> 0 -> detn 3 (last_F st) <> 0 -> invn 3 (last_F st) = Some Fi ->
  distribution m st (mmul 3 (defgrad H) Fi) T (director gamma) = Some mu ->
  brighenti_response m st H T gamma = Some (stress_of m (director gamma) H mu, {| last_F := defgrad H; last_mu := mu; last_T := T |}).
Proof.
  intros J N D EI ED. unfold brighenti_response. cbv zeta. rewrite (started_set m st H T (director gamma) D), EI, ED.
  destruct (Req_EM_T (bi_N m) 0); [contradiction|]. destruct (Rle_dec (detn 3 (defgrad H)) 0); [lra|]. reflexivity.
Qed.

(** the same deformation again, at any temperature *)
Lemma again m st H T gamma : 0 < detn 3 (defgrad H) -> bi_N m <> 0 -> last_F st = defgrad H ->
  exists mu, brighenti_response m st H T gamma = Some (stress_of m (director gamma) H mu, {| last_F := defgrad H; last_mu := mu; last_T := T |}) /\
    meq 3 mu (madd (last_mu st) (mscal (2 * bi_N m / 3) (msub (order_tensor (order m T) (director gamma)) (order_tensor (order m (last_T st)) (director gamma))))).
Proof.
  intros J N EF. assert (D : detn 3 (last_F st) <> 0) by (rewrite EF; lra).
  destruct (invn_works 3 (last_F st) (or_intror eq_refl) D) as [Fi EI]. destruct (invn_some 3 _ Fi (or_intror eq_refl) EI) as [I1 _].
  destruct (distribution_still m st (mmul 3 (defgrad H) Fi) T (director gamma)) as [mu [ED HM]]; [now rewrite <- EF|].
  exists mu. split; [exact (response_from m st H T gamma Fi mu J N D EI ED)|exact HM].
Qed.

(** evaluating a material point twice gives the same stress and the same internal variables *)
Theorem brighenti_repeat m st H T gamma s st1 : brighenti_response m st H T gamma = Some (s, st1) ->
  exists s2 st2, brighenti_response m st1 H T gamma = Some (s2, st2) /\ meq 3 s2 s /\
    meq 3 (last_F st2) (last_F st1) /\ meq 3 (last_mu st2) (last_mu st1) /\ last_T st2 = last_T st1.
Proof.
  intro E. apply brighenti_some in E. destruct E as [J [N [Fi [mu [_ [_ [-> ->]]]]]]].
  destruct (again m {| last_F := defgrad H; last_mu := mu; last_T := T |} H T gamma J N eq_refl) as [mu2 [E2 H2]]. cbn [last_mu last_T] in H2.
  assert (K : meq 3 mu2 mu). { rewrite H2. intros i j _ _. unfold madd, mscal, msub. ring. }
  rewrite E2. eexists; eexists. split; [reflexivity|]. cbn [last_F last_mu last_T]. fold (stress_of m (director gamma) H mu).
  split; [now rewrite K|]. split; [reflexivity|]. split; [exact K|reflexivity].
Qed.

(** *** temperature *)
Lemma order_decreasing m T1 T2 : 0 < bi_q0 m -> 0 < bi_c m -> T1 < T2 -> 0 < order m T2 < order m T1.
Proof.
  intros Hq Hc HT. unfold order. assert (Ic := Rinv_0_lt_compat _ Hc).
  assert (L : exp ((T1 - bi_T m) / bi_c m) < exp ((T2 - bi_T m) / bi_c m)) by (apply exp_increasing; unfold Rdiv; apply Rmult_lt_compat_r; lra).
  assert (P1 := exp_pos ((T1 - bi_T m) / bi_c m)). assert (P2 := exp_pos ((T2 - bi_T m) / bi_c m)).
  split; [apply Rdiv_lt_0_compat; lra|]. unfold Rdiv at 1 3. apply Rmult_lt_compat_l; [exact Hq|]. apply Rinv_lt_contravar; [|lra].
  apply Rmult_lt_0_compat; lra.
Qed.
Lemma director_unit gamma : director gamma 0%nat * director gamma 0%nat + director gamma 1%nat * director gamma 1%nat + director gamma 2%nat * director gamma 2%nat = 1.
Proof. unfold director. assert (X := sin2_cos2 gamma). unfold Rsqr in X. lra. Qed.
(** the stress along a direction *)
Definition along (v : vec) (s : mat) : R := sumn 3 (fun i => sumn 3 (fun j => v i * s i j * v j)).
Definition vdot (v w : vec) : R := sumn 3 (fun i => v i * w i).

Lemma brighenti_heat m st H T1 T2 gamma s1 st1 : brighenti_response m st H T1 gamma = Some (s1, st1) ->
  exists s2 st2, brighenti_response m st1 H T2 gamma = Some (s2, st2) /\
    meq 3 (msub s2 s1) (mscal (2 * bi_G m / detn 3 (defgrad H)) (msub (order_tensor (order m T2) (director gamma)) (order_tensor (order m T1) (director gamma)))).
Proof.
  intro E. apply brighenti_some in E. destruct E as [J [N [Fi [mu [_ [_ [-> ->]]]]]]].
  destruct (again m {| last_F := defgrad H; last_mu := mu; last_T := T1 |} H T2 gamma J N eq_refl) as [mu2 [E2 H2]]. cbn [last_mu last_T] in H2.
  rewrite E2. eexists; eexists. split; [reflexivity|]. rewrite H2. intros i j _ _. unfold stress_of, madd, mscal, msub. field. lra.
Qed.
Theorem brighenti_heating m st H T1 T2 gamma s1 st1 : 0 < bi_G m -> 0 < bi_q0 m -> 0 < bi_c m -> T1 < T2 ->
  brighenti_response m st H T1 gamma = Some (s1, st1) ->
  exists s2 st2, brighenti_response m st1 H T2 gamma = Some (s2, st2) /\ tr 3 s2 = tr 3 s1 /\
    along (director gamma) s2 < along (director gamma) s1 /\
    forall v, vdot v v = 1 -> vdot v (director gamma) = 0 -> along v s1 < along v s2.
Proof.
  intros HG Hq Hc HT E. assert (J := proj1 (brighenti_some _ _ _ _ _ _ _ E)).
  destruct (brighenti_heat m st H T1 T2 gamma s1 st1 E) as [s2 [st2 [E2 D]]]. exists s2, st2. split; [exact E2|].
  assert (O := order_decreasing m T1 T2 Hq Hc HT). set (a := order m T1) in *. set (b := order m T2) in *. clearbody a b.
  set (k := 2 * bi_G m / detn 3 (defgrad H)) in *. assert (Pk : 0 < k) by (unfold k; apply Rdiv_lt_0_compat; lra). clearbody k.
  set (n := director gamma) in *. assert (U := director_unit gamma). fold n in U. clearbody n.
  assert (Dij : forall i j, (i < 3)%nat -> (j < 3)%nat -> s2 i j = s1 i j + k * (0.5 * (((1 - b) * ident i j + 3 * b * (n i * n j)) - ((1 - a) * ident i j + 3 * a * (n i * n j))))).
  { intros i j Hi Hj. assert (X := D i j Hi Hj). unfold msub, mscal, order_tensor, madd, mscal, dyad in X. lra. }
  set (nn := n 0%nat * n 0%nat + n 1%nat * n 1%nat + n 2%nat * n 2%nat) in *.
  split; [|split].
  - unfold tr. cbn [sumn]. rewrite !Dij by lia. unfold ident. cbn [Nat.eqb].
    transitivity (0 + s1 0%nat 0%nat + s1 1%nat 1%nat + s1 2%nat 2%nat + k * (3 / 2) * (b - a) * (nn - 1)); [unfold nn; replace 0.5 with (/ 2) by lra; field|rewrite U; ring].
  - assert (X : along n s2 = along n s1 + k * 0.5 * (b - a) * (3 * nn * nn - nn)).
    { unfold along. cbn [sumn]. rewrite !Dij by lia. unfold ident, nn. cbn [Nat.eqb]. ring. }
    rewrite X, U. assert (Y : 0 < k * (a - b)) by (apply Rmult_lt_0_compat; lra). lra.
  - intros v V W. unfold vdot in V, W. cbn [sumn] in V, W.
    assert (X : along v s2 = along v s1 + k * 0.5 * (b - a) * (3 * (0 + v 0%nat * n 0%nat + v 1%nat * n 1%nat + v 2%nat * n 2%nat) * (0 + v 0%nat * n 0%nat + v 1%nat * n 1%nat + v 2%nat * n 2%nat)
                 - (0 + v 0%nat * v 0%nat + v 1%nat * v 1%nat + v 2%nat * v 2%nat))).
    { unfold along. cbn [sumn]. rewrite !Dij by lia. unfold ident. cbn [Nat.eqb]. ring. }
    rewrite X, V, W. assert (Y : 0 < k * (a - b)) by (apply Rmult_lt_0_compat; lra). lra.
Qed.

(** at a fixed deformation only the last temperature matters *)
Lemma temperatures m H gamma : forall Ts st, 0 < detn 3 (defgrad H) -> bi_N m <> 0 -> last_F st = defgrad H ->
  exists ss st', history m st (map (fun T => (H, T, gamma)) Ts) = Some (ss, st') /\ last_F st' = defgrad H /\ last_T st' = last Ts (last_T st) /\
    meq 3 (last_mu st') (madd (last_mu st) (mscal (2 * bi_N m / 3) (msub (order_tensor (order m (last_T st')) (director gamma)) (order_tensor (order m (last_T st)) (director gamma))))) /\
    (Ts <> [] -> last ss zero = stress_of m (director gamma) H (last_mu st')).
Proof.
  induction Ts as [|T Ts IH]; intros st J N EF.
  - exists [], st. split; [reflexivity|]. split; [exact EF|]. split; [reflexivity|]. split; [|intro Z; now destruct Z]. intros i j _ _. unfold madd, mscal, msub. ring.
  - cbn [map history]. destruct (again m st H T gamma J N EF) as [mu [E HM]]. rewrite E.
    destruct (IH {| last_F := defgrad H; last_mu := mu; last_T := T |} J N eq_refl) as [ss [st' [E2 [F2 [T2 [M2 L2]]]]]]. rewrite E2. cbn [last_mu last_T] in *.
    exists (stress_of m (director gamma) H mu :: ss), st'. split; [reflexivity|]. split; [exact F2|]. split; [|split].
    + rewrite T2. destruct Ts as [|T' Ts]; [reflexivity|]. cbn [last]. clear. revert T'. induction Ts as [|T'' Ts IH]; intro T'; [reflexivity|]. cbn [last]. apply IH.
    + rewrite M2, HM. intros i j _ _. unfold madd, mscal, msub. ring.
    + intros _. destruct Ts as [|T' Ts].
      * cbn [map history] in E2. injection E2 as <- <-. reflexivity.
      * destruct ss as [|s ss]; [|change (last (stress_of m (director gamma) H mu :: s :: ss) zero) with (last (s :: ss) zero); apply L2; discriminate].
        exfalso. cbn [map history] in E2. match type of E2 with match ?x with _ => _ end = _ => destruct x as [[? ?]|]; [|discriminate] end.
        match type of E2 with match ?x with _ => _ end = _ => destruct x as [[? ?]|]; discriminate end.
Qed.
Theorem brighenti_temperature_path m st H T0 gamma s0 st0 Ts T : brighenti_response m st H T0 gamma = Some (s0, st0) ->
  exists s s' ss st1 st2, brighenti_response m st0 H T gamma = Some (s, st1) /\
    history m st0 (map (fun T => (H, T, gamma)) (Ts ++ [T])) = Some (ss, st2) /\ last ss zero = s' /\ meq 3 s' s /\ meq 3 (last_mu st2) (last_mu st1).
Proof.
  intro E. apply brighenti_some in E. destruct E as [J [N [Fi [mu [_ [_ [_ ->]]]]]]].
  set (st0 := {| last_F := defgrad H; last_mu := mu; last_T := T0 |}).
  destruct (again m st0 H T gamma J N eq_refl) as [mu1 [E1 H1]].
  destruct (temperatures m H gamma (Ts ++ [T]) st0 J N eq_refl) as [ss [st2 [E2 [_ [T2 [M2 L2]]]]]].
  rewrite last_last in T2. rewrite T2 in M2. cbn [last_mu last_T st0] in H1, M2.
  assert (K : meq 3 (last_mu st2) mu1) by (rewrite M2, H1; reflexivity).
  exists (stress_of m (director gamma) H mu1), (last ss zero), ss, {| last_F := defgrad H; last_mu := mu1; last_T := T |}, st2.
  split; [exact E1|]. split; [exact E2|]. split; [reflexivity|]. split; [|exact K]. rewrite L2 by (destruct Ts; discriminate). now rewrite K.
Qed.
