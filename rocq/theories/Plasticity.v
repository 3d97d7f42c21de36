(** * J2 plasticity (C23, C41)

    physics/materials/solid_material.hpp:128-328 and parameterized_solid_material.hpp:122-207, over the reals (tensor
    entries are plain values, not duals).  A hardening law is given by its flow stress [h_Y], the gradient [h_dY] the law
    returns on a dual argument, and [h_sy]. *)
From Coq Require Import Reals Lra Lia Bool FunctionalExtensionality.
From Coquelicot Require Import Coquelicot.
From Verif Require Import Sums Dual Tensor LU LUDeriv MatAlg Materials MaterialFacts ScalarSolve.
Local Open Scope R_scope.

Record hardening := { h_sy : R; h_Y : R -> R; h_dY : R -> R }.
(** lines 132-149 *)
Definition linear_hardening (sy Hi : R) : hardening := {| h_sy := sy; h_Y := fun e => sy + Hi * e; h_dY := fun _ => Hi |}.
(** lines 154-173; std::pow with a positive base *)
Definition power_hardening (sy n eps0 : R) : hardening :=
  {| h_sy := sy; h_Y := fun e => sy * Rpower (1 + e / eps0) (1 / n);
     h_dY := fun e => sy * (1 / n * Rpower (1 + e / eps0) (1 / n - 1) * (1 / eps0)) |}.
(** lines 180-199 *)
Definition voce_hardening (sy sat c : R) : hardening :=
  {| h_sy := sy; h_Y := fun e => sat - (sat - sy) * exp (- e / c);
     h_dY := fun e => - ((sat - sy) * (exp (- e / c) * (- 1 / c))) |}.

Record j2 := { j_E : R; j_nu : R; j_h : hardening; j_Hk : R }.
Record pstate := { ep : mat; eqps : R }.
(** lines 217-218 are [bulk] and [shear]: K = E / (3 (1 - 2 nu)), G = 0.5 E / (1 + nu) *)
Definition tolerance : R := / 10 ^ 10.

Record trial := { t_p : R; t_s : mat; t_eta : mat; t_q : R }.
(** lines 221-226 *)
Definition predictor (m : j2) (st : pstate) (H : mat) : trial :=
  let K := bulk (j_E m) (j_nu m) in let G := shear (j_E m) (j_nu m) in
  let el := msub (sym H) (ep st) in
  let s := mscal (2 * G) (dev 3 el) in
  let back := mscal (2 / 3 * j_Hk m) (ep st) in
  let eta := msub s back in
  {| t_p := K * tr 3 el; t_s := s; t_eta := eta; t_q := sqrt 1.5 * sqrt (squared_norm 3 3 eta) |}.
(** lines 230-232, and its gradient *)
Definition yield_residual (m : j2) (old q d : R) : R :=
  q - (3 * shear (j_E m) (j_nu m) + j_Hk m) * d - h_Y (j_h m) (old + d).
Definition yield_slope (m : j2) (old d : R) : R :=
  - (3 * shear (j_E m) (j_nu m) + j_Hk m) - h_dY (j_h m) (old + d).
Definition solver_options (m : j2) : options := {| xtol := 0; rtol := tolerance * h_sy (j_h m); max_iter := 25 |}.

(** what a call does: stop with an error (the solver refuses the interval), produce NaN, or return.  [r_status] is the solver's
    status, which the code ignores; it is [None] when the return map was not entered. *)
Record result := { r_stress : mat; r_state : pstate; r_status : option answer }.
Inductive response := Stopped | NaN | Returned (r : result).

Definition total (s : mat) (p : R) : mat := madd s (mscal p ident).
(** line 242: interval of the scalar solve *)
Definition upper_bound (m : j2) (old q : R) : R := (q - h_Y (j_h m) old) / (3 * shear (j_E m) (j_nu m) + j_Hk m).


(** lines 212-260; line 233 compares with the solver's tolerance *)
Definition j2_small (m : j2) (st : pstate) (H : mat) : response :=
  if finite_moduli_dec (j_nu m) then
  let G := shear (j_E m) (j_nu m) in
  let t := predictor m st H in
  if Rlt_dec (tolerance * h_sy (j_h m)) (yield_residual m (eqps st) (t_q t) 0) then
    if Req_EM_T (3 * G + j_Hk m) 0 then NaN else
    match solve_scalar_equation (yield_residual m (eqps st) (t_q t)) (yield_slope m (eqps st)) (solver_options m)
            0 0 (upper_bound m (eqps st) (t_q t)) with
    | Refused => Stopped
    | NotANumber => NaN
    | Answer a =>
        if Req_EM_T (t_q t) 0 then NaN else
        let Np := mscal (1.5 / t_q t) (t_eta t) in
        Returned {| r_stress := total (msub (t_s t) (mscal (2 * G * a_x a) Np)) (t_p t);
                    r_state := {| ep := madd (ep st) (mscal (a_x a) Np); eqps := eqps st + a_x a |};
                    r_status := Some a |}
    end
  else Returned {| r_stress := total (t_s t) (t_p t); r_state := st; r_status := None |}
  else NaN.

(** parameterized_solid_material.hpp:140-205 with plain parameter values: no back stress, Voce hardening *)
Definition param_j2 (E nu sy sat c : R) (st : pstate) (H : mat) : response :=
  if finite_moduli_dec nu then
  let K := bulk E nu in let G := shear E nu in
  let Y := fun e => sat - (sat - sy) * exp (- e / c) in
  let dY := fun e => - ((sat - sy) * (exp (- e / c) * (- 1 / c))) in
  let el := msub (sym H) (ep st) in
  let p := K * tr 3 el in
  let s := mscal (2 * G) (dev 3 el) in
  let q := sqrt 1.5 * sqrt (squared_norm 3 3 s) in
  let residual := fun d => q - 3 * G * d - Y (eqps st + d) in
  let slope := fun d => - (3 * G) - dY (eqps st + d) in
  if Rlt_dec (tolerance * sy) (residual 0) then
    if Req_EM_T (3 * G) 0 then NaN else
    match solve_scalar_equation residual slope {| xtol := 0; rtol := tolerance * sy; max_iter := 25 |}
            0 0 ((q - Y (eqps st)) / (3 * G)) with
    | Refused => Stopped
    | NotANumber => NaN
    | Answer a =>
        if Req_EM_T q 0 then NaN else
        let Np := mscal (1.5 / q) s in
        Returned {| r_stress := total (msub s (mscal (2 * G * a_x a) Np)) p;
                    r_state := {| ep := madd (ep st) (mscal (a_x a) Np); eqps := eqps st + a_x a |};
                    r_status := Some a |}
    end
  else Returned {| r_stress := total s p; r_state := st; r_status := None |}
  else NaN.

(** ** specification *)
(** what a material and state must satisfy: positive moduli, a flow stress that is positive and does not fall, with the right
    slope, plastic strain deviatoric *)
Record sound_material (m : j2) : Prop := {
  sm_nu : finite_moduli (j_nu m);
  sm_G : 0 < shear (j_E m) (j_nu m);
  sm_Hk : 0 <= j_Hk m;
  sm_sy : 0 < h_sy (j_h m);
  sm_pos : forall e, 0 <= e -> 0 < h_Y (j_h m) e;
  sm_mono : forall e e', 0 <= e -> e <= e' -> h_Y (j_h m) e <= h_Y (j_h m) e';
  sm_slope : forall e, 0 <= e -> 0 <= h_dY (j_h m) e }.
Record sound_state (st : pstate) : Prop := {
  ss_eqps : 0 <= eqps st;
  ss_sym : symmetric 3 (ep st);
  ss_tr : tr 3 (ep st) = 0 }.

(** von Mises equivalent of the stress relative to the back stress; equivalent strain of a plastic strain increment *)
Definition mises (A : mat) : R := sqrt 1.5 * sqrt (squared_norm 3 3 A).
Definition equivalent_strain (A : mat) : R := sqrt (2 / 3) * sqrt (squared_norm 3 3 A).
Definition back_stress (m : j2) (st : pstate) : mat := mscal (2 / 3 * j_Hk m) (ep st).
(** how far outside the yield surface a stress is *)
Definition overstress (m : j2) (st : pstate) (stress : mat) : R :=
  mises (msub (dev 3 stress) (back_stress m st)) - h_Y (j_h m) (eqps st).

(** ** algebra *)
Lemma sqn_nonneg A : 0 <= squared_norm 3 3 A.
Proof.
  unfold squared_norm. apply sumn_nonneg. intros i _. apply sumn_nonneg. intros j _. nra.
Qed.
Lemma sqn_scal c A : squared_norm 3 3 (mscal c A) = c * c * squared_norm 3 3 A.
Proof.
  unfold squared_norm. rewrite <- sumn_scal_l. apply sumn_ext. intros i _. rewrite <- sumn_scal_l. apply sumn_ext. intros j _.
  unfold mscal. ring.
Qed.
Lemma sqn_ext A B : meq 3 A B -> squared_norm 3 3 A = squared_norm 3 3 B.
Proof. intros H. unfold squared_norm. apply sumn_ext. intros i Hi. apply sumn_ext. intros j Hj. now rewrite (H i j Hi Hj). Qed.
Lemma mises_ext A B : meq 3 A B -> mises A = mises B.
Proof. intros H. unfold mises. now rewrite (sqn_ext A B H). Qed.
Lemma mises_scal c A : 0 <= c -> mises (mscal c A) = c * mises A.
Proof.
  intros H. unfold mises. rewrite sqn_scal, sqrt_mult_alt by nra. rewrite sqrt_square by exact H. ring.
Qed.
Lemma mises_nonneg A : 0 <= mises A.
Proof. unfold mises. apply Rmult_le_pos; apply sqrt_pos. Qed.
Lemma mises_sq A : mises A * mises A = 1.5 * squared_norm 3 3 A.
Proof.
  unfold mises. transitivity ((sqrt 1.5 * sqrt 1.5) * (sqrt (squared_norm 3 3 A) * sqrt (squared_norm 3 3 A))); [ring|].
  rewrite !sqrt_sqrt; [reflexivity|apply sqn_nonneg|lra].
Qed.
Lemma equivalent_of_mises A : equivalent_strain A = 2 / 3 * mises A.
Proof.
  unfold equivalent_strain, mises. rewrite <- Rmult_assoc. f_equal.
  apply Rsqr_inj; [apply sqrt_pos|apply Rmult_le_pos; [lra|apply sqrt_pos]|]. unfold Rsqr.
  rewrite sqrt_sqrt by lra. transitivity (4 / 9 * (sqrt 1.5 * sqrt 1.5)); [rewrite sqrt_sqrt by lra; lra|lra].
Qed.
Lemma meq_refl n A : meq n A A.
Proof. intros i j _ _. reflexivity. Qed.
Lemma sqn_inner A : squared_norm 3 3 A = inner 3 3 A A.
Proof. reflexivity. Qed.

Lemma tr_sub n A B : tr n (msub A B) = tr n A - tr n B.
Proof. unfold tr. rewrite <- sumn_minus. reflexivity. Qed.
Lemma tr_add n A B : tr n (madd A B) = tr n A + tr n B.
Proof. unfold tr. rewrite <- sumn_plus. reflexivity. Qed.
Lemma tr_scal n c A : tr n (mscal c A) = c * tr n A.
Proof. unfold tr. rewrite <- sumn_scal_l. reflexivity. Qed.
Lemma tr_ident3 : tr 3 ident = 3.
Proof. unfold tr, ident. cbn [sumn Nat.eqb]. lra. Qed.

Lemma dev_of_traceless A : tr 3 A = 0 -> meq 3 (dev 3 A) A.
Proof. intros H i j _ _. unfold dev. rewrite H. unfold Rdiv. destruct (Nat.eqb i j); ring. Qed.
Lemma dev_total s p : tr 3 s = 0 -> meq 3 (dev 3 (total s p)) s.
Proof.
  intros H i j _ _. unfold dev, total. rewrite tr_add, tr_scal, tr_ident3, H. unfold madd, mscal, ident.
  replace (INR 3) with 3 by (cbn [INR]; lra). destruct (Nat.eqb i j); field.
Qed.
Lemma dev_msub A B : meq 3 (dev 3 (msub A B)) (msub (dev 3 A) (dev 3 B)).
Proof.
  intros i j _ _. unfold dev. rewrite tr_sub. unfold msub, Rdiv. destruct (Nat.eqb i j); ring.
Qed.
Lemma sym_symmetric A : symmetric 3 (sym A).
Proof. intros i j _ _. unfold transpose, sym. ring. Qed.

Section Facts.
Variable m : j2.
Hypothesis M : sound_material m.
Variable st : pstate.
Hypothesis S : sound_state st.
Variable H : mat.

Notation G := (shear (j_E m) (j_nu m)).
Notation A := (3 * G + j_Hk m).
Notation t := (predictor m st H).
Notation f := (yield_residual m (eqps st) (t_q t)).
Notation fd := (yield_slope m (eqps st)).
Notation U := (upper_bound m (eqps st) (t_q t)).

Lemma A_pos : 0 < A.
Proof. destruct M. lra. Qed.
Lemma rtol_pos : 0 < tolerance * h_sy (j_h m).
Proof. destruct M. apply Rmult_lt_0_compat; [|assumption]. unfold tolerance. apply Rinv_0_lt_compat, pow_lt. lra. Qed.

Lemma s_traceless : tr 3 (t_s t) = 0.
Proof. unfold predictor. cbn [t_s]. rewrite tr_scal, tr_dev by lia. ring. Qed.
Lemma eta_traceless : tr 3 (t_eta t) = 0.
Proof.
  unfold predictor. cbn [t_eta]. rewrite tr_sub, !tr_scal, tr_dev by lia. destruct S as [_ _ ->]. ring.
Qed.
Lemma s_symmetric : symmetric 3 (t_s t).
Proof.
  unfold predictor. cbn [t_s]. unfold symmetric. rewrite transpose_scal.
  assert (X : symmetric 3 (dev 3 (msub (sym H) (ep st)))).
  { apply dev_symmetric. intros i j Hi Hj. unfold transpose, msub. destruct S as [_ E _].
    assert (E1 := E i j Hi Hj). unfold transpose in E1. rewrite E1. unfold sym. ring. }
  unfold symmetric in X. now rewrite X.
Qed.
Lemma eta_symmetric : symmetric 3 (t_eta t).
Proof.
  intros i j Hi Hj. assert (X := s_symmetric i j Hi Hj). destruct S as [_ E _]. assert (Y := E i j Hi Hj).
  unfold predictor in *. cbn [t_eta t_s] in *. unfold transpose, msub, mscal in *. rewrite X, Y. reflexivity.
Qed.
Lemma q_is_mises : t_q t = mises (t_eta t).
Proof. reflexivity. Qed.

Lemma entered : 0 < f 0 -> 0 < U /\ 0 < t_q t /\ f U <= 0 /\ A * U = f 0.
Proof.
  intros F0. unfold yield_residual in F0. rewrite Rplus_0_r, Rmult_0_r, Rminus_0_r in F0.
  assert (P := A_pos).
  assert (U0 : 0 < U) by (unfold upper_bound; apply Rdiv_lt_0_compat; lra).
  assert (E : A * U = t_q t - h_Y (j_h m) (eqps st)) by (unfold upper_bound; field; lra).
  destruct M as [_ _ _ _ Yp Ym _]. destruct S as [Se _ _]. assert (Y0 := Yp _ Se).
  assert (Yu := Ym (eqps st) (eqps st + U) Se ltac:(lra)).
  split; [exact U0|]. split; [lra|]. split.
  - unfold yield_residual. lra.
  - unfold yield_residual. rewrite E, Rplus_0_r. ring.
Qed.

(** the scalar problem is bracketed and never hits a flat root *)
Lemma always_answers : 0 < f 0 -> exists a, solve_scalar_equation f fd (solver_options m) 0 0 U = Answer a /\ 0 <= a_x a <= U.
Proof.
  intros F0. destruct (entered F0) as [U0 [Q0 [FU _]]].
  destruct (solve_scalar_equation f fd (solver_options m) 0 0 U) as [| |a] eqn:E.
  - exfalso. apply refuses_iff in E. nra.
  - exfalso. apply nan_only_at_flat_roots in E. destruct E as [x [Bx [_ Z]]].
    unfold yield_slope in Z. destruct M as [_ _ _ _ _ _ Sl]. destruct S as [Se _ _]. assert (P := A_pos).
    assert (0 <= h_dY (j_h m) (eqps st + x)) by (apply Sl; minmax; lra). lra.
  - exists a. split; [reflexivity|]. destruct (answer_facts _ _ _ _ _ _ _ E) as [B _]. minmax; lra.
Qed.

(** every call returns; the two possible shapes *)
Definition flow : mat := mscal (1.5 / t_q t) (t_eta t).
Theorem j2_returns : exists r, j2_small m st H = Returned r /\
  ((f 0 <= tolerance * h_sy (j_h m) /\ r = {| r_stress := total (t_s t) (t_p t); r_state := st; r_status := None |}) \/
   (tolerance * h_sy (j_h m) < f 0 /\ exists a,
      solve_scalar_equation f fd (solver_options m) 0 0 U = Answer a /\ 0 <= a_x a <= U /\ 0 < t_q t /\
      r = {| r_stress := total (msub (t_s t) (mscal (2 * G * a_x a) flow)) (t_p t);
             r_state := {| ep := madd (ep st) (mscal (a_x a) flow); eqps := eqps st + a_x a |}; r_status := Some a |})).
Proof.
  unfold j2_small. destruct (finite_moduli_dec (j_nu m)) as [_|X]; [|elim X; apply (sm_nu m M)]. cbv zeta.
  destruct (Rlt_dec (tolerance * h_sy (j_h m)) (f 0)) as [L|L].
  - assert (F0 : 0 < f 0) by (assert (X := rtol_pos); lra).
    destruct (always_answers F0) as [a [E B]]. destruct (entered F0) as [_ [Q0 _]]. assert (P := A_pos).
    destruct (Req_EM_T A 0); [lra|]. rewrite E. destruct (Req_EM_T (t_q t) 0); [lra|].
    eexists. split; [reflexivity|]. right. split; [exact L|]. exists a. auto.
  - eexists. split; [reflexivity|]. left. split; [lra|reflexivity].
Qed.

(** elastic step *)
Theorem j2_elastic : finite_moduli (j_nu m) -> overstress m st (total (t_s t) (t_p t)) <= tolerance * h_sy (j_h m) ->
  j2_small m st H = Returned {| r_stress := total (t_s t) (t_p t); r_state := st; r_status := None |}.
Proof.
  intros Fm O. unfold overstress in O.
  assert (E : mises (msub (dev 3 (total (t_s t) (t_p t))) (back_stress m st)) = t_q t).
  { rewrite q_is_mises. apply mises_ext. rewrite (dev_total _ _ s_traceless). reflexivity. }
  rewrite E in O. unfold j2_small. destruct (finite_moduli_dec (j_nu m)) as [_|X]; [|contradiction]. cbv zeta.
  destruct (Rlt_dec (tolerance * h_sy (j_h m)) (f 0)) as [L|L]; [|reflexivity].
  exfalso. unfold yield_residual in L. rewrite Rplus_0_r in L. lra.
Qed.

(** the plastic correction scales the relative stress *)
Definition shrink (d : R) : R := 1 - A * d / t_q t.
Lemma flow_traceless : tr 3 flow = 0.
Proof. unfold flow. rewrite tr_scal, eta_traceless. ring. Qed.
Lemma flow_symmetric : symmetric 3 flow.
Proof. unfold flow, symmetric. rewrite transpose_scal. assert (X := eta_symmetric). unfold symmetric in X. now rewrite X. Qed.
Lemma flow_mises : 0 < t_q t -> mises flow = 1.5.
Proof.
  intros Q. unfold flow. rewrite mises_scal by (apply Rlt_le, Rdiv_lt_0_compat; lra). rewrite <- q_is_mises. field. lra.
Qed.

Lemma corrected d : 0 < t_q t ->
  meq 3 (msub (dev 3 (total (msub (t_s t) (mscal (2 * G * d) flow)) (t_p t)))
              (mscal (2 / 3 * j_Hk m) (madd (ep st) (mscal d flow))))
        (mscal (shrink d) (t_eta t)).
Proof.
  intros Q. rewrite dev_total.
  - intros i j _ _. unfold msub, mscal, madd, flow, mscal, shrink.
    assert (Eeta : t_eta t i j = t_s t i j - 2 / 3 * j_Hk m * ep st i j) by reflexivity. rewrite Eeta.
    replace 1.5 with (3 / 2) by lra. field. lra.
  - rewrite tr_sub, tr_scal, flow_traceless, s_traceless. ring.
Qed.
Lemma shrink_nonneg d : 0 < f 0 -> 0 <= d <= U -> 0 <= shrink d /\ mises (mscal (shrink d) (t_eta t)) = t_q t - A * d.
Proof.
  intros F0 B. destruct (entered F0) as [U0 [Q0 [FU EU]]]. assert (P := A_pos).
  destruct M as [_ _ _ _ Yp _ _]. destruct S as [Se _ _]. assert (Y0 := Yp _ Se).
  assert (L : A * d <= t_q t).
  { assert (A * d <= A * U) by (apply Rmult_le_compat_l; lra). unfold yield_residual in EU. rewrite Rplus_0_r in EU. lra. }
  assert (Sh : 0 <= shrink d).
  { unfold shrink. assert (A * d / t_q t <= 1); [|lra]. apply Rmult_le_reg_r with (t_q t); [lra|].
    unfold Rdiv. rewrite Rmult_assoc, Rinv_l by lra. lra. }
  split; [exact Sh|]. rewrite mises_scal by exact Sh. rewrite <- q_is_mises. unfold shrink. field. lra.
Qed.

(** distance to the yield surface after the update is the solver's residual *)
Theorem j2_overstress r a : j2_small m st H = Returned r -> r_status r = Some a ->
  overstress m (r_state r) (r_stress r) = a_residual a /\
  overstress m (r_state r) (r_stress r) = f (a_x a).
Proof.
  intros E Ea. destruct j2_returns as [r' [E' C]]. rewrite E in E'. injection E' as <-.
  destruct C as [[_ ->]|[L [a' [Sa [B [Q ->]]]]]]; [discriminate|]. cbn [r_status] in Ea. injection Ea as ->.
  cbn [r_state r_stress]. unfold overstress, back_stress. cbn [ep eqps].
  assert (F0 : 0 < f 0) by (assert (X := rtol_pos); lra).
  rewrite (mises_ext _ _ (corrected (a_x a) Q)). destruct (shrink_nonneg (a_x a) F0 B) as [_ ->].
  destruct (answer_facts _ _ _ _ _ _ _ Sa) as [_ [-> _]]. unfold yield_residual. lra.
Qed.

Theorem j2_on_surface r a : j2_small m st H = Returned r -> r_status r = Some a -> a_converged a = true ->
  Rabs (overstress m (r_state r) (r_stress r)) <= tolerance * h_sy (j_h m).
Proof.
  intros E Ea C. destruct (j2_overstress r a E Ea) as [_ ->].
  destruct j2_returns as [r' [E' D]]. rewrite E in E'. injection E' as <-.
  destruct D as [[_ ->]|[L [a' [Sa [B [Q ->]]]]]]; [discriminate|]. cbn [r_status] in Ea. injection Ea as ->.
  assert (T := rtol_pos).
  destruct (converged_means _ _ _ _ _ _ _ Sa C) as [Z|[Z|[old [_ [[_ [_ Z]]|[xl [xh [_ [_ [_ [_ [_ Z]]]]]]]]]]]].
  - rewrite Z, Rabs_R0. lra.
  - cbn [solver_options rtol] in Z. lra.
  - cbn [solver_options xtol] in Z. assert (X := Rabs_pos (f old / fd old)). lra.
  - cbn [solver_options xtol] in Z. assert (X := Rabs_pos (xh - xl)). lra.
Qed.

(** state invariants *)
Theorem j2_state r : j2_small m st H = Returned r ->
  sound_state (r_state r) /\ eqps st <= eqps (r_state r) /\
  equivalent_strain (msub (ep (r_state r)) (ep st)) = eqps (r_state r) - eqps st /\
  tr 3 (r_stress r) = 3 * t_p t /\ symmetric 3 (r_stress r).
Proof.
  intros E. destruct j2_returns as [r' [E' D]]. rewrite E in E'. injection E' as <-.
  assert (Tot : forall s p, tr 3 s = 0 -> tr 3 (total s p) = 3 * p).
  { intros s p Hs. unfold total. rewrite tr_add, tr_scal, tr_ident3, Hs. ring. }
  assert (Sy : forall s p, symmetric 3 s -> symmetric 3 (total s p)).
  { intros s p Hs. unfold symmetric, total in *. now rewrite transpose_add, Hs, transpose_scal, transpose_ident. }
  destruct D as [[_ ->]|[L [a [Sa [B [Q ->]]]]]]; cbn [r_state r_stress].
  - split; [exact S|]. split; [lra|]. split.
    + rewrite equivalent_of_mises, (mises_ext _ (mscal 0 (ep st))), mises_scal by (lra || (intros i j _ _; unfold msub, mscal; ring)). lra.
    + split; [apply Tot, s_traceless|apply Sy, s_symmetric].
  - cbn [ep eqps]. split; [|split; [lra|split; [|split]]].
    + destruct S as [Se Ss St]. split; cbn [ep eqps].
      * lra.
      * unfold symmetric in *. rewrite transpose_add, Ss, transpose_scal. assert (X := flow_symmetric). unfold symmetric in X. now rewrite X.
      * rewrite tr_add, tr_scal, flow_traceless, St. ring.
    + rewrite equivalent_of_mises, (mises_ext _ (mscal (a_x a) flow)), mises_scal, flow_mises
        by (lra || (intros i j _ _; unfold msub, madd; ring)). lra.
    + apply Tot. rewrite tr_sub, tr_scal, flow_traceless, s_traceless. ring.
    + apply Sy. unfold symmetric. assert (X := flow_symmetric). assert (X' := s_symmetric). unfold symmetric in X, X'.
      intros i j Hi Hj. unfold transpose, msub, mscal. assert (X1 := X i j Hi Hj). assert (X2 := X' i j Hi Hj).
      unfold transpose in X1, X2. now rewrite X1, X2.
Qed.

(** plastic work is not negative *)
Theorem j2_dissipation r : j2_small m st H = Returned r ->
  0 <= inner 3 3 (msub (dev 3 (r_stress r)) (back_stress m (r_state r))) (msub (ep (r_state r)) (ep st)).
Proof.
  intros E. destruct j2_returns as [r' [E' D]]. rewrite E in E'. injection E' as <-.
  destruct D as [[_ ->]|[L [a [Sa [B [Q ->]]]]]]; cbn [r_state r_stress].
  - rewrite (inner_proper 3 _ _ (meq_refl 3 _) (msub (ep st) (ep st)) (mscal 0 ident)) by (intros i j _ _; unfold msub, mscal; ring).
    rewrite inner_comm, inner_scal_l. lra.
  - unfold back_stress. cbn [ep].
    assert (F0 : 0 < f 0) by (assert (X := rtol_pos); lra).
    rewrite (inner_proper 3 _ _ (corrected (a_x a) Q) (msub (madd (ep st) (mscal (a_x a) flow)) (ep st)) (mscal (a_x a * (1.5 / t_q t)) (t_eta t))).
    2:{ intros i j _ _. unfold msub, madd, mscal, flow, mscal. ring. }
    rewrite inner_scal_l, inner_comm, inner_scal_l. destruct (shrink_nonneg (a_x a) F0 B) as [Sh _].
    assert (N := sqn_nonneg (t_eta t)). rewrite sqn_inner in N.
    assert (0 <= 1.5 / t_q t) by (apply Rlt_le, Rdiv_lt_0_compat; lra).
    apply Rmult_le_pos; [exact Sh|]. apply Rmult_le_pos; [|exact N]. apply Rmult_le_pos; lra.
Qed.

(** the trial state of a repeated call *)
Lemma repeat_predictor d : 0 < t_q t ->
  let st' := {| ep := madd (ep st) (mscal d flow); eqps := eqps st + d |} in
  meq 3 (t_s (predictor m st' H)) (msub (t_s t) (mscal (2 * G * d) flow)) /\
  t_p (predictor m st' H) = t_p t /\
  meq 3 (t_eta (predictor m st' H)) (mscal (shrink d) (t_eta t)).
Proof.
  intros Q st'.
  assert (Es : meq 3 (t_s (predictor m st' H)) (msub (t_s t) (mscal (2 * G * d) flow))).
  { unfold predictor at 1. cbn [t_s]. subst st'. cbn [ep].
    assert (X : meq 3 (msub (sym H) (madd (ep st) (mscal d flow))) (msub (msub (sym H) (ep st)) (mscal d flow))).
    { intros i j _ _. unfold msub, madd. ring. }
    rewrite X, dev_msub. rewrite (dev_of_traceless (mscal d flow)) by (rewrite tr_scal, flow_traceless; ring).
    intros i j _ _. unfold predictor. cbn [t_s]. unfold mscal, msub. ring. }
  split; [exact Es|]. split.
  - unfold predictor at 1. subst st'. cbn [t_p ep]. rewrite tr_sub, tr_add, tr_scal, flow_traceless.
    unfold predictor. cbn [t_p]. rewrite tr_sub. ring.
  - rewrite <- (corrected d Q). intros i j Hi Hj. unfold msub at 1. rewrite dev_total; [|rewrite tr_sub, tr_scal, flow_traceless, s_traceless; ring|exact Hi|exact Hj].
    assert (E1 := Es i j Hi Hj).
    change (t_eta (predictor m st' H) i j) with (t_s (predictor m st' H) i j - 2 / 3 * j_Hk m * ep st' i j). rewrite E1. reflexivity.
Qed.

Theorem j2_repeat r : j2_small m st H = Returned r ->
  (forall a, r_status r = Some a -> a_converged a = true) ->
  exists r', j2_small m (r_state r) H = Returned r' /\ r_status r' = None /\ r_state r' = r_state r /\ meq 3 (r_stress r') (r_stress r).
Proof.
  intros E C. destruct j2_returns as [r' [E' D]]. rewrite E in E'. injection E' as <-.
  destruct D as [[L ->]|[L [a [Sa [B [Q ->]]]]]].
  - cbn [r_state] in *. exists {| r_stress := total (t_s t) (t_p t); r_state := st; r_status := None |}. rewrite E. cbn. auto using meq_refl.
  - assert (F0 : 0 < f 0) by (assert (X := rtol_pos); lra).
    assert (On := j2_on_surface _ a E eq_refl (C a eq_refl)).
    assert (Ov := j2_overstress _ a E eq_refl). destruct Ov as [_ Ov]. rewrite Ov in On.
    cbn [r_state r_stress] in *.
    destruct (repeat_predictor (a_x a) Q) as [Es [Ep Ee]].
    set (st' := {| ep := madd (ep st) (mscal (a_x a) flow); eqps := eqps st + a_x a |}) in *.
    exists {| r_stress := total (t_s (predictor m st' H)) (t_p (predictor m st' H)); r_state := st'; r_status := None |}.
    split; [|cbn [r_status r_state r_stress]; split; [reflexivity|split; [reflexivity|]]].
    + unfold j2_small. destruct (finite_moduli_dec (j_nu m)) as [_|X]; [|elim X; apply (sm_nu m M)]. cbv zeta.
      destruct (Rlt_dec (tolerance * h_sy (j_h m)) (yield_residual m (eqps st') (t_q (predictor m st' H)) 0)) as [L'|]; [|reflexivity].
      exfalso. change (t_q (predictor m st' H)) with (mises (t_eta (predictor m st' H))) in L'.
      rewrite (mises_ext _ _ Ee) in L'. destruct (shrink_nonneg (a_x a) F0 B) as [_ X]. rewrite X in L'.
      assert (X' : yield_residual m (eqps st') (t_q t - A * a_x a) 0 = f (a_x a)).
      { unfold yield_residual. subst st'. cbn [eqps]. rewrite Rplus_0_r. ring. }
      rewrite X' in L'. assert (X2 := Rle_abs (f (a_x a))). lra.
    + unfold total. rewrite Es, Ep. reflexivity.
Qed.
End Facts.
