(** * C60 (liquid crystal elastomers) and C61 (matrix square root and polar decomposition) *)
From Coq Require Import Reals List.
From Coquelicot Require Import Coquelicot.
From Verif Require Import Sums Tensor MatAlg Materials MaterialFacts SymEig SymEigFacts SymEigMain IsoEig MatSqrt LiquidCrystal LiquidCrystalEx.
Import ListNotations.
Local Open Scope R_scope.

(** ** Bertoldi's model *)
Theorem C60_bertoldi_accepted : forall rho E nu S0 beta m, make_bertoldi rho E nu S0 beta = Some m <->
  0 < rho /\ 0 < E /\ 0 < nu /\ 0 < S0 /\ 0 < beta /\ m = {| be_density := rho; be_E := E; be_nu := nu; be_S0 := S0; be_beta := beta |}.
Proof. exact bertoldi_accepted. Qed.
Print Assumptions C60_bertoldi_accepted.

(** the stress is work conjugate to the model's own strain energy *)
Theorem C60_bertoldi_energy : forall m H t0 D St gamma eta s, mderive 3 H t0 D -> bertoldi_stress m (H t0) St gamma eta = Some s ->
  exists P psi, cauchy_to_piola 3 s (H t0) = Some P /\ (forall t, bertoldi_energy m (H t) St gamma eta = Some (psi t)) /\
    is_derive psi t0 (inner 3 3 P D).
Proof. exact bertoldi_conjugate. Qed.
Print Assumptions C60_bertoldi_energy.

Theorem C60_bertoldi_symmetric : forall m H St gamma eta s, bertoldi_stress m H St gamma eta = Some s -> symmetric 3 s.
Proof. exact bertoldi_symmetric. Qed.
Print Assumptions C60_bertoldi_symmetric.

Theorem C60_bertoldi_objective : forall m Q H St gamma eta s, rotation 3 Q -> bertoldi_stress m H St gamma eta = Some s ->
  exists s', bertoldi_stress m (rotated 3 Q H) St gamma eta = Some s' /\ meq 3 s' (mmul 3 (mmul 3 Q s) (transpose Q)).
Proof. exact bertoldi_objective. Qed.
Print Assumptions C60_bertoldi_objective.

Theorem C60_bertoldi_rest : forall m gamma eta, finite_moduli (be_nu m) ->
  exists s, bertoldi_stress m zero (be_S0 m) gamma eta = Some s /\ meq 3 s zero.
Proof. exact bertoldi_rest. Qed.
Print Assumptions C60_bertoldi_rest.

(** Hooke's law with Young's modulus and Poisson's ratio between Green's strain and the second Piola-Kirchhoff stress, after taking off the
    traceless prestress along the director that the change of order causes *)
Theorem C60_bertoldi_hooke : forall m H St gamma eta s, bertoldi_stress m H St gamma eta = Some s ->
  exists P S A, cauchy_to_piola 3 s H = Some P /\ meq 3 P (mmul 3 (defgrad H) S) /\
    (let n := fun i : nat => match i with 0%nat => cos gamma * cos eta | 1%nat => sin gamma * cos eta | _ => sin eta end in
     forall i j, (i < 3)%nat -> (j < 3)%nat -> A i j = S i j + be_beta m * (St - be_S0 m) / 2 * (3 * n i * n j - ident i j)) /\
    forall i j, (i < 3)%nat -> (j < 3)%nat -> be_E m * green_strain 3 H i j = (1 + be_nu m) * A i j - be_nu m * tr 3 A * ident i j.
Proof. exact bertoldi_hooke. Qed.
Print Assumptions C60_bertoldi_hooke.

Example C60_bertoldi_case : make_bertoldi 1 2 0.25 0.4 3 = Some bertoldi_sample /\ finite_moduli (be_nu bertoldi_sample) /\
  exists s, bertoldi_stress bertoldi_sample (grad_of pull) 0.2 0.3 0.1 = Some s.
Proof. exact bertoldi_case. Qed.

(** a material the constructor accepts whose stress is not a number at any deformation *)
Theorem C60_bertoldi_incompressible_refuted : exists m, make_bertoldi 1 1 0.5 1 1 = Some m /\
  forall H St gamma eta, bertoldi_stress m H St gamma eta = None.
Proof. exact bertoldi_infinite. Qed.
Print Assumptions C60_bertoldi_incompressible_refuted.

(** ** Brighenti's model *)
Theorem C60_brighenti_accepted : forall rho G K c q0 T N m, make_brighenti rho G K c q0 T N = Some m <->
  0 < rho /\ 0 < G /\ 0 < K /\ 0 < c /\ 0 < T /\
  m = {| bi_density := rho; bi_G := G; bi_K := K; bi_c := c; bi_q0 := q0; bi_T := T; bi_N := N |}.
Proof. exact brighenti_accepted. Qed.
Print Assumptions C60_brighenti_accepted.

(** every stress of every history is symmetric *)
Theorem C60_brighenti_symmetric : forall m calls st ss st', symmetric 3 (last_mu st) -> history m st calls = Some (ss, st') ->
  List.Forall (symmetric 3) ss.
Proof. exact brighenti_symmetric. Qed.
Print Assumptions C60_brighenti_symmetric.

(** evaluating the same step again changes neither the stress nor the internal variables *)
Theorem C60_brighenti_repeat : forall m st H T gamma s st1, brighenti_response m st H T gamma = Some (s, st1) ->
  exists s2 st2, brighenti_response m st1 H T gamma = Some (s2, st2) /\ meq 3 s2 s /\
    meq 3 (last_F st2) (last_F st1) /\ meq 3 (last_mu st2) (last_mu st1) /\ last_T st2 = last_T st1.
Proof. exact brighenti_repeat. Qed.
Print Assumptions C60_brighenti_repeat.

(** warming a held body keeps the mean stress, lowers the stress along the director and raises it across the director *)
Theorem C60_brighenti_heating : forall m st H T1 T2 gamma s1 st1, 0 < bi_G m -> 0 < bi_q0 m -> 0 < bi_c m -> T1 < T2 ->
  brighenti_response m st H T1 gamma = Some (s1, st1) ->
  exists s2 st2, brighenti_response m st1 H T2 gamma = Some (s2, st2) /\ tr 3 s2 = tr 3 s1 /\
    along (director gamma) s2 < along (director gamma) s1 /\
    forall v, vdot v v = 1 -> vdot v (director gamma) = 0 -> along v s1 < along v s2.
Proof. exact brighenti_heating. Qed.
Print Assumptions C60_brighenti_heating.

(** while the body is held, only the last temperature matters *)
Theorem C60_brighenti_temperature_path : forall m st H T0 gamma s0 st0 Ts T, brighenti_response m st H T0 gamma = Some (s0, st0) ->
  exists s s' ss st1 st2, brighenti_response m st0 H T gamma = Some (s, st1) /\
    history m st0 (map (fun T => (H, T, gamma)) (Ts ++ [T])) = Some (ss, st2) /\ last ss zero = s' /\ meq 3 s' s /\
    meq 3 (last_mu st2) (last_mu st1).
Proof. exact brighenti_temperature_path. Qed.
Print Assumptions C60_brighenti_temperature_path.

Theorem C60_brighenti_reference : forall m T gamma, bi_N m <> 0 ->
  exists s st, brighenti_response m fresh zero T gamma = Some (s, st) /\ meq 3 s zero.
Proof. exact brighenti_reference. Qed.
Print Assumptions C60_brighenti_reference.

(** a rigid rotation of the undeformed body produces no stress: only proved for rotations about the director *)
Theorem C60_brighenti_rotation_partial : forall m Q T gamma, rotation 3 Q -> bi_N m <> 0 ->
  (forall i, (i < 3)%nat -> mvec 3 Q (director gamma) i = director gamma i) ->
  exists s0 s st, history m fresh [(zero, T, gamma); (grad_of Q, T, gamma)] = Some ([s0; s], st) /\ meq 3 s zero.
Proof. exact brighenti_axis. Qed.
Print Assumptions C60_brighenti_rotation_partial.

Example C60_brighenti_case : exists m, make_brighenti 1 1 1 1 0.5 1 3 = Some m /\
  (exists s1 s2 st, history m fresh [(zero, 1, 0); (grad_of pull, 2, 0)] = Some ([s1; s2], st)) /\
  rotation 3 quarter /\ 0 < bi_G m /\ 0 < bi_q0 m /\ 0 < bi_c m /\ bi_N m <> 0.
Proof. exact cases. Qed.

(** a quarter turn of the stress-free body produces stress *)
Theorem C60_brighenti_rotation_refuted : exists m s0 s st, make_brighenti 1 1 1 1 0.5 1 3 = Some m /\
  history m fresh [(zero, 1, 0); (grad_of quarter, 1, 0)] = Some ([s0; s], st) /\ meq 3 s0 zero /\ s 0%nat 0%nat = -0.75.
Proof. exact brighenti_turned. Qed.
Print Assumptions C60_brighenti_rotation_refuted.

(** a stretch applied on the first call produces less stress than the same stretch applied after an undeformed call *)
Theorem C60_brighenti_first_call_refuted : exists m s1 st1 s0 s2 st2, make_brighenti 1 1 1 1 0.5 1 3 = Some m /\
  history m fresh [(grad_of pull, 1, 0)] = Some ([s1], st1) /\ s1 0%nat 0%nat = s1 1%nat 1%nat /\
  history m fresh [(zero, 1, 0); (grad_of pull, 1, 0)] = Some ([s0; s2], st2) /\
  s2 1%nat 1%nat = s1 1%nat 1%nat /\ s1 0%nat 0%nat + 3 <= s2 0%nat 0%nat.
Proof. exact brighenti_absorbed. Qed.
Print Assumptions C60_brighenti_first_call_refuted.

(** the number of Kuhn segments does not cancel *)
Theorem C60_brighenti_segments_refuted : exists m1 m2 s1 s2 r1 r2 st1 st2,
  make_brighenti 1 1 1 1 0.5 1 3 = Some m1 /\ make_brighenti 1 1 1 1 0.5 1 6 = Some m2 /\
  history m1 fresh [(zero, 1, 0); (grad_of quarter, 1, 0)] = Some ([r1; s1], st1) /\
  history m2 fresh [(zero, 1, 0); (grad_of quarter, 1, 0)] = Some ([r2; s2], st2) /\ s1 0%nat 0%nat <> s2 0%nat 0%nat.
Proof. exact brighenti_segments. Qed.
Print Assumptions C60_brighenti_segments_refuted.

(** ** matrix square root and polar decomposition *)
Theorem C61_sqrt_shape : forall A, symmetric3 A -> positive_definite A ->
  exists B, matrix_sqrt A = Some B /\ symmetric3 B /\ positive_definite B /\ meq 3 (mmul 3 A B) (mmul 3 B A).
Proof. exact sqrt_shape. Qed.
Print Assumptions C61_sqrt_shape.

(** B B = A up to a relative 1e-18, for eigenvalues between 1e-6 and 1e6 *)
Theorem C61_sqrt_partial : forall A, symmetric3 A -> within (/ 10 ^ 6) (10 ^ 6) A -> exists B, matrix_sqrt A = Some B /\
  forall u, 0 <= dot3 u (mv3 (msub (mmul 3 B B) A) u) <= / 10 ^ 18 * dot3 u (mv3 A u).
Proof. exact sqrt_accurate. Qed.
Print Assumptions C61_sqrt_partial.

(** F = R U with U symmetric and positive and R orthogonal up to 1e-18, for stretches between 1e-3 and 1e3 *)
Theorem C61_polar_partial : forall F, moderate F -> exists U Rt, polar F = Some (U, Rt) /\ meq 3 (mmul 3 Rt U) F /\ symmetric3 U /\ positive_definite U /\
  forall u, 0 <= dot3 u u - dot3 (mv3 Rt u) (mv3 Rt u) <= / 10 ^ 18 * dot3 u u.
Proof. exact polar_accurate. Qed.
Print Assumptions C61_polar_partial.

Example C61_case : moderate pull /\ symmetric3 (mmul 3 (transpose pull) pull) /\ within (/ 10 ^ 6) (10 ^ 6) (mmul 3 (transpose pull) pull).
Proof. exact pull_moderate. Qed.

(** fifteen steps are too few for large matrices: here B B is at least nine times A *)
Theorem C61_sqrt_refuted : exists A B, symmetric3 A /\ positive_definite A /\ matrix_sqrt A = Some B /\
  forall u, 9 * dot3 u (mv3 A u) <= dot3 u (mv3 (mmul 3 B B) u).
Proof. exact sqrt_inaccurate. Qed.
Print Assumptions C61_sqrt_refuted.
