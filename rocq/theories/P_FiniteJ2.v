(** * C59: finite-deformation J2 plasticity *)
From Coq Require Import Reals List.
From Verif Require Import Sums Tensor MatAlg Materials ScalarSolve Plasticity PlasticityEx SymEig IsoEig FiniteJ2 FiniteJ2Facts FiniteJ2Main FiniteJ2Exact FiniteJ2Ex.
Local Open Scope R_scope.

(** every call with an invertible deformation returns *)
Theorem C59_returns : forall m st H, sound_finite m -> 0 <= feqps st -> det3 (deformation H) <> 0 -> det3 (Fpinv st) <> 0 ->
  exists r, j2_finite m st H = FReturned r.
Proof. exact finite_returns. Qed.
Print Assumptions C59_returns.

(** whatever the history: no call fails, plastic flow preserves volume, accumulated plastic strain never decreases *)
Theorem C59_history : forall m, sound_finite m -> forall Hs st, 0 <= feqps st -> det3 (Fpinv st) = 1 ->
  Forall (fun H => det3 (deformation H) <> 0) Hs ->
  exists st', history m st Hs = Some st' /\ det3 (Fpinv st') = 1 /\ feqps st <= feqps st'.
Proof. exact finite_history. Qed.
Print Assumptions C59_history.

(** a rotation of the body after the deformation rotates the stress and does not touch the state *)
Theorem C59_frame : forall m st H Q r, sound_finite m -> 0 <= feqps st -> det3 (deformation H) <> 0 -> det3 (Fpinv st) <> 0 -> rotation 3 Q ->
  j2_finite m st H = FReturned r ->
  exists r', j2_finite m st (rotated 3 Q H) = FReturned r' /\ f_state r' = f_state r /\ f_status r' = f_status r /\
    meq 3 (f_stress r') (mmul 3 Q (mmul 3 (f_stress r) (transpose Q))).
Proof. exact finite_frame. Qed.
Print Assumptions C59_frame.

Theorem C59_rigid : forall m Q, sound_finite m -> rotation 3 Q ->
  exists r, j2_finite m unstrained (msub Q ident) = FReturned r /\ f_state r = unstrained /\ f_status r = None /\
    meq 3 (f_stress r) (fun _ _ => 0).
Proof. exact finite_rigid. Qed.
Print Assumptions C59_rigid.

(** the following theorems need the eigendecompositions of the call to have no error (missing: see C58) *)
(** the stress is the elastic stress, linear in the logarithmic strain, of the elastic deformation left in the state *)
Theorem C59_elastic_partial : forall m st H r, sound_finite m -> 0 <= feqps st -> det3 (deformation H) <> 0 -> det3 (Fpinv st) <> 0 ->
  j2_finite m st H = FReturned r -> exact_step m st H r ->
  exists L, log_symm (stretch (f_state r) H) = Some L /\
    carried (elastic (f_state r) H) (hencky m (mscal 0.5 L)) (kirchhoff H (f_stress r)).
Proof. exact step_elastic. Qed.
Print Assumptions C59_elastic_partial.

Theorem C59_symmetric_partial : forall m st H r, sound_finite m -> 0 <= feqps st -> det3 (deformation H) <> 0 -> det3 (Fpinv st) <> 0 ->
  j2_finite m st H = FReturned r -> exact_step m st H r -> symmetric 3 (f_stress r).
Proof. exact step_symmetric. Qed.
Print Assumptions C59_symmetric_partial.

(** plastic flow takes elastic logarithmic strain away: without volume, as much as the accumulated strain grows, with positive work *)
Theorem C59_flow_partial : forall m st H r, sound_finite m -> 0 <= feqps st -> det3 (deformation H) <> 0 -> det3 (Fpinv st) <> 0 ->
  j2_finite m st H = FReturned r -> exact_step m st H r ->
  exists L L', log_symm (stretch st H) = Some L /\ log_symm (stretch (f_state r) H) = Some L' /\
    equivalent_strain (msub (mscal 0.5 L) (mscal 0.5 L')) = feqps (f_state r) - feqps st /\
    tr 3 (msub (mscal 0.5 L) (mscal 0.5 L')) = 0 /\
    0 <= inner 3 3 (f_mandel r) (msub (mscal 0.5 L) (mscal 0.5 L')).
Proof. exact step_flow. Qed.
Print Assumptions C59_flow_partial.

(** the Kirchhoff stress is not outside the yield surface of the new state, and on it if there was flow *)
Theorem C59_yield_partial : forall m st H r, sound_finite m -> 0 <= feqps st -> det3 (deformation H) <> 0 -> det3 (Fpinv st) <> 0 ->
  j2_finite m st H = FReturned r -> exact_step m st H r -> (forall a, f_status r = Some a -> a_converged a = true) ->
  mises (dev 3 (kirchhoff H (f_stress r))) - h_Y (f_h m) (feqps (f_state r)) <= tolerance * h_sy (f_h m) /\
  (f_status r <> None -> Rabs (mises (dev 3 (kirchhoff H (f_stress r))) - h_Y (f_h m) (feqps (f_state r))) <= tolerance * h_sy (f_h m)).
Proof. exact step_yield. Qed.
Print Assumptions C59_yield_partial.

(** a second call with the same deformation and the new state neither flows nor changes the stress *)
Theorem C59_repeat_partial : forall m st H r, sound_finite m -> 0 <= feqps st -> det3 (deformation H) <> 0 -> det3 (Fpinv st) <> 0 ->
  j2_finite m st H = FReturned r -> exact_step m st H r -> (forall a, f_status r = Some a -> a_converged a = true) ->
  exists r', j2_finite m (f_state r) H = FReturned r' /\ f_status r' = None /\ f_state r' = f_state r /\ meq 3 (f_stress r') (f_stress r).
Proof. exact step_repeat. Qed.
Print Assumptions C59_repeat_partial.

(** with linear hardening the scalar solve of a call always converges *)
Theorem C59_linear_converges : forall m sy Hi st H r a, sound_finite m -> f_h m = linear_hardening sy Hi -> 0 < sy -> 0 <= Hi -> 0 <= feqps st ->
  det3 (deformation H) <> 0 -> det3 (Fpinv st) <> 0 -> j2_finite m st H = FReturned r -> f_status r = Some a -> a_converged a = true.
Proof. exact finite_linear_converges. Qed.
Print Assumptions C59_linear_converges.

Example C59_tension : sound_finite steel /\ 0 <= feqps unstrained /\ det3 (Fpinv unstrained) <> 0 /\ det3 (deformation pull) <> 0 /\
  exists r a, j2_finite steel unstrained pull = FReturned r /\ f_status r = Some a /\ a_converged a = true /\ exact_step steel unstrained pull r.
Proof. exact (conj steel_sound (conj (proj1 unstrained_ok) (conj (proj2 unstrained_ok) (conj pull_det steel_yields)))). Qed.
