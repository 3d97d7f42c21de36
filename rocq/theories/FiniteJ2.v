(** * Finite-deformation J2 plasticity (C59)

    physics/materials/solid_material.hpp:262-328, over the reals (tensor entries are plain values, not duals). *)
From Coq Require Import Reals List.
From Verif Require Import Sums Tensor LU MatAlg Materials ScalarSolve Plasticity PlasticityEx SymEig.
Import ListNotations.
Local Open Scope R_scope.

(** lines 268-270; the density plays no role in the stress *)
Record fj2 := FJ2 { f_E : R; f_nu : R; f_h : hardening }.
(** lines 274-277 *)
Record fstate := FState { Fpinv : mat; feqps : R }.
(** [f_mandel] is the local variable M of line 322 and [f_status] the status the code ignores, [None] if there was no flow *)
Record fresult := FResult { f_stress : mat; f_state : fstate; f_mandel : mat; f_status : option answer }.
Inductive fresponse := FStopped | FNaN | FReturned (r : fresult).

(** line 289 *)
Definition deformation (H : mat) : mat := madd H ident.
(** lines 297-300 and its gradient *)
Definition flow_residual (m : fj2) (old q d : R) : R := q - 3 * shear (f_E m) (f_nu m) * d - h_Y (f_h m) (old + d).
Definition flow_slope (m : fj2) (old d : R) : R := - (3 * shear (f_E m) (f_nu m)) - h_dY (f_h m) (old + d).
(** lines 320-325: the Cauchy stress; the inverse and the quotient are not numbers for singular Fe or F *)
Definition cauchy (F Fe M : mat) : option mat :=
  match inv3 (transpose Fe) with
  | None => None
  | Some B => if Req_EM_T (det3 F) 0 then None else Some (mscal (/ det3 F) (mmul 3 (mmul 3 B M) (transpose Fe)))
  end.
Definition conclude (F Fe M : mat) (st : fstate) (status : option answer) : fresponse :=
  match cauchy F Fe M with None => FNaN | Some s => FReturned (FResult s st M status) end.

(** lines 281-326; as for small strains the moduli must be finite *)
Definition j2_finite (m : fj2) (st : fstate) (H : mat) : fresponse :=
  if finite_moduli_dec (f_nu m) then
  let K := bulk (f_E m) (f_nu m) in
  let G := shear (f_E m) (f_nu m) in
  let F := deformation H in
  let Fe := mmul 3 F (Fpinv st) in
  match log_symm (mmul 3 (transpose Fe) Fe) with
  | None => FNaN
  | Some L =>
    let Ee := mscal 0.5 L in
    let p := K * tr 3 Ee in
    let s := mscal (2 * G) (dev 3 Ee) in
    let q := sqrt 1.5 * sqrt (squared_norm 3 3 s) in
    if Rlt_dec (tolerance * h_sy (f_h m)) (flow_residual m (feqps st) q 0) then
      if Req_EM_T (3 * G) 0 then FNaN else
      match solve_scalar_equation (flow_residual m (feqps st) q) (flow_slope m (feqps st))
              {| xtol := 0; rtol := tolerance * h_sy (f_h m); max_iter := 25 |} 0 0 ((q - h_Y (f_h m) (feqps st)) / (3 * G)) with
      | Refused => FStopped
      | NotANumber => FNaN
      | Answer a =>
        if Req_EM_T q 0 then FNaN else
        let Np := mscal (1.5 / q) s in
        let s' := msub s (mscal (2 * G * a_x a) Np) in
        match exp_symm (mscal (- a_x a) Np) with
        | None => FNaN
        | Some A => conclude F (mmul 3 Fe A) (total s' p) (FState (mmul 3 (Fpinv st) A) (feqps st + a_x a)) (Some a)
        end
      end
    else conclude F Fe (total s p) st None
  end
  else FNaN.

(** the material called with one displacement gradient after another, each time with the state left by the call before *)
Fixpoint history (m : fj2) (st : fstate) (Hs : list mat) : option fstate :=
  match Hs with
  | [] => Some st
  | H :: Hs => match j2_finite m st H with FReturned r => history m (f_state r) Hs | _ => None end
  end.

(** ** specification *)
Definition sound_finite (m : fj2) : Prop := 0 < f_E m /\ -1 < f_nu m < 1 / 2 /\ sound_hardening (f_h m).
(** elastic part of the deformation, its right Cauchy-Green tensor and the stress conjugate to its logarithm *)
Definition elastic (st : fstate) (H : mat) : mat := mmul 3 (deformation H) (Fpinv st).
Definition stretch (st : fstate) (H : mat) : mat := mmul 3 (transpose (elastic st H)) (elastic st H).
Definition hencky (m : fj2) (Ee : mat) : mat := total (mscal (2 * shear (f_E m) (f_nu m)) (dev 3 Ee)) (bulk (f_E m) (f_nu m) * tr 3 Ee).
(** Kirchhoff stress of a call *)
Definition kirchhoff (H sigma : mat) : mat := mscal (det3 (deformation H)) sigma.
(** direction of plastic flow for the logarithm L of the elastic stretch *)
Definition flow_direction (m : fj2) (L : mat) : mat :=
  let s := mscal (2 * shear (f_E m) (f_nu m)) (dev 3 (mscal 0.5 L)) in mscal (1.5 / mises s) s.
