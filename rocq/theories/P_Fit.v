(** * Property C64. Specification: squared_error and squared_distance in Fit.v *)
From Coq Require Import Reals List.
From Verif Require Import Prelude Sums Kernels FunctionalModel Tensor MatAlg WeakForm WeakFormPhysics Fit WeakFormEx FitEx.
Import ListNotations.
Local Open Scope R_scope.

(** fm is the mass functional at the fitted field c, with value Mc; fb the user's function as a source, with value b:
    the squared error of any other field exceeds that of c by their distance, up to what the solver left of b - M c *)
Theorem C64_error : forall St St' n (fm : functional St) (fb : functional St') lsize c mm mm' mb mb' Ls Mc b wrt jac src,
  dim23 n -> wf fm lsize (fun _ => length c) -> all_fit fm -> wf fb lsize (fun w => length (Ls w)) -> all_fit fb ->
  evaluate fm 0 wrt false (fun _ => c) lsize mm = Ok (Mc, mm') -> evaluate fb 0 None false Ls lsize mb = Ok (b, mb') ->
  same_spaces fm -> mass_functional n fm 0 (fun _ => c) mm jac -> source_functional n fb 0 Ls mb jac src -> skeleton fm = skeleton fb ->
  forall v, squared_error n fm jac src v = squared_error n fm jac src c + squared_distance n fm jac c v +
    2 * sumn lsize (fun k => (nth k b 0 - nth k Mc 0) * (nth k c 0 - nth k v 0)).
Proof. exact @fit_error. Qed.
Print Assumptions C64_error.
(** when the system is solved, no field approximates the function better at the quadrature points *)
Theorem C64_best : forall St St' n (fm : functional St) (fb : functional St') lsize c mm mm' mb mb' Ls Mc b wrt jac src,
  dim23 n -> wf fm lsize (fun _ => length c) -> all_fit fm -> wf fb lsize (fun w => length (Ls w)) -> all_fit fb ->
  evaluate fm 0 wrt false (fun _ => c) lsize mm = Ok (Mc, mm') -> evaluate fb 0 None false Ls lsize mb = Ok (b, mb') ->
  same_spaces fm -> mass_functional n fm 0 (fun _ => c) mm jac -> source_functional n fb 0 Ls mb jac src -> skeleton fm = skeleton fb ->
  (forall k, (k < lsize)%nat -> nth k Mc 0 = nth k b 0) ->
  (forall k Ig g G le q, nth_error (f_integrals fm) k = Some Ig -> nth_error (i_geoms Ig) g = Some G -> (le < length (gk_elems G))%nat -> (q < gk_nq G)%nat ->
     0 <= gk_w G q * detn n (jac k g le q)) ->
  forall v, squared_error n fm jac src c <= squared_error n fm jac src v.
Proof. exact @fit_best. Qed.
Print Assumptions C64_best.
(** a function which is itself a field of the space solves the system *)
Theorem C64_consistent : forall St St' n (fm : functional St) (fb : functional St') lsize c mm mm' mb mb' Ls Mc b wrt jac src,
  dim23 n -> wf fm lsize (fun _ => length c) -> all_fit fm -> wf fb lsize (fun w => length (Ls w)) -> all_fit fb ->
  evaluate fm 0 wrt false (fun _ => c) lsize mm = Ok (Mc, mm') -> evaluate fb 0 None false Ls lsize mb = Ok (b, mb') ->
  same_spaces fm -> mass_functional n fm 0 (fun _ => c) mm jac -> source_functional n fb 0 Ls mb jac src -> skeleton fm = skeleton fb ->
  (forall k Ig g G r le q, nth_error (f_integrals fm) k = Some Ig -> nth_error (i_geoms Ig) g = Some G -> nth_error (f_test fm (i_type Ig)) g = Some r ->
    (le < length (gk_elems G))%nat -> (q < gk_nq G)%nat -> forall i, (i < es_c (gk_test G))%nat -> src k g le q i = test_field G r c le q i 0%nat) ->
  forall k, (k < lsize)%nat -> nth k Mc 0 = nth k b 0.
Proof. exact @fit_consistent. Qed.
Print Assumptions C64_consistent.
(** and whenever some field agrees with the function at the quadrature points, so does the fitted one *)
Theorem C64_exact : forall St St' n (fm : functional St) (fb : functional St') lsize c mm mm' mb mb' Ls Mc b wrt jac src,
  dim23 n -> wf fm lsize (fun _ => length c) -> all_fit fm -> wf fb lsize (fun w => length (Ls w)) -> all_fit fb ->
  evaluate fm 0 wrt false (fun _ => c) lsize mm = Ok (Mc, mm') -> evaluate fb 0 None false Ls lsize mb = Ok (b, mb') ->
  same_spaces fm -> mass_functional n fm 0 (fun _ => c) mm jac -> source_functional n fb 0 Ls mb jac src -> skeleton fm = skeleton fb ->
  forall w, (forall k, (k < lsize)%nat -> nth k Mc 0 = nth k b 0) ->
  (forall k Ig g G le q, nth_error (f_integrals fm) k = Some Ig -> nth_error (i_geoms Ig) g = Some G -> (le < length (gk_elems G))%nat -> (q < gk_nq G)%nat ->
     0 < gk_w G q * detn n (jac k g le q)) ->
  squared_error n fm jac src w = 0 ->
  forall k Ig g G r le q, nth_error (f_integrals fm) k = Some Ig -> nth_error (i_geoms Ig) g = Some G -> nth_error (f_test fm (i_type Ig)) g = Some r ->
    (le < length (gk_elems G))%nat -> (q < gk_nq G)%nat -> forall i, (i < es_c (gk_test G))%nat -> test_field G r c le q i 0%nat = src k g le q i.
Proof. exact @fit_exact. Qed.
Print Assumptions C64_exact.
(** non-vacuity: the function 2 fitted on a triangle by the nodal values 1, 2, 3 *)
Example C64_triangle : wf fit_mass 3 (fun _ => length fit_c) /\ all_fit fit_mass /\ wf fit_load 3 (fun w => length (cond_Ls w)) /\ all_fit fit_load /\ same_spaces fit_mass /\
  mass_functional 2 fit_mass 0 (fun _ => fit_c) ex_mem fit_jac /\ source_functional 2 fit_load 0 cond_Ls ex_mem fit_jac fit_src /\ skeleton fit_mass = skeleton fit_load /\
  (forall k Ig g G le q, nth_error (f_integrals fit_mass) k = Some Ig -> nth_error (i_geoms Ig) g = Some G -> (le < length (gk_elems G))%nat -> (q < gk_nq G)%nat -> 0 < gk_w G q * detn 2 (fit_jac k g le q)) /\
  exists Mc mm b mb, evaluate fit_mass 0 (Some 0%nat) false (fun _ => fit_c) 3 ex_mem = Ok (Mc, mm) /\ evaluate fit_load 0 None false cond_Ls 3 ex_mem = Ok (b, mb) /\
    forall k, (k < 3)%nat -> nth k Mc 0 = nth k b 0.
Proof. exact fit_all. Qed.
