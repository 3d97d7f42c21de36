(** * C80: every quadrature point keeps its own material history in the buffers modules create *)
From Coq Require Import Reals List.
From Verif Require Import Prelude DofCodec Restriction Kernels FunctionalModel FunctionalGrad FunctionalEx ShapeElem QBuffer QBufferEx.
Import ListNotations.
Local Open Scope R_scope.

(** With one sufficiently large buffer for each integral, an evaluation never leaves a buffer, and the state stored for a
    point becomes what the material returned from that point's own state (or stays, without update) *)
Theorem C80_own_state : forall (St : Type) (initial : St) (f : functional St) given cols lsize tsize rq (B : buffers (St := St)),
  wf f lsize tsize -> fits tsize rq -> own f given -> roomy f given cols B ->
  exists L B', perform_buffers f given cols lsize rq B = Ok (L, B') /\
   (forall b g, length (B' b g) = length (B b g)) /\
   forall n Ig g G e q, nth_error (f_integrals f) n = Some Ig -> nth_error (i_geoms Ig) g = Some G ->
    (e < length (gk_elems G))%nat -> (q < gk_nq G)%nat ->
    exists st, nth_error (B (given n) g) (e * cols (given n) g + q) = Some st /\
      nth_error (B' (given n) g) (e * cols (given n) g + q) =
        Some (if rq_update rq then snd (gk_qf G e q (rq_t rq) (qf_inputs G g (Es_of f (rq_in rq) Ig) e q) st) else st).
Proof. exact @own_update. Qed.
Print Assumptions C80_own_state.

(** so that every history of evaluations computes the residuals and states of the model with separate states (C17) *)
Theorem C80_value : forall (St : Type) (f : functional St) given cols lsize tsize rq B m L m',
  wf f lsize tsize -> own f given -> roomy f given cols B -> holds f given cols B m ->
  perform f lsize rq m = Ok (L, m') ->
  exists B', perform_buffers f given cols lsize rq B = Ok (L, B') /\ (forall b g, length (B' b g) = length (B b g)) /\ holds f given cols B' m'.
Proof. exact @perform_buffers_ok. Qed.
Print Assumptions C80_value.

Theorem C80_history : forall (St : Type) (f : functional St) given cols lsize tsize, wf f lsize tsize -> own f given -> forall h B m m',
  roomy f given cols B -> holds f given cols B m -> run f lsize h m = Ok m' ->
  exists B', run_buffers f given cols lsize h B = Ok B' /\ roomy f given cols B' /\ holds f given cols B' m'.
Proof. exact @run_buffers_ok. Qed.
Print Assumptions C80_history.

Example C80_nonvacuous : own (counters [counting [0%nat] 3; counting [1%nat] 3]) (fun n => n) /\
  roomy (counters [counting [0%nat] 3; counting [1%nat] 3]) (fun n => n) (module_cols (fun _ => TRIANGLE) 1) (module_buffers (fun _ => TRIANGLE) (fun _ => 2%nat) 1 0%nat) /\
  holds (counters [counting [0%nat] 3; counting [1%nat] 3]) (fun n => n) (module_cols (fun _ => TRIANGLE) 1) (module_buffers (fun _ => TRIANGLE) (fun _ => 2%nat) 1 0%nat) (fresh 0%nat).
Proof. exact separate_case. Qed.

(** The buffer a module creates is large enough when no space in the functional has a higher order than the module, *)
Theorem C80_module_buffer_fits : forall (St : Type) shapes count order orders (f : functional St) given initial,
  on_mesh shapes count orders f -> (forall o, In o orders -> (o <= order)%nat) ->
  roomy f given (module_cols shapes order) (module_buffers shapes count order initial).
Proof. exact @module_roomy. Qed.
Print Assumptions C80_module_buffer_fits.

(** but with a parameter of higher order every evaluation of a material with state on the whole mesh runs past the end *)
Theorem C80_higher_order_parameter : forall (St : Type) shapes count order orders (f : functional St) given initial lsize tsize rq n Ig g G o,
  wf f lsize tsize -> fits tsize rq -> on_mesh shapes count orders f -> In o orders -> (order < o)%nat ->
  nth_error (f_integrals f) n = Some Ig -> nth_error (i_geoms Ig) g = Some G ->
  length (gk_elems G) = count (shapes g) -> (0 < count (shapes g))%nat ->
  perform_buffers f given (module_cols shapes order) lsize rq (module_buffers shapes count order initial) = UB.
Proof. exact @module_overrun. Qed.
Print Assumptions C80_higher_order_parameter.

(** and on a part of the mesh points of neighbouring elements share a state: this one is updated twice by one evaluation *)
Theorem C80_rows_overlap_refuted : exists (f : functional nat) (B B' : buffers (St := nat)) L,
  wf f 3 (fun _ => 3%nat) /\ fits (fun _ => 3%nat) count_once /\ own f (fun n => n) /\
  on_mesh (fun _ => TRIANGLE) (fun _ => 3%nat) [1%nat; 2%nat] f /\
  (exists G, f_integrals f = [{| i_type := Elements; i_active := [0%nat]; i_geoms := [G] |}] /\ gk_elems G = [0%nat; 1%nat] /\ gk_nq G = 6%nat /\
     forall e q t v st, snd (gk_qf G e q t v st) = S st) /\
  B = module_buffers (fun _ => TRIANGLE) (fun _ => 3%nat) 1 0%nat /\
  perform_buffers f (fun n => n) (module_cols (fun _ => TRIANGLE) 1) 3 count_once B = Ok (L, B') /\
  nth_error (B 0%nat 0%nat) (0 * module_cols (fun _ => TRIANGLE) 1 0 0 + 3) = Some 0%nat /\
  nth_error (B' 0%nat 0%nat) (0 * module_cols (fun _ => TRIANGLE) 1 0 0 + 3) = Some 2%nat.
Proof. exact rows_overlap. Qed.
Print Assumptions C80_rows_overlap_refuted.

(** One buffer given to the materials of two disjoint domains: both use its first row *)
Theorem C80_shared_buffer_refuted : exists (f : functional nat) (B B' : buffers (St := nat)) L,
  wf f 3 (fun _ => 3%nat) /\ fits (fun _ => 3%nat) count_once /\
  on_mesh (fun _ => TRIANGLE) (fun _ => 2%nat) [1%nat] f /\
  (exists G0 G1, f_integrals f = [{| i_type := Elements; i_active := [0%nat]; i_geoms := [G0] |}; {| i_type := Elements; i_active := [0%nat]; i_geoms := [G1] |}] /\
     gk_elems G0 = [0%nat] /\ gk_elems G1 = [1%nat]) /\
  B = module_buffers (fun _ => TRIANGLE) (fun _ => 2%nat) 1 0%nat /\
  roomy f (fun _ => 0%nat) (module_cols (fun _ => TRIANGLE) 1) B /\
  perform_buffers f (fun _ => 0%nat) (module_cols (fun _ => TRIANGLE) 1) 3 count_once B = Ok (L, B') /\
  nth_error (B 0%nat 0%nat) 0 = Some 0%nat /\ nth_error (B' 0%nat 0%nat) 0 = Some 2%nat.
Proof. exact shared_buffer. Qed.
Print Assumptions C80_shared_buffer_refuted.
