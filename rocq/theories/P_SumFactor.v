(** * Property C34. Specification: spec_value, spec_grad, spec_residual, weighted_pairing in SumFactor.v;
    shape functions and their gradients are those of C33, the rules those of C32 *)
From Coq Require Import Reals List.
From Verif Require Import Sums Quadrature ShapeDefs ShapeFacts ShapeTensor SumFactor.
Import ListNotations.
Local Open Scope R_scope.

Theorem C34_quad_interpolate : forall s p t X Q, (p <= 3)%nat -> (Q < length t * length t)%nat ->
  let pt := snd (nth Q (square_rule (lift1 t)) (0, [])) in let ndof := ((p + 1) * (p + 1))%nat in
  quad_interpolate s p t X Q = (spec_value (quad_fn s p) ndof (flat2 (p + 1) X) pt, map (fun a => spec_grad (quad_gr s p) ndof (flat2 (p + 1) X) a pt) (seq 0 2)).
Proof. exact quad_interp. Qed.
Print Assumptions C34_quad_interpolate.
Theorem C34_hex_interpolate : forall s p t X Q, (p <= 3)%nat -> (Q < length t * length t * length t)%nat ->
  let pt := snd (nth Q (cube_rule (lift1 t)) (0, [])) in let ndof := ((p + 1) * (p + 1) * (p + 1))%nat in
  hex_interpolate s p t X Q = (spec_value (hex_fn s p) ndof (flat3 (p + 1) X) pt, map (fun a => spec_grad (hex_gr s p) ndof (flat3 (p + 1) X) a pt) (seq 0 3)).
Proof. exact hex_interp. Qed.
Print Assumptions C34_hex_interpolate.
Theorem C34_segment_interpolate : forall s p t X Q, (p <= 3)%nat -> (Q < length t)%nat -> let pt := snd (nth Q (lift1 t) (0, [])) in
  seg_interpolate s p t X Q = (spec_value (seg_fn s p) (p + 1) X pt, map (fun a => spec_grad (seg_gr s p) (p + 1) X a pt) (seq 0 1)).
Proof. exact seg_interp. Qed.
Print Assumptions C34_segment_interpolate.
(** what one element contributes: weighted sums of source times shape function plus flux times gradient *)
Theorem C34_quad_integrate : forall s p t ntrial src flx j i k, (p <= 3)%nat -> (k < (p + 1) * (p + 1))%nat ->
  flat2 (p + 1) (quad_increment s p t ntrial src flx j i) k =
  spec_residual (quad_fn s p) (quad_gr s p) 2 (square_rule (lift1 t)) (fun Q => src Q (i * ntrial + j)%nat) (fun Q a => flx Q ((i * 2 + a) * ntrial + j)%nat) k.
Proof. exact quad_integ. Qed.
Print Assumptions C34_quad_integrate.
Theorem C34_hex_integrate : forall s p t ntrial src flx j i k, (p <= 3)%nat -> (k < (p + 1) * (p + 1) * (p + 1))%nat ->
  flat3 (p + 1) (hex_increment s p t ntrial src flx j i) k =
  spec_residual (hex_fn s p) (hex_gr s p) 3 (cube_rule (lift1 t)) (fun Q => src Q (i * ntrial + j)%nat) (fun Q a => flx Q ((i * 3 + a) * ntrial + j)%nat) k.
Proof. exact hex_integ. Qed.
Print Assumptions C34_hex_integrate.
Theorem C34_segment_integrate : forall s p t ntrial src flx j i k, (p <= 3)%nat -> (k < p + 1)%nat ->
  seg_increment s p t ntrial src flx j i k =
  spec_residual (seg_fn s p) (seg_gr s p) 1 (lift1 t) (fun Q => src Q (i * ntrial + j)%nat) (fun Q a => flx Q ((i * 1 + a) * ntrial + j)%nat) k.
Proof. exact seg_integ. Qed.
Print Assumptions C34_segment_integrate.
Theorem C34_simplex_integrate : forall shape grad d t ntrial src flx j i k,
  simplex_increment shape grad d t ntrial src flx j i k = spec_residual shape grad d t (fun Q => src Q (i * ntrial + j)%nat) (fun Q a => flx Q ((i * d + a) * ntrial + j)%nat) k.
Proof. exact simplex_integ. Qed.
Print Assumptions C34_simplex_integrate.
(** the increments reach exactly the trial columns and components they belong to *)
Theorem C34_accumulate : forall ntrial step c inc res, (1 <= step)%nat ->
  (forall j i k, (j < ntrial)%nat -> (i < c)%nat -> add_increments ntrial step c inc res (j * step)%nat i k = res (j * step)%nat i k + inc j i k) /\
  (forall m i k, (forall j, (j < ntrial)%nat -> m <> j * step)%nat \/ (c <= i)%nat -> add_increments ntrial step c inc res m i k = res m i k).
Proof. exact add_increments_spec. Qed.
Print Assumptions C34_accumulate.
(** integration is the weighted transpose of interpolation *)
Theorem C34_quad_transpose : forall s p t ntrial src flx j i X, (p <= 3)%nat ->
  sumn ((p + 1) * (p + 1)) (fun k => flat2 (p + 1) X k * flat2 (p + 1) (quad_increment s p t ntrial src flx j i) k) =
  weighted_pairing 2 (square_rule (lift1 t)) (fun Q => src Q (i * ntrial + j)%nat) (fun Q a => flx Q ((i * 2 + a) * ntrial + j)%nat) (quad_interpolate s p t X).
Proof. exact quad_transpose. Qed.
Print Assumptions C34_quad_transpose.
Theorem C34_hex_transpose : forall s p t ntrial src flx j i X, (p <= 3)%nat ->
  sumn ((p + 1) * (p + 1) * (p + 1)) (fun k => flat3 (p + 1) X k * flat3 (p + 1) (hex_increment s p t ntrial src flx j i) k) =
  weighted_pairing 3 (cube_rule (lift1 t)) (fun Q => src Q (i * ntrial + j)%nat) (fun Q a => flx Q ((i * 3 + a) * ntrial + j)%nat) (hex_interpolate s p t X).
Proof. exact hex_transpose. Qed.
Print Assumptions C34_hex_transpose.
Theorem C34_segment_transpose : forall s p t ntrial src flx j i X, (p <= 3)%nat ->
  sumn (p + 1) (fun k => X k * seg_increment s p t ntrial src flx j i k) =
  weighted_pairing 1 (lift1 t) (fun Q => src Q (i * ntrial + j)%nat) (fun Q a => flx Q ((i * 1 + a) * ntrial + j)%nat) (seg_interpolate s p t X).
Proof. exact seg_transpose. Qed.
Print Assumptions C34_segment_transpose.
Theorem C34_simplex_transpose : forall shape grad d ndof t ntrial src flx j i X,
  sumn ndof (fun k => X k * simplex_increment shape grad d t ntrial src flx j i k) =
  weighted_pairing d t (fun Q => src Q (i * ntrial + j)%nat) (fun Q a => flx Q ((i * d + a) * ntrial + j)%nat) (simplex_interpolate shape grad d ndof t X).
Proof. exact simplex_transpose. Qed.
Print Assumptions C34_simplex_transpose.
Theorem C34_qoi : forall t f total, qoi_square t f total = qoi_flat (square_rule (lift1 t)) f total /\ qoi_cube t f total = qoi_flat (cube_rule (lift1 t)) f total.
Proof. exact qoi_rules. Qed.
Print Assumptions C34_qoi.
(** bilinear quad: the field y + 2x at the point (1/5, 1/4) *)
Example C34_case : nth 1 (square_rule (lift1 [(/ 2, / 4); (/ 3, / 5)])) (0, []) = (/ 3 * / 2, [/ 5; / 4]) /\
  quad_interpolate 1 1 [(/ 2, / 4); (/ 3, / 5)] (fun jy jx => INR jy + 2 * INR jx) 1 = (/ 4 + 2 / 5, [2; 1]).
Proof. exact (conj sample_point sample_value). Qed.
