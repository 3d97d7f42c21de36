(** * C82: the integrands of solid mechanics run on dual numbers *)
From Coq Require Import NArith ZArith Reals List Lia Lra Bool.
From Coquelicot Require Import Coquelicot.
From Verif Require Import Prelude DofCodec Sums Restriction Csr Kernels FunctionalModel FunctionalGrad FunctionalTotal Assembly Tensor BoundaryElim Newton QuasiStatic Dual LU MatAlg ShapeAware WeakForm WeakFormEx Traced TracedSolid TracedSolidEx TracedInv.
Import ListNotations.
Local Open Scope R_scope.

(** C82.  Run on doubles, the integrands give what the residual of a solid consists of *)
Theorem C82_solid_values : forall St n (f : functional St) t Ls (m : mem St) terms pos jac k Ig g G e q T p out i b, dim23 n -> solid_traced n f terms pos jac ->
  nth_error (f_integrals f) k = Some Ig -> nth_error (i_geoms Ig) g = Some G -> nth_error terms k = Some T ->
  let v := qf_inputs G g (Es_of f Ls Ig) e q in
  solid_point n (term_of n T (v 2%nat 0%nat 0%nat) (v 3%nat 0%nat 0%nat)) t (pos k g e q) (jac k g e q) (v 0%nat) (v 1%nat) (m_q m k g e q) = Some p ->
  point_out n p = Some out -> (i < n)%nat -> (b <= columns n T)%nat -> fst (gk_qf G e q t v (m_q m k g e q)) i b = out i b.
Proof. exact @solid_values. Qed.
Print Assumptions C82_solid_values.

(** they give numbers in every configuration without inverted points *)
Theorem C82_solid_configurations : forall St n (f : functional St) t Ls (m : mem St) terms pos jac, dim23 n -> no_inverted_points n f Ls terms jac -> solid_defined n f t Ls m terms pos jac.
Proof. exact @upright_defined. Qed.
Print Assumptions C82_solid_configurations.

(** run on dual numbers, they give the derivative of the residual by any one argument (displacement, acceleration or a parameter), after any history *)
Theorem C82_solid_gradient : forall St n (f : functional St) terms pos jac lsize tsize w rq dx h1 h2 (m0 mend : mem St), dim23 n ->
  wf f lsize tsize -> List.Forall (FunctionalGrad.fits tsize) (h1 ++ rq :: h2) -> length dx = tsize w ->
  rq_wrt rq = Some w -> List.Forall (fun r => rq_wrt r <> Some w) h2 ->
  run f lsize (h1 ++ rq :: h2) m0 = Ok mend -> solid_traced n f terms pos jac -> no_inverted_points n f (rq_in rq) terms jac ->
  exists mbefore (res : R -> list R) (act : list R), run f lsize h1 m0 = Ok mbefore /\
    (forall eps, exists m', evaluate f (rq_t rq) None false (shiftL (rq_in rq) w dx eps) lsize mbefore = Ok (res eps, m')) /\
    action f w mend dx lsize = Ok act /\ length act = lsize /\
    forall k, (k < lsize)%nat -> is_derive (fun eps => nth k (res eps) 0) 0 (nth k act 0).
Proof. exact @solid_gradient. Qed.
Print Assumptions C82_solid_gradient.
(** a triangle of a parameterized Neo-Hookean material with body force, traction and follower pressure, displaced in any way that does not turn it inside out *)
Example C82_solid_gradient_nonvacuous : wf tri_f 6 (fun w => (3 * comps w)%nat) /\ solid_traced 2 tri_f tri_terms ex_pos ex_jac /\
  forall x0 y0 x1 y1 x2 y2 (rest : nat -> list R), 0 < (1 + (x1 - x0)) * (1 + (y2 - y0)) - (x2 - x0) * (y1 - y0) ->
    no_inverted_points 2 tri_f (fun w => match w with O => [x0; y0; x1; y1; x2; y2] | S w => rest w end) tri_terms ex_jac.
Proof. exact (conj tri_wf (conj tri_traced tri_upright)). Qed.

(** the derivatives by all arguments together *)
Theorem C82_solid_all_arguments : forall St n (f : functional St) terms pos jac lsize tsize t (Lc : R -> nat -> list R) dL (m : mem St) W, dim23 n ->
  wf f lsize tsize -> (forall eps w, length (Lc eps w) = tsize w) -> (forall w, length (dL w) = tsize w) ->
  (forall Ig w, In Ig (f_integrals f) -> In w (i_active Ig) -> (w < W)%nat) ->
  (forall w i, is_derive (fun eps => nth i (Lc eps w) 0) 0 (nth i (dL w) 0)) -> solid_traced n f terms pos jac -> no_inverted_points n f (Lc 0) terms jac ->
  exists (res : R -> list R) (act : nat -> list R),
    (forall eps, exists m', evaluate f t None false (Lc eps) lsize m = Ok (res eps, m')) /\
    (forall w, exists mw, evaluate f t (Some w) false (Lc 0) lsize m = Ok (res 0, mw) /\ action f w mw (dL w) lsize = Ok (act w)) /\
    forall k, (k < lsize)%nat -> is_derive (fun eps => nth k (res eps) 0) 0 (sumn W (fun w => nth k (act w) 0)).
Proof. exact @solid_arguments. Qed.
Print Assumptions C82_solid_all_arguments.

(** this is the hypothesis on derivatives in C74 and C78 *)
Theorem C82_solid_joint : forall St n (f : functional St) t Ls (m : mem St) terms pos jac, dim23 n -> solid_traced n f terms pos jac -> no_inverted_points n f Ls terms jac -> ad_joint f t Ls m.
Proof. exact @solid_differentiable. Qed.
Print Assumptions C82_solid_joint.

(** the tangent of a quasi-static step *)
Theorem C82_solid_tangent : forall St n (f : functional St) terms pos jac N c tsize t others m u dx A (L : R -> list R) i, dim23 n -> ready f N c tsize ->
  fitting tsize others -> length u = N -> length dx = N -> solid_traced n f terms pos jac -> no_inverted_points n f (inputs others u) terms jac -> tangent f N c t others m u A ->
  (forall eps, force f N t others m (tab N (fun j => nth j u 0 + eps * nth j dx 0)) (L eps)) -> (i < N)%nat ->
  is_derive (fun eps : R => nth i (L eps) 0) 0 (mvec N A (entries dx) i).
Proof. exact @solid_tangent. Qed.
Print Assumptions C82_solid_tangent.

(** the inverse of a matrix of dual numbers: the overload with its own rule gives the numbers the cofactor formula gives on dual numbers *)
Theorem C82_inverse : forall n (E : emat) ins (A B : nat -> nat -> num), dim23 n ->
  (forall i j, (i < n)%nat -> (j < n)%nat -> deval (E i j) ins = Some (A i j)) -> dual_inv n A = Some B ->
  forall i j, (i < n)%nat -> (j < n)%nat -> exists r, deval (einv n E i j) ins = Some r /\ get_value r = get_value (B i j) /\
    forall d, get_gradient r d = get_gradient (B i j) d.
Proof. exact inverse_overload. Qed.
Print Assumptions C82_inverse.
Example C82_inverse_nonvacuous : (forall i j, (i < 2)%nat -> (j < 2)%nat -> deval (gvar 2 i j) twice = Some (twice (i * 2 + j)%nat)) /\
  exists B, dual_inv 2 (fun i j => twice (i * 2 + j)%nat) = Some B /\ get_value (B 0%nat 0%nat) = / 2 /\ get_gradient (B 0%nat 0%nat) 0%nat = - / 4.
Proof. exact twice_inverse. Qed.
