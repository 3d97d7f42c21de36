(** * C82: the integrands of heat transfer run on dual numbers *)
From Coq Require Import NArith ZArith Reals List Lia Lra Bool.
From Coquelicot Require Import Coquelicot.
From Verif Require StateMgr.
From Verif Require Import Prelude DofCodec Sums Restriction Csr Kernels FunctionalModel FunctionalGrad FunctionalTotal Assembly Tensor BoundaryElim Dual LU MatAlg ShapeAware WeakForm WeakFormEx Conductors Traced TracedSolid TracedSolidEx TracedHeat TracedHeatEx.
Import ListNotations.
Local Open Scope R_scope.

(** C82.  Run on doubles, the integrands give what the residual of heat transfer consists of *)
Theorem C82_heat_values : forall St n (f : functional St) t Ls (m : mem St) terms pos jac k Ig g G e q T, dim23 n -> heat_traced n f terms pos jac -> heat_admissible n f t Ls terms pos jac ->
  nth_error (f_integrals f) k = Some Ig -> nth_error (i_geoms Ig) g = Some G -> (e < length (gk_elems G))%nat -> (q < gk_nq G)%nat -> nth_error terms k = Some T ->
  let v := qf_inputs G g (Es_of f Ls Ig) e q in
  exists p out, heat_point n (heat_term_of n T (v 2%nat 0%nat 0%nat)) t (pos k g e q) (jac k g e q) (v 0%nat) (v 1%nat) = Some p /\ point_out n p = Some out /\
    forall b, (b <= heat_columns n T)%nat -> fst (gk_qf G e q t v (m_q m k g e q)) 0%nat b = out 0%nat b.
Proof. exact @heat_values. Qed.
Print Assumptions C82_heat_values.

(** run on dual numbers, they give the derivative of the residual by any one argument (temperature, rate or the parameter), after any history *)
Theorem C82_heat_gradient : forall St n (f : functional St) terms pos jac lsize tsize w rq dx h1 h2 (m0 mend : mem St), dim23 n ->
  wf f lsize tsize -> List.Forall (FunctionalGrad.fits tsize) (h1 ++ rq :: h2) -> length dx = tsize w ->
  rq_wrt rq = Some w -> List.Forall (fun r => rq_wrt r <> Some w) h2 ->
  run f lsize (h1 ++ rq :: h2) m0 = Ok mend -> heat_traced n f terms pos jac -> heat_admissible n f (rq_t rq) (rq_in rq) terms pos jac ->
  exists mbefore (res : R -> list R) (act : list R), run f lsize h1 m0 = Ok mbefore /\
    (forall eps, exists m', evaluate f (rq_t rq) None false (shiftL (rq_in rq) w dx eps) lsize mbefore = Ok (res eps, m')) /\
    action f w mend dx lsize = Ok act /\ length act = lsize /\
    forall k, (k < lsize)%nat -> is_derive (fun eps => nth k (res eps) 0) 0 (nth k act 0).
Proof. exact @heat_gradient. Qed.
Print Assumptions C82_heat_gradient.
(** a triangle with temperature dependent conductivity plus a parameter, a reaction and radiation, at all temperatures *)
Example C82_heat_gradient_nonvacuous : wf warm_f 3 (fun _ => 3%nat) /\ heat_traced 2 warm_f warm_terms ex_pos ex_jac /\ forall t Ls, heat_admissible 2 warm_f t Ls warm_terms ex_pos ex_jac.
Proof. exact (conj warm_wf (conj warm_traced warm_admissible)). Qed.

(** by all arguments together *)
Theorem C82_heat_all_arguments : forall St n (f : functional St) terms pos jac lsize tsize t (Lc : R -> nat -> list R) dL (m : mem St) W, dim23 n ->
  wf f lsize tsize -> (forall eps w, length (Lc eps w) = tsize w) -> (forall w, length (dL w) = tsize w) ->
  (forall Ig w, In Ig (f_integrals f) -> In w (i_active Ig) -> (w < W)%nat) ->
  (forall w i, is_derive (fun eps => nth i (Lc eps w) 0) 0 (nth i (dL w) 0)) -> heat_traced n f terms pos jac -> heat_admissible n f t (Lc 0) terms pos jac ->
  exists (res : R -> list R) (act : nat -> list R),
    (forall eps, exists m', evaluate f t None false (Lc eps) lsize m = Ok (res eps, m')) /\
    (forall w, exists mw, evaluate f t (Some w) false (Lc 0) lsize m = Ok (res 0, mw) /\ action f w mw (dL w) lsize = Ok (act w)) /\
    forall k, (k < lsize)%nat -> is_derive (fun eps => nth k (res eps) 0) 0 (sumn W (fun w => nth k (act w) 0)).
Proof. exact @heat_arguments. Qed.
Print Assumptions C82_heat_all_arguments.

(** this is the hypothesis on derivatives in C77 *)
Theorem C82_heat_joint : forall St n (f : functional St) t Ls (m : mem St) terms pos jac, dim23 n -> heat_traced n f terms pos jac -> heat_admissible n f t Ls terms pos jac -> ad_joint f t Ls m.
Proof. exact @heat_joint. Qed.
Print Assumptions C82_heat_joint.

(** the conductors are those of C51 *)
Theorem C82_conductors : forall n p X u (grad : list R),
  (forall m, isotropic_response m grad = (fst (conduct n (CIsotropic m) p X u (fun i => nth i grad 0)), tab (length grad) (snd (conduct n (CIsotropic m) p X u (fun i => nth i grad 0))))) /\
  (forall m r, graded_response m u grad = StateMgr.Done r ->
    r = (fst (conduct n (CGraded m) p X u (fun i => nth i grad 0)), tab (length grad) (snd (conduct n (CGraded m) p X u (fun i => nth i grad 0)))) /\ 0 <= conductivity (CGraded m) p u).
Proof. exact conduct_as_before. Qed.
Print Assumptions C82_conductors.
