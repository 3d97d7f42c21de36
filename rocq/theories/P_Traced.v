(** * C82: derivatives of functionals whose q-functions run on dual numbers *)
From Coq Require Import NArith ZArith Reals List Lia Lra Bool.
From Coquelicot Require Import Coquelicot.
From Verif Require Import Prelude DofCodec Sums Restriction Csr Kernels FunctionalModel FunctionalGrad FunctionalTotal Assembly FunctionalEx Tensor BoundaryElim Newton QuasiStatic Dual Traced TracedEx.
Import ListNotations.
Local Open Scope R_scope.

(** C82.  Running an expression on numbers of which some are dual gives gradients which depend linearly on those of the variables, with
    coefficients which only depend on the values; or it gives no number whatever the gradients are *)
Theorem C82_linear : forall x k e, (forall ins, shaped x k ins -> deval e ins = None) \/ exists v l, acts x k e v l.
Proof. exact deval_acts. Qed.
Print Assumptions C82_linear.
Example C82_linear_nonvacuous : acts (fun _ => 3) (fun i => Nat.eqb i 0) (Bin Mul (Var 0) (Var 1)) 9 [(0%nat, 3 * 1)].
Proof. exact product_acts. Qed.

(** the derivatives stored for one argument are the derivatives of the outputs by that argument *)
Theorem C82_argument : forall St (f : functional St) place body w t Ls (m : mem St),
  all_written f place body -> regular f (Some w) place body t Ls m -> ad_correct_at f w t Ls m.
Proof. exact @ad_is_correct. Qed.
Print Assumptions C82_argument.

(** those stored for all arguments, one after the other, make up the derivative by all of them together *)
Theorem C82_joint : forall St (f : functional St) place body t Ls (m : mem St),
  all_written f place body -> regular f None place body t Ls m -> ad_joint f t Ls m.
Proof. exact @ad_is_joint. Qed.
Print Assumptions C82_joint.

(** after any history, the gradient last asked for is the derivative of the residual *)
Theorem C82_gradient : forall St (f : functional St) place body lsize tsize w rq dx h1 h2 (m0 mend : mem St),
  wf f lsize tsize -> List.Forall (fits tsize) (h1 ++ rq :: h2) -> length dx = tsize w ->
  rq_wrt rq = Some w -> List.Forall (fun r => rq_wrt r <> Some w) h2 ->
  run f lsize (h1 ++ rq :: h2) m0 = Ok mend -> all_written f place body ->
  exists mbefore, run f lsize h1 m0 = Ok mbefore /\
  (regular f (Some w) place body (rq_t rq) (rq_in rq) mbefore ->
   exists (res : R -> list R) (act : list R),
    (forall eps, exists m', evaluate f (rq_t rq) None false (shiftL (rq_in rq) w dx eps) lsize mbefore = Ok (res eps, m')) /\
    action f w mend dx lsize = Ok act /\ length act = lsize /\
    forall k, (k < lsize)%nat -> is_derive (fun eps => nth k (res eps) 0) 0 (nth k act 0)).
Proof. exact @traced_gradient. Qed.
Print Assumptions C82_gradient.
Example C82_gradient_nonvacuous : wf log_bar 3 (fun _ => 3%nat) /\ all_written log_bar (fun _ _ => strain_and_stiffness) (fun _ _ => log_body) /\
  forall u0 u1 u2 p0 p1 p2 m, -1 < u1 - u0 -> u1 <> u0 -> -1 < u2 - u1 -> u2 <> u1 -> forall t,
    regular log_bar None (fun _ _ => strain_and_stiffness) (fun _ _ => log_body) t (fun w => match w with O => [u0; u1; u2] | _ => [p0; p1; p2] end) m.
Proof. exact (conj log_wf (conj log_all log_strains)). Qed.

(** the same for a motion of all arguments *)
Theorem C82_all_arguments : forall St (f : functional St) place body lsize tsize t (Lc : R -> nat -> list R) dL (m : mem St) W,
  wf f lsize tsize -> (forall eps w, length (Lc eps w) = tsize w) -> (forall w, length (dL w) = tsize w) ->
  (forall Ig w, In Ig (f_integrals f) -> In w (i_active Ig) -> (w < W)%nat) ->
  (forall w i, is_derive (fun eps => nth i (Lc eps w) 0) 0 (nth i (dL w) 0)) -> all_written f place body -> regular f None place body t (Lc 0) m ->
  exists (res : R -> list R) (act : nat -> list R),
    (forall eps, exists m', evaluate f t None false (Lc eps) lsize m = Ok (res eps, m')) /\
    (forall w, exists mw, evaluate f t (Some w) false (Lc 0) lsize m = Ok (res 0, mw) /\ action f w mw (dL w) lsize = Ok (act w)) /\
    forall k, (k < lsize)%nat -> is_derive (fun eps => nth k (res eps) 0) 0 (sumn W (fun w => nth k (act w) 0)).
Proof. exact @traced_arguments. Qed.
Print Assumptions C82_all_arguments.

(** the tangent handed to the solver of a quasi-static step *)
Theorem C82_tangent : forall St (f : functional St) place body n c tsize t others m u dx A (L : R -> list R) i, ready f n c tsize ->
  fitting tsize others -> length u = n -> length dx = n -> all_written f place body -> regular f (Some 0%nat) place body t (inputs others u) m -> tangent f n c t others m u A ->
  (forall eps, force f n t others m (tab n (fun j => nth j u 0 + eps * nth j dx 0)) (L eps)) -> (i < n)%nat ->
  is_derive (fun eps : R => nth i (L eps) 0) 0 (mvec n A (entries dx) i).
Proof. exact @traced_tangent. Qed.
Print Assumptions C82_tangent.

(** where a q-function compares equal numbers a derivative is stored although there is none *)
Theorem C82_kink_refuted : exists m1 act, perform kink_spring 1 (at_u 0 (Some 0%nat)) (fresh tt) = Ok ([factor 0 * 0], m1) /\
  action kink_spring 0 m1 [1] 1 = Ok [act] /\ all_written kink_spring (fun _ _ => one_value) (fun _ _ => kink_body) /\
  (forall u wrt m, exists m', perform kink_spring 1 (at_u u wrt) m = Ok ([factor u * u], m')) /\
  ~ exists d, is_derive (fun eps => factor (0 + eps * 1) * (0 + eps * 1)) 0 d.
Proof. exact kink_refutes. Qed.
Print Assumptions C82_kink_refuted.
