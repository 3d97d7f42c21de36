(** * C73: quasi-static runs of a solid *)
From Coq Require Import NArith ZArith Reals List Lia Bool.
From Coquelicot Require Import Coquelicot.
From Verif Require Import Prelude DofCodec Sums Restriction Csr Kernels FunctionalModel FunctionalGrad Assembly Tensor MatAlg Materials ShapeAware ShapeDefs BoundaryElim Newton
  WeakForm WeakFormFacts WeakFormPhysics WeakFormEx TrustRegion TrustLoop QuasiStatic QuasiNewton QuasiBalance QuasiTrust FunctionalEx QuasiEx QuasiSupportEx.
Import ListNotations.
Local Open Scope R_scope.

(** every step succeeds, for any nonlinear solver, and does what [advances] says: the solver meets residuals and tangents which are functions of
    the displacement alone, with the material state of the start of the step *)
Theorem C73_step : forall St (f : functional St) n c bc target tsize ld s, ready f n c tsize -> sound n tsize s -> fitting tsize (l_others ld) ->
  exists s' ok, step f n c bc target ld s = Ok (s', ok) /\ advances f n c bc target ld s s' ok /\ sound n tsize s' /\
    s_files s' = s_files s ++ [(s_u s', s_react s)].
Proof. exact (fun St f n c bc target tsize ld s R0 => @step_ok St f n c bc target tsize R0 ld s). Qed.
Print Assumptions C73_step.

(** the tangent handed to the solver is the derivative of the nodal forces *)
Theorem C73_tangent : forall St (f : functional St) n c tsize t others m u dx A (L : R -> list R) i, ready f n c tsize ->
  fitting tsize others -> length u = n -> length dx = n -> ad_correct_at f 0 t (inputs others u) m -> tangent f n c t others m u A ->
  (forall eps, force f n t others m (tab n (fun j => nth j u 0 + eps * nth j dx 0)) (L eps)) -> (i < n)%nat ->
  is_derive (fun eps : R => nth i (L eps) 0) 0 (mvec n A (entries dx) i).
Proof. exact (fun St f n c tsize t others m u dx A L i R0 => @tangent_derivative St f n c tsize R0 t others m u dx A L i). Qed.
Print Assumptions C73_tangent.

(** after any number of steps the material of a quadrature point has been called exactly once per step, at the displacement found in that step *)
Theorem C73_material_history : forall St (f : functional St) n c bc target tsize, ready f n c tsize -> forall loads s l, sound n tsize s ->
  List.Forall (fun ld => fitting tsize (l_others ld)) loads -> run_steps f n c bc target loads s = Ok l ->
  forall k Ig g G e q, nth_error (f_integrals f) k = Some Ig -> nth_error (i_geoms Ig) g = Some G -> (e < length (gk_elems G))%nat -> (q < gk_nq G)%nat ->
  m_q (s_mem (final s l)) k g e q = point_history f Ig G g e q loads l (m_q (s_mem s) k g e q).
Proof. exact @material_history. Qed.
Print Assumptions C73_material_history.

(** the way to the solution leaves no trace *)
Theorem C73_solver_invisible : forall St (f : functional St) n c bc target tsize, ready f n c tsize -> forall loads loads' s1 s2 l1 l2,
  sound n tsize s1 -> sound n tsize s2 -> List.Forall (fun ld => fitting tsize (l_others ld)) loads -> List.Forall2 same_loading loads loads' ->
  observed_alike s1 s2 -> run_steps f n c bc target loads s1 = Ok l1 -> run_steps f n c bc target loads' s2 = Ok l2 ->
  map s_u l1 = map s_u l2 -> List.Forall2 observed_alike l1 l2.
Proof. exact @solver_invisible. Qed.
Print Assumptions C73_solver_invisible.

(** a solver which keeps its promises: prescribed displacements hold at the end of the step, and the reactions are the nodal forces, acceptable
    on the free dofs *)
Theorem C73_equilibrium : forall St (f : functional St) n c bc target tsize ld s s' accept, ready f n c tsize -> sound n tsize s ->
  fitting tsize (l_others ld) -> (l_warm ld = true -> keeps_unit_rows n bc (l_lin ld)) -> trustworthy n bc accept (l_solver ld) ->
  step f n c bc target ld s = Ok (s', true) ->
  (forall i, (i < n)%nat -> bc i = true -> nth i (s_u s') 0 = target (s_t s') i) /\
  force f n (s_t s') (l_others ld) (s_mem s) (s_u s') (s_react s') /\
  exists x0 L0, begins f n c bc target ld s x0 /\ force f n (s_t s') (l_others ld) (s_mem s) (tab n x0) L0 /\
    accept (zeroed bc (entries L0)) (zeroed bc (entries (s_react s'))).
Proof. exact (fun St f n c bc target tsize ld s s' accept R0 => @equilibrium St f n c bc target tsize R0 ld s s' accept). Qed.
Print Assumptions C73_equilibrium.

(** Newton's method with line search is such a solver *)
Theorem C73_newton : forall n lin bc o, keeps_unit_rows n bc lin -> trustworthy n bc (newton_accepts n o) (newton_solver n lin o).
Proof. exact newton_trustworthy. Qed.
Print Assumptions C73_newton.
(** namely the one of C28 *)
Theorem C73_newton_is_newton : forall n lin F J huge o x r0, pure F J (newton_solver n lin o x) =
  (pt_x (res_pt (newton huge (sys n lin F J) o x r0)), as_bool (res_verdict (newton huge (sys n lin F J) o x r0))).
Proof. exact newton_pure. Qed.
Print Assumptions C73_newton_is_newton.
Theorem C73_newton_equilibrium : forall St (f : functional St) n c bc target tsize ld s s' o lin, ready f n c tsize -> sound n tsize s ->
  fitting tsize (l_others ld) -> (l_warm ld = true -> keeps_unit_rows n bc (l_lin ld)) -> keeps_unit_rows n bc lin -> l_solver ld = newton_solver n lin o ->
  step f n c bc target ld s = Ok (s', true) ->
  (forall i, (i < n)%nat -> bc i = true -> nth i (s_u s') 0 = target (s_t s') i) /\
  exists x0 L0, begins f n c bc target ld s x0 /\ force f n (s_t s') (l_others ld) (s_mem s) (tab n x0) L0 /\
    forall i, (i < n)%nat -> bc i = false -> Rabs (nth i (s_react s') 0) <= Rmax (o_rel o * norm2 n (zeroed bc (entries L0))) (o_abs o).
Proof. exact (fun St f n c bc target tsize ld s s' o lin R0 => @newton_equilibrium St f n c bc target tsize R0 ld s s' o lin). Qed.
Print Assumptions C73_newton_equilibrium.
(** a bar of two elements: a step, in which all of this happens *)
Example C73_bar : exists c s1 s2, ready bar 3 c bar_sizes /\ step bar 3 c clamped pulled pull bar_start = Ok (s1, true) /\
  s_u s1 = [1; 5 / 2; 3] /\ s_react s1 = [-2; 0; 0] /\ last (s_files s1) ([], []) = ([1; 5 / 2; 3], [0; 0; 0]) /\
  creep (s_mem s1) 0%nat = 3 / 4 /\ creep (s_mem s1) 1%nat = 1 / 4 /\
  step bar 3 c clamped pulled pull (reset_states 3 0 s1) = Ok (s2, true) /\ s_u s2 = [1; 13 / 4; 4].
Proof. exact bar_runs. Qed.
Example C73_bar_inputs : sound 3 bar_sizes bar_start /\ fitting bar_sizes (l_others pull) /\ keeps_unit_rows 3 clamped bar_inverse.
Proof. exact (conj bar_start_sound (conj others_fit inverse_keeps)). Qed.

(** the supports carry the loads: the reactions at the constrained dofs add up to minus the loads, up to the tolerance at each node *)
Theorem C73_supports : forall St n (D : dim23 n) (f : functional St) o nn c bc target tsize, ready f (nn * n) c tsize -> all_fit f -> layout f o nn n -> unity f ->
  forall ld s s' opt lin terms pos jac, sound (nn * n) tsize s -> fitting tsize (l_others ld) ->
  (l_warm ld = true -> keeps_unit_rows (nn * n) bc (l_lin ld)) -> keeps_unit_rows (nn * n) bc lin -> l_solver ld = newton_solver (nn * n) lin opt ->
  step f (nn * n) c bc target ld s = Ok (s', true) -> 0 <= o_abs opt ->
  solid_residual n f (s_t s') (inputs (l_others ld) (s_u s')) (s_mem s) terms pos jac ->
  exists x0 L0, begins f (nn * n) c bc target ld s x0 /\ force f (nn * n) (s_t s') (l_others ld) (s_mem s) (tab (nn * n) x0) L0 /\
  forall i, (i < n)%nat -> Rabs (support o nn n bc (s_react s') i - over_points f (fun k Ig g G r le q => match nth_error terms k with
    | Some T => solid_force n T (s_t s') (pos k g le q) (jac k g le q) (qf_inputs G g (Es_of f (inputs (l_others ld) (s_u s')) Ig) le q 0%nat)
        (qf_inputs G g (Es_of f (inputs (l_others ld) (s_u s')) Ig) le q 1%nat) i
    | None => 0 end)) <= INR nn * Rmax (o_rel opt * norm2 (nn * n) (zeroed bc (entries L0))) (o_abs opt).
Proof. exact @supports. Qed.
Print Assumptions C73_supports.
Example C73_triangle : exists c s' tol, ready solid_f (3 * 2) c six /\ sound (3 * 2) six tri_start /\ fitting six (l_others (tri_pull tol)) /\
  keeps_unit_rows (3 * 2) held (fun _ b => b) /\ step solid_f (3 * 2) c held held_at (tri_pull tol) tri_start = Ok (s', true) /\ 0 <= tol /\
  solid_residual 2 solid_f (s_t s') (inputs (l_others (tri_pull tol)) (s_u s')) (s_mem tri_start) solid_terms ex_pos ex_jac.
Proof. exact tri_supports. Qed.

(** ** what does not hold *)
(** resetStates leaves the material state behind: the run after it is not the run before it *)
Theorem C73_reset_refuted : exists c s1 s2, ready bar 3 c bar_sizes /\ sound 3 bar_sizes bar_start /\
  s_u bar_start = s_u (reset_states 3 0 s1) /\ s_t bar_start = s_t (reset_states 3 0 s1) /\ s_cycle bar_start = s_cycle (reset_states 3 0 s1) /\
  step bar 3 c clamped pulled pull bar_start = Ok (s1, true) /\ step bar 3 c clamped pulled pull (reset_states 3 0 s1) = Ok (s2, true) /\ s_u s1 <> s_u s2.
Proof. exact reset_differs. Qed.
Print Assumptions C73_reset_refuted.
(** the file of a step holds the reactions of the step before *)
Theorem C73_files_refuted : exists c s1, ready bar 3 c bar_sizes /\ step bar 3 c clamped pulled pull bar_start = Ok (s1, true) /\
  last (s_files s1) ([], []) = (s_u s1, s_react bar_start) /\ s_react s1 <> s_react bar_start.
Proof. exact files_lag. Qed.
Print Assumptions C73_files_refuted.
(** the "previous" parameters of every later warm start are those of the first step *)
Theorem C73_previous_is_first : forall St (f : functional St) n c bc target tsize ld loads s l, ready f n c tsize -> sound n tsize s ->
  List.Forall (fun x => fitting tsize (l_others x)) (ld :: loads) -> s_cycle s = 0%nat -> run_steps f n c bc target (ld :: loads) s = Ok l ->
  forall s' ld', In s' l -> previous ld' s' = l_others ld.
Proof. exact @previous_is_first. Qed.
Print Assumptions C73_previous_is_first.
(** so they are not those of the previous step *)
Theorem C73_previous_refuted : exists c s1 s2, ready bar 3 c bar_sizes /\
  run_steps bar 3 c clamped pulled [pull; pull_other] bar_start = Ok [s1; s2] /\
  forall ld, previous ld s2 0%nat <> l_others pull_other 0%nat.
Proof. exact previous_stale. Qed.
Print Assumptions C73_previous_refuted.

(** the trust-region method is such a solver too: with any preconditioner which is exact in unit rows it moves no constrained dof *)
Theorem C73_trust_region : forall n prec bc o scaling cg, (0 < n)%nat -> 0 < scaling -> keeps_unit_rows n bc prec ->
  trustworthy n bc (newton_accepts n o) (trust_solver n prec o scaling cg).
Proof. exact trust_trustworthy. Qed.
Print Assumptions C73_trust_region.
(** namely the one of C28 and C30 *)
Theorem C73_trust_region_is : forall n prec F J huge o scaling cg x,
  match tr_solve huge n (trust_sys n prec F J) o scaling cg x with
  | Some res => pure F J (trust_solver n prec o scaling cg x) = (pt_x (res_pt res), as_bool (res_verdict res))
  | None => snd (pure F J (trust_solver n prec o scaling cg x)) = false
  end.
Proof. exact trust_pure. Qed.
Print Assumptions C73_trust_region_is.
Example C73_trust_region_nonvacuous : snd (pure two_x twice (trust_solver 1 (fun _ r => r) loose 10 1 (fun _ => 0))) = true.
Proof. exact trust_case. Qed.
