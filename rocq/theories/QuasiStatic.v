(** * Quasi-static runs of a solid (C73)

    SolidMechanics::advanceTimestep for quasi-static problems as a sequence of evaluations of the residual of FunctionalModel.v,
    with the quadrature data and the derivative buffers which they leave behind.  Argument 0 of the residual is the displacement,
    the others (acceleration, parameters) are given by [others].  One rank, where true dofs and local dofs agree, and reals. *)
From Coq Require Import NArith ZArith Reals List Lia Lra Bool FunctionalExtensionality.
From Verif Require Import Prelude DofCodec Sums Restriction Csr Kernels FunctionalModel FunctionalGrad Assembly Tensor BoundaryElim.
Import ListNotations.
Local Open Scope R_scope.

(** ** nonlinear solvers: any program which asks for residuals and Jacobians of its choice and ends with a point and the value of
    GetConverged() (what equation_solver.cpp does with the operator it is given).  The Jacobian is handed over by value; the code
    returns a reference to the member J_, which stays as it is until the next request. *)
Inductive solver :=
| Give (x : vec) (converged : bool)
| AskResidual (x : vec) (k : vec -> solver)
| AskJacobian (x : vec) (k : mat -> solver).

(** what a solver computes when residual and Jacobian are functions *)
Fixpoint pure (F : vec -> vec) (J : vec -> mat) (s : solver) : vec * bool :=
  match s with
  | Give x b => (x, b)
  | AskResidual x k => pure F J (k (F x))
  | AskJacobian x k => pure F J (k (J x))
  end.

Definition entries (L : list R) : vec := fun i => nth i L 0.
Definition inputs (others : nat -> list R) (u : list R) : nat -> list R := fun w => match w with O => u | S v => others v end.

Section Run.
Context {St : Type}.
Notation mem := (mem St).
Variable f : functional St.
Variable n : nat.
Variable c : csr.
(** bcs_.allEssentialTrueDofs(), and what the essential boundary conditions prescribe at a time *)
Variable bc : nat -> bool.
Variable target : R -> vec.

(** solid_mechanics.hpp:1120-1131: the residual operator *)
Definition residual_op (t : R) (others : nat -> list R) (x : vec) (m : mem) : outcome (vec * mem) :=
  bindO (evaluate f t None false (inputs others (tab n x)) n m) (fun p => Ok (zeroed bc (entries (fst p)), snd p)).
(** solid_mechanics.hpp:1136-1138, 1749-1751: evaluate on dual numbers and assemble *)
Definition jacobian (t : R) (others : nat -> list R) (x : vec) (m : mem) : outcome (mat * mem) :=
  bindO (evaluate f t (Some 0%nat) false (inputs others (tab n x)) n m) (fun p =>
  bindO (assemble f 0 (snd p) c) (fun V => Ok (csr_entry c V : mat, snd p))).
(** solid_mechanics.hpp:1134-1141: the gradient operator *)
Definition jacobian_op (t : R) (others : nat -> list R) (x : vec) (m : mem) : outcome (mat * mem) :=
  bindO (jacobian t others x m) (fun p => Ok (eliminate bc (fst p), snd p)).

(** EquationSolver::solve on these operators *)
Fixpoint solve (t : R) (others : nat -> list R) (s : solver) (m : mem) : outcome (vec * bool * mem) :=
  match s with
  | Give x b => Ok (x, b, m)
  | AskResidual x k => bindO (residual_op t others x m) (fun p => solve t others (k (fst p)) (snd p))
  | AskJacobian x k => bindO (jacobian_op t others x m) (fun p => solve t others (k (fst p)) (snd p))
  end.

(** the state of the module.  [s_files]: displacement and reactions of each file written when checkpointing to disk *)
Record state := { s_u : list R; s_t : R; s_cycle : nat; s_mem : mem; s_prev : nat -> list R; s_react : list R;
                  s_saved : list (list R); s_files : list (list R * list R) }.
(** one call of advanceTimestep: step size, acceleration and parameters in force, solvers *)
Record load := { l_dt : R; l_others : nat -> list R; l_solver : vec -> solver; l_lin : mat -> vec -> vec; l_warm : bool }.

(** solid_mechanics.hpp:1250-1254 *)
Definition previous (ld : load) (s : state) : nat -> list R := if Nat.eqb (s_cycle s) 0 then l_others ld else s_prev s.
(** solid_mechanics.hpp:1731-1769 warmStartDisplacement *)
Definition warm_up (ld : load) (s : state) : outcome (vec * mem) :=
  let t' := s_t s + l_dt ld in
  let u := entries (s_u s) in
  if l_warm ld then
    bindO (evaluate f t' None false (inputs (l_others ld) (tab n u)) n (s_mem s)) (fun p =>
    bindO (jacobian (s_t s) (previous ld s) u (snd p)) (fun q =>
    Ok (warm_start n bc (l_lin ld) true (fst q) (entries (fst p)) (target t') u, snd q)))
  else Ok (warm_start n bc (l_lin ld) false (fun _ _ => 0) (fun _ => 0) (target t') u, s_mem s).
(** solid_mechanics.hpp:1243-1295 advanceTimestep and 1620-1630 quasiStaticSolve, without the bookkeeping of C01 *)
Definition step (ld : load) (s : state) : outcome (state * bool) :=
  bindO (warm_up ld s) (fun p =>
  let t' := s_t s + l_dt ld in
  bindO (solve t' (l_others ld) (l_solver ld (fst p)) (snd p)) (fun q =>
  let u' := tab n (fst (fst q)) in
  let saved := s_saved s ++ [u'] in
  let files := s_files s ++ [(u', s_react s)] in
  bindO (evaluate f t' None true (inputs (l_others ld) u') n (snd q)) (fun r =>
  Ok ({| s_u := u'; s_t := t'; s_cycle := S (s_cycle s); s_mem := snd r; s_prev := previous ld s; s_react := fst r;
         s_saved := saved; s_files := files |}, snd (fst q))))).
(** the states after each step *)
Fixpoint run_steps (loads : list load) (s : state) : outcome (list state) :=
  match loads with
  | [] => Ok []
  | ld :: rest => bindO (step ld s) (fun p => bindO (run_steps rest (fst p)) (fun l => Ok (fst p :: l)))
  end.
(** solid_mechanics.hpp:369-411 resetStates: the fields are zero again; residual_ and its buffers are not mentioned *)
Definition reset_states (t : R) (s : state) : state :=
  {| s_u := repeat 0 n; s_t := t; s_cycle := 0; s_mem := s_mem s; s_prev := s_prev s; s_react := repeat 0 n;
     s_saved := [repeat 0 n]; s_files := [(repeat 0 n, repeat 0 n)] |}.

(** ** specification *)
(** the nodal forces at a displacement with the material state of [m] *)
Definition force (t : R) (others : nat -> list R) (m : mem) (u L : list R) : Prop :=
  exists m', evaluate f t None false (inputs others u) n m = Ok (L, m').
(** their tangent matrix, as assembled *)
Definition tangent (t : R) (others : nat -> list R) (m : mem) (u : list R) (A : mat) : Prop :=
  exists L m' V, evaluate f t (Some 0%nat) false (inputs others u) n m = Ok (L, m') /\ assemble f 0 m' c = Ok V /\ A = csr_entry c V.
(** two memories with the same material state *)
Definition same_material (m m' : mem) : Prop := forall k g e q, m_q m k g e q = m_q m' k g e q.
(** the displacement [u] changes the material state [m] into [m']: one call of the material at every quadrature point *)
Definition material_step (t : R) (others : nat -> list R) (u : list R) (m m' : mem) : Prop :=
  (forall k Ig g G e q, nth_error (f_integrals f) k = Some Ig -> nth_error (i_geoms Ig) g = Some G ->
     (e < length (gk_elems G))%nat -> (q < gk_nq G)%nat ->
     m_q m' k g e q = snd (gk_qf G e q t (qf_inputs G g (Es_of f (inputs others u) Ig) e q) (m_q m k g e q))) /\
  (forall k g e q, (forall Ig G, nth_error (f_integrals f) k = Some Ig -> nth_error (i_geoms Ig) g = Some G ->
     ~ ((e < length (gk_elems G))%nat /\ (q < gk_nq G)%nat)) -> m_q m' k g e q = m_q m k g e q).
Definition of_material (m : mem) (t : R) (others : nat -> list R) (F : vec -> vec) (J : vec -> mat) : Prop :=
  (forall x, exists L, force t others m (tab n x) L /\ F x = zeroed bc (entries L)) /\
  (forall x, exists A, tangent t others m (tab n x) A /\ J x = eliminate bc A).

(** ** hypotheses: the residual is well formed, square in the displacement, and its sparsity pattern was built for it (C13, C14) *)
Variable tsize : nat -> nat.
Definition ready : Prop :=
  wf f n tsize /\ tsize 0%nat = n /\ wf_assembly f 0 n n /\ same_elements f 0 /\
  valid_csr n (coupled (blocks_of f 0 Elements)) c /\ (Z.of_nat n <= 2 ^ 32)%Z /\
  (forall x, coupled (blocks_of f 0 BoundaryElements) x -> coupled (blocks_of f 0 Elements) x).
Definition fitting (others : nat -> list R) : Prop := forall w, length (others w) = tsize (S w).
Definition sound (s : state) : Prop := length (s_u s) = n /\ ((0 < s_cycle s)%nat -> fitting (s_prev s)).

Hypothesis R0 : ready.

Lemma inputs_fit others u : fitting others -> length u = n -> forall w, length (inputs others u w) = tsize w.
Proof. intros Fo Hu [|w]; cbn [inputs]; [|apply Fo]. destruct R0 as (_ & E & _). congruence. Qed.
Lemma wf_inputs others u : fitting others -> length u = n -> wf f n (fun w => length (inputs others u w)).
Proof.
  intros Fo Hu. destruct R0 as (W & _). intros Ig HI. destruct (W Ig HI) as (A & B & C & D). split; [exact A|]. split; [|split; auto].
  intros w r Hr. rewrite (inputs_fit others u Fo Hu). now apply (B w).
Qed.
Lemma same_refl m : same_material m m.
Proof. intros k g e q. reflexivity. Qed.
Lemma same_trans m1 m2 m3 : same_material m1 m2 -> same_material m2 m3 -> same_material m1 m3.
Proof. intros A B k g e q. rewrite A. apply B. Qed.
Lemma same_sym m1 m2 : same_material m1 m2 -> same_material m2 m1.
Proof. intros A k g e q. symmetry. apply A. Qed.

(** an evaluation without updating: its value depends on the material state only, which stays as it is *)
Lemma evaluate_quiet t wrt others u m m0 : fitting others -> length u = n -> same_material m m0 ->
  exists L m', evaluate f t wrt false (inputs others u) n m = Ok (L, m') /\ same_material m' m0 /\ length L = n /\
    (forall k, (k < n)%nat -> nth k L 0 = res_sum f t (inputs others u) m0 0 (f_integrals f) k) /\
    m' = mem_sum f t wrt false (inputs others u) 0 (f_integrals f) m.
Proof.
  intros Fo Hu Sm. destruct (evaluate_spec f t wrt false (inputs others u) n m (wf_inputs others u Fo Hu)) as (L & A & B & C).
  exists L, (mem_sum f t wrt false (inputs others u) 0 (f_integrals f) m). split; [exact A|]. split; [|split; [exact B|split; [|reflexivity]]].
  - intros k g e q. rewrite mem_sum_q. cbn [andb]. rewrite <- Sm.
    destruct (if Nat.ltb k 0 then None else nth_error (f_integrals f) (k - 0)) as [Ig|]; [|reflexivity].
    destruct (nth_error (i_geoms Ig) g); reflexivity.
  - intros k Hk. rewrite C by exact Hk. apply res_sum_mem. intros n' _.
    apply functional_extensionality; intros g. apply functional_extensionality; intros e. apply functional_extensionality; intros q. apply Sm.
Qed.
Lemma same_list (L L' : list R) : length L = n -> length L' = n -> (forall k, (k < n)%nat -> nth k L 0 = nth k L' 0) -> L = L'.
Proof. intros A B C. apply (nth_ext _ _ 0 0); [congruence|]. intros k Hk. apply C. lia. Qed.
Lemma force_value t wrt others u m m0 L m' L0 : fitting others -> length u = n -> same_material m m0 ->
  evaluate f t wrt false (inputs others u) n m = Ok (L, m') -> force t others m0 u L0 -> L = L0.
Proof.
  intros Fo Hu Sm E (m1 & E0).
  destruct (evaluate_quiet t wrt others u m m0 Fo Hu Sm) as (L1 & m2 & A & _ & B & C & _).
  destruct (evaluate_quiet t None others u m0 m0 Fo Hu (same_refl m0)) as (L2 & m3 & A' & _ & B' & C' & _).
  rewrite A in E. injection E as E1 _. rewrite A' in E0. injection E0 as E2 _. rewrite <- E1, <- E2.
  apply same_list; auto. intros k Hk. now rewrite C, C'.
Qed.
Lemma force_exists t others u m : fitting others -> length u = n -> exists L, force t others m u L /\ length L = n.
Proof.
  intros Fo Hu. destruct (evaluate_quiet t None others u m m Fo Hu (same_refl m)) as (L & m' & A & _ & B & _).
  exists L. split; [now exists m'|exact B].
Qed.

(** the assembled matrix depends on the material state only *)
Lemma K_same v t Ls m m0 m1 m2 g : stored_at f v t Ls m m1 -> stored_at f v t Ls m0 m2 -> same_material m m0 ->
  forall dt ints k, (forall j Ig, nth_error ints j = Some Ig -> nth_error (f_integrals f) (k + j) = Some Ig) ->
  K_sum v m1 dt k ints g = K_sum v m2 dt k ints g.
Proof.
  intros S1 S2 Sm dt. induction ints as [|Ig ints IH]; intros k H; [reflexivity|].
  apply functional_extensionality; intros e. apply functional_extensionality; intros l. apply functional_extensionality; intros J.
  apply functional_extensionality; intros i. apply functional_extensionality; intros kk. cbn [K_sum].
  assert (HI : nth_error (f_integrals f) k = Some Ig) by (rewrite <- (Nat.add_0_r k); apply H; reflexivity).
  f_equal.
  - destruct (is_type dt Ig); [|reflexivity]. unfold K_integral. destruct (index_of (i_active Ig) v) as [s|] eqn:Es; [|reflexivity].
    destruct (nth_error (i_geoms Ig) g) as [G|] eqn:EG; [|reflexivity]. apply sumn_ext. intros le Hle. destruct (Nat.eqb _ e); [|reflexivity].
    unfold elem_grad, integrate. apply sumn_ext. intros q Hq.
    rewrite (S1 k Ig s g G le q HI Es EG Hle Hq), (S2 k Ig s g G le q HI Es EG Hle Hq), Sm. reflexivity.
  - assert (X := IH (S k)). rewrite X; [reflexivity|]. intros j Ig' Hj. rewrite Nat.add_succ_comm. now apply H.
Qed.
Lemma items_same v t Ls m m0 m1 m2 : stored_at f v t Ls m m1 -> stored_at f v t Ls m0 m2 -> same_material m m0 -> all_items f v m1 = all_items f v m2.
Proof.
  intros S1 S2 Sm. assert (X : forall dt, type_items f v m1 dt = type_items f v m2 dt); [|unfold all_items; now rewrite !X].
  intros dt. unfold type_items. destruct (existsb _ _); [|reflexivity]. f_equal. apply functional_extensionality. intros g.
  destruct (nth_error (f_test f dt) g); [|reflexivity]. destruct (nth_error (f_trial f v dt) g); [|reflexivity].
  rewrite (K_same v t Ls m m0 m1 m2 g S1 S2 Sm dt (f_integrals f) 0); [reflexivity|]. intros j Ig H. exact H.
Qed.
Lemma stored_written_for v t Ls m m1 : stored_at f v t Ls m m1 -> all_written f v m1.
Proof. intros S k Ig s g G e q A B C D E. rewrite (S k Ig s g G e q A B C D E). discriminate. Qed.
Lemma stored_written t Ls m m1 : stored_at f 0 t Ls m m1 -> all_written f 0 m1.
Proof. apply stored_written_for. Qed.
Lemma assemble_ok t Ls m m1 : stored_at f 0 t Ls m m1 -> exists V, assemble f 0 m1 c = Ok V.
Proof.
  intros S. destruct R0 as (_ & _ & W & SE & V & Z & B).
  destruct (assembled_agrees f 0 m1 c n n W SE (stored_written t Ls m m1 S) V Z B) as (Vs & A & _). now exists Vs.
Qed.
Lemma assemble_same_for v cc t Ls m m0 m1 m2 : stored_at f v t Ls m m1 -> stored_at f v t Ls m0 m2 -> same_material m m0 -> assemble f v m1 cc = assemble f v m2 cc.
Proof.
  intros S1 S2 Sm. unfold assemble. rewrite (items_same v t Ls m m0 m1 m2 S1 S2 Sm).
  rewrite !derivs_written_ok; [reflexivity| |]; intros k Ig s g G e q;
    [apply (stored_written_for v t Ls m0 m2 S2)|apply (stored_written_for v t Ls m m1 S1)].
Qed.
Lemma assemble_same t Ls m m0 m1 m2 : stored_at f 0 t Ls m m1 -> stored_at f 0 t Ls m0 m2 -> same_material m m0 -> assemble f 0 m1 c = assemble f 0 m2 c.
Proof. apply assemble_same_for. Qed.
Lemma tangent_exists t others u m : fitting others -> length u = n -> exists A, tangent t others m u A.
Proof.
  intros Fo Hu. destruct (evaluate_quiet t (Some 0%nat) others u m m Fo Hu (same_refl m)) as (L & m' & A & _ & _ & _ & E).
  assert (S := mem_sum_stored f 0 t false (inputs others u) m). rewrite <- E in S. destruct (assemble_ok _ _ _ _ S) as (V & B).
  exists (csr_entry c V), L, m', V. auto.
Qed.
Lemma jacobian_value t others x m m0 A : fitting others -> same_material m m0 -> tangent t others m0 (tab n x) A ->
  exists m', jacobian t others x m = Ok (A, m') /\ same_material m' m0.
Proof.
  intros Fo Sm (L0 & m1 & V & E0 & B0 & ->). assert (Hu := tab_length n x).
  destruct (evaluate_quiet t (Some 0%nat) others (tab n x) m m0 Fo Hu Sm) as (L & m' & E & Sm' & _ & _ & Em).
  destruct (evaluate_quiet t (Some 0%nat) others (tab n x) m0 m0 Fo Hu (same_refl m0)) as (L2 & m2 & E2 & _ & _ & _ & Em2).
  rewrite E2 in E0. injection E0 as _ Q. subst m1.
  assert (S1 := mem_sum_stored f 0 t false (inputs others (tab n x)) m). rewrite <- Em in S1.
  assert (S2 := mem_sum_stored f 0 t false (inputs others (tab n x)) m0). rewrite <- Em2 in S2.
  exists m'. split; [|exact Sm']. unfold jacobian. rewrite E. cbn [bindO snd]. rewrite (assemble_same _ _ _ _ _ _ S1 S2 Sm), B0. reflexivity.
Qed.
Lemma residual_value t others x m m0 L : fitting others -> same_material m m0 -> force t others m0 (tab n x) L ->
  exists m', residual_op t others x m = Ok (zeroed bc (entries L), m') /\ same_material m' m0.
Proof.
  intros Fo Sm HL. assert (Hu := tab_length n x).
  destruct (evaluate_quiet t None others (tab n x) m m0 Fo Hu Sm) as (L1 & m' & E & Sm' & _).
  rewrite (force_value t None others (tab n x) m m0 L1 m' L Fo Hu Sm E HL) in E. exists m'. split; [|exact Sm'].
  unfold residual_op. rewrite E. reflexivity.
Qed.

(** the residual and the Jacobian of a step are functions of the displacement, which the evaluations do not disturb *)
Theorem solve_pure t others m0 F J : fitting others -> of_material m0 t others F J ->
  forall s m, same_material m m0 -> exists m', solve t others s m = Ok (pure F J s, m') /\ same_material m' m0.
Proof.
  intros Fo [HF HJ]. induction s as [x b|x k IH|x k IH]; intros m Sm.
  - exists m. split; [reflexivity|exact Sm].
  - destruct (HF x) as (L & A & B). destruct (residual_value t others x m m0 L Fo Sm A) as (m1 & C & D).
    destruct (IH (F x) m1 D) as (m2 & E1 & E2). exists m2. split; [|exact E2]. cbn [solve pure]. rewrite C. cbn [bindO fst snd]. now rewrite <- B.
  - destruct (HJ x) as (A & B & C). destruct (jacobian_value t others x m m0 A Fo Sm B) as (m1 & D1 & D2).
    destruct (IH (J x) m1 D2) as (m2 & E1 & E2). exists m2. split; [|exact E2]. cbn [solve pure]. unfold jacobian_op. rewrite D1.
    cbn [bindO fst snd]. now rewrite <- C.
Qed.
Theorem material_exists t others m : fitting others -> exists F J, of_material m t others F J.
Proof.
  intros Fo.
  exists (fun x => zeroed bc (entries (match evaluate f t None false (inputs others (tab n x)) n m with Ok p => fst p | _ => [] end))).
  exists (fun x => eliminate bc (match jacobian t others x m with Ok p => fst p | _ => fun _ _ => 0 end)). split; intros x.
  - destruct (force_exists t others (tab n x) m Fo (tab_length n x)) as (L & A & _). exists L. split; [exact A|]. destruct A as (m' & ->). reflexivity.
  - destruct (tangent_exists t others (tab n x) m Fo (tab_length n x)) as (A & B). exists A. split; [exact B|].
    destruct (jacobian_value t others x m m A Fo (same_refl m) B) as (m' & -> & _). reflexivity.
Qed.

(** ** one step *)
Definition begins (ld : load) (s : state) (x : vec) : Prop :=
  let t' := s_t s + l_dt ld in
  if l_warm ld then exists r A, force t' (l_others ld) (s_mem s) (s_u s) r /\ tangent (s_t s) (previous ld s) (s_mem s) (s_u s) A /\
    x = warm_start n bc (l_lin ld) true A (entries r) (target t') (entries (s_u s))
  else forall i, x i = if bc i then target t' i else entries (s_u s) i.
(** what a step does, without mentioning the evaluations in between *)
Record advances (ld : load) (s s' : state) (ok : bool) : Prop := {
  adv_time : s_t s' = s_t s + l_dt ld;
  adv_cycle : s_cycle s' = S (s_cycle s);
  adv_solve : forall F J, of_material (s_mem s) (s_t s') (l_others ld) F J ->
    exists x0 x, begins ld s x0 /\ pure F J (l_solver ld x0) = (x, ok) /\ s_u s' = tab n x;
  adv_react : force (s_t s') (l_others ld) (s_mem s) (s_u s') (s_react s');
  adv_material : material_step (s_t s') (l_others ld) (s_u s') (s_mem s) (s_mem s');
  adv_saved : s_saved s' = s_saved s ++ [s_u s'];
  adv_prev : s_prev s' = previous ld s;
}.

Lemma tab_entries u : length u = n -> tab n (entries u) = u.
Proof. intros H. apply same_list; [apply tab_length|exact H|]. intros k Hk. now rewrite nth_tab. Qed.
Lemma previous_fits ld s : sound s -> fitting (l_others ld) -> fitting (previous ld s).
Proof. intros [_ A] B. unfold previous. destruct (Nat.eqb_spec (s_cycle s) 0); [exact B|]. apply A. lia. Qed.
Lemma warm_up_ok ld s : sound s -> fitting (l_others ld) ->
  exists x m, warm_up ld s = Ok (x, m) /\ begins ld s x /\ same_material m (s_mem s).
Proof.
  intros Sd Fo. destruct Sd as [Hu Hp] eqn:E. unfold warm_up, begins. destruct (l_warm ld).
  - rewrite (tab_entries _ Hu).
    destruct (evaluate_quiet (s_t s + l_dt ld) None (l_others ld) (s_u s) (s_mem s) (s_mem s) Fo Hu (same_refl _)) as (L & m1 & A & B & _).
    destruct (tangent_exists (s_t s) (previous ld s) (s_u s) (s_mem s) (previous_fits ld s Sd Fo) Hu) as (K & HK).
    assert (HK' := HK). rewrite <- (tab_entries _ Hu) in HK'.
    destruct (jacobian_value (s_t s) (previous ld s) (entries (s_u s)) m1 (s_mem s) K (previous_fits ld s Sd Fo) B HK') as (m2 & C & D).
    rewrite A. cbn [bindO fst snd]. rewrite C. cbn [bindO fst snd]. eexists _, m2. split; [reflexivity|]. split; [|exact D].
    exists L, K. split; [now exists m1|]. split; [exact HK|reflexivity].
  - eexists _, (s_mem s). split; [reflexivity|]. split; [|apply same_refl]. intros i. apply cold_start_ok.
Qed.
Theorem step_ok ld s : sound s -> fitting (l_others ld) ->
  exists s' ok, step ld s = Ok (s', ok) /\ advances ld s s' ok /\ sound s' /\ s_files s' = s_files s ++ [(s_u s', s_react s)].
Proof.
  intros Sd Fo. destruct (warm_up_ok ld s Sd Fo) as (x0 & m1 & A & B & C). set (t' := s_t s + l_dt ld).
  destruct (material_exists t' (l_others ld) (s_mem s) Fo) as (F & J & HFJ).
  destruct (solve_pure t' (l_others ld) (s_mem s) F J Fo HFJ (l_solver ld x0) m1 C) as (m2 & D & E).
  destruct (pure F J (l_solver ld x0)) as [x ok] eqn:EP. assert (Hu := tab_length n x).
  destruct (evaluate_spec f t' None true (inputs (l_others ld) (tab n x)) n m2 (wf_inputs _ _ Fo Hu)) as (L & G & HL & GL).
  exists {| s_u := tab n x; s_t := t'; s_cycle := S (s_cycle s); s_mem := mem_sum f t' None true (inputs (l_others ld) (tab n x)) 0 (f_integrals f) m2;
            s_prev := previous ld s; s_react := L; s_saved := s_saved s ++ [tab n x]; s_files := s_files s ++ [(tab n x, s_react s)] |}, ok.
  split; [|split; [|split]].
  - unfold step. rewrite A. cbn [bindO fst snd]. fold t'. rewrite D. cbn [bindO fst snd]. rewrite G. reflexivity.
  - constructor; cbn [s_t s_cycle s_mem s_u s_prev s_react s_saved]; try reflexivity.
    + intros F' J' HFJ'. exists x0, x. split; [exact B|]. split; [|reflexivity].
      destruct (solve_pure t' (l_others ld) (s_mem s) F' J' Fo HFJ' (l_solver ld x0) m1 C) as (m3 & D' & _).
      rewrite D in D'. injection D' as Q _. now symmetry.
    + destruct (force_exists t' (l_others ld) (tab n x) (s_mem s) Fo Hu) as (L0 & H0 & H1).
      replace L with L0; [exact H0|]. destruct H0 as (m3 & H0).
      destruct (evaluate_quiet t' None (l_others ld) (tab n x) (s_mem s) (s_mem s) Fo Hu (same_refl _)) as (L1 & m4 & P1 & _ & P2 & P3 & _).
      rewrite P1 in H0. injection H0 as Q _. rewrite <- Q. apply same_list; auto. intros k Hk. rewrite P3, GL by exact Hk.
      symmetry. apply res_sum_mem. intros n' _.
      apply functional_extensionality; intros g. apply functional_extensionality; intros e. apply functional_extensionality; intros q. apply E.
    + split; [|intros k g e q H; rewrite mem_sum_q, ltb_0, Nat.sub_0_r; rewrite E; destruct (nth_error (f_integrals f) k) as [Ig|] eqn:H1; [|reflexivity];
        destruct (nth_error (i_geoms Ig) g) as [G'|] eqn:H2; [|reflexivity]; cbn [andb];
        destruct (Nat.ltb_spec e (length (gk_elems G'))), (Nat.ltb_spec q (gk_nq G')); cbn [andb]; try reflexivity; exfalso; now apply (H Ig G')].
      intros k Ig g G' e q H1 H2 H3 H4. rewrite mem_sum_q. rewrite ltb_0, Nat.sub_0_r, H1, H2. cbn [andb].
      apply Nat.ltb_lt in H3, H4. rewrite H3, H4. cbn [andb]. now rewrite E.
  - split; cbn [s_u s_cycle s_prev]; [exact Hu|]. intros _. now apply previous_fits.
  - reflexivity.
Qed.
Theorem step_advances ld s s' ok : sound s -> fitting (l_others ld) -> step ld s = Ok (s', ok) -> advances ld s s' ok /\ sound s'.
Proof.
  intros Sd Fo E. destruct (step_ok ld s Sd Fo) as (s1 & ok1 & A & B & C & _). rewrite A in E. injection E as <- <-. auto.
Qed.

(** ** runs *)
Fixpoint chain (loads : list load) (s : state) (l : list state) : Prop :=
  match loads, l with
  | [], [] => True
  | ld :: loads', s' :: l' => (exists ok, advances ld s s' ok) /\ chain loads' s' l'
  | _, _ => False
  end.
Theorem run_ok loads : forall s, sound s -> List.Forall (fun ld => fitting (l_others ld)) loads ->
  exists l, run_steps loads s = Ok l /\ chain loads s l.
Proof.
  induction loads as [|ld loads IH]; intros s Sd Fo; [exists []; split; [reflexivity|exact Logic.I]|].
  apply Forall_cons_iff in Fo as [F1 F2]. destruct (step_ok ld s Sd F1) as (s' & ok & A & B & C & _).
  destruct (IH s' C F2) as (l & D & E). exists (s' :: l). split.
  - cbn [run_steps]. rewrite A. cbn [bindO fst snd]. rewrite D. reflexivity.
  - split; [now exists ok|exact E].
Qed.
Lemma run_chain loads s l : sound s -> List.Forall (fun ld => fitting (l_others ld)) loads -> run_steps loads s = Ok l -> chain loads s l.
Proof. intros Sd Fo E. destruct (run_ok loads s Sd Fo) as (l' & A & B). rewrite A in E. now injection E as <-. Qed.

(** the material at one quadrature point over a run *)
Definition final (s : state) (l : list state) : state := last l s.
Fixpoint point_history (Ig : integral St) (G : gkernel St) (g e q : nat) (loads : list load) (l : list state) (st : St) : St :=
  match loads, l with
  | ld :: loads', s' :: l' => point_history Ig G g e q loads' l'
      (snd (gk_qf G e q (s_t s') (qf_inputs G g (Es_of f (inputs (l_others ld) (s_u s')) Ig) e q) st))
  | _, _ => st
  end.
Lemma final_cons s s' l : final s (s' :: l) = final s' l.
Proof. unfold final. destruct l as [|a l]; [reflexivity|]. change (last (s' :: a :: l) s) with (last (a :: l) s). revert a. induction l as [|b l IH]; intros a; [reflexivity|].
  change (last (a :: b :: l) s) with (last (b :: l) s). change (last (a :: b :: l) s') with (last (b :: l) s'). apply IH. Qed.
Theorem material_history loads : forall s l, sound s -> List.Forall (fun ld => fitting (l_others ld)) loads -> run_steps loads s = Ok l ->
  forall k Ig g G e q, nth_error (f_integrals f) k = Some Ig -> nth_error (i_geoms Ig) g = Some G -> (e < length (gk_elems G))%nat -> (q < gk_nq G)%nat ->
  m_q (s_mem (final s l)) k g e q = point_history Ig G g e q loads l (m_q (s_mem s) k g e q).
Proof.
  intros s l Sd Fo E. assert (C := run_chain loads s l Sd Fo E). clear Sd Fo E. revert s l C.
  induction loads as [|ld loads IH]; intros s l C k Ig g G e q H1 H2 H3 H4.
  - destruct l; [reflexivity|contradiction].
  - destruct l as [|s' l]; [contradiction|]. destruct C as [(ok & A) C]. rewrite final_cons, (IH s' l C k Ig g G e q H1 H2 H3 H4).
    cbn [point_history]. f_equal. apply (proj1 (adv_material _ _ _ _ A)); assumption.
Qed.

(** ** the way to the solution leaves no trace: two runs under the same loading whose steps end at the same displacements, whatever their
    nonlinear and linear solvers, line searches and warm starts did in between, agree in everything a user can see *)
Definition same_loading (ld ld' : load) : Prop := l_dt ld = l_dt ld' /\ l_others ld = l_others ld'.
Definition observed_alike (s s' : state) : Prop :=
  s_u s = s_u s' /\ s_t s = s_t s' /\ s_cycle s = s_cycle s' /\ s_react s = s_react s' /\ same_material (s_mem s) (s_mem s').
Lemma material_step_same t others u m1 m2 m1' m2' : same_material m1 m2 -> material_step t others u m1 m1' -> material_step t others u m2 m2' ->
  same_material m1' m2'.
Proof.
  intros Sm [A B] [A' B'] k g e q.
  destruct (nth_error (f_integrals f) k) as [Ig|] eqn:H1; [|rewrite B, B' by (intros; congruence); apply Sm].
  destruct (nth_error (i_geoms Ig) g) as [G|] eqn:H2; [|rewrite B, B' by (intros; congruence); apply Sm].
  destruct (Nat.lt_ge_cases e (length (gk_elems G))) as [H3|H3]; [destruct (Nat.lt_ge_cases q (gk_nq G)) as [H4|H4]|].
  - rewrite (A k Ig g G e q H1 H2 H3 H4), (A' k Ig g G e q H1 H2 H3 H4), Sm. reflexivity.
  - rewrite B, B'; [apply Sm| |]; intros Ig' G' E1 E2; rewrite H1 in E1; injection E1 as <-; rewrite H2 in E2; injection E2 as <-; lia.
  - rewrite B, B'; [apply Sm| |]; intros Ig' G' E1 E2; rewrite H1 in E1; injection E1 as <-; rewrite H2 in E2; injection E2 as <-; lia.
Qed.
Lemma advances_length ld s s' ok : fitting (l_others ld) -> advances ld s s' ok -> length (s_u s') = n.
Proof.
  intros Fo A. destruct (material_exists (s_t s') (l_others ld) (s_mem s) Fo) as (F & J & H). destruct (adv_solve _ _ _ _ A F J H) as (x0 & x & _ & _ & ->).
  apply tab_length.
Qed.
Theorem solver_invisible loads : forall loads' s1 s2 l1 l2, sound s1 -> sound s2 ->
  List.Forall (fun ld => fitting (l_others ld)) loads -> List.Forall2 same_loading loads loads' -> observed_alike s1 s2 ->
  run_steps loads s1 = Ok l1 -> run_steps loads' s2 = Ok l2 -> map s_u l1 = map s_u l2 -> List.Forall2 observed_alike l1 l2.
Proof.
  intros loads' s1 s2 l1 l2 D1 D2 Fo L O E1 E2. assert (Fo' : List.Forall (fun ld => fitting (l_others ld)) loads').
  { clear - Fo L. induction L as [|a b la lb [_ H] _ IH]; [constructor|]. apply Forall_cons_iff in Fo as [F1 F2]. constructor; [now rewrite <- H|auto]. }
  assert (C1 := run_chain loads s1 l1 D1 Fo E1). assert (C2 := run_chain loads' s2 l2 D2 Fo' E2). clear E1 E2 D1 D2.
  revert s1 s2 l1 l2 O C1 C2. induction L as [|a b la lb [H1 H2] _ IH]; intros s1 s2 l1 l2 O C1 C2 U.
  - destruct l1; [|contradiction]. destruct l2; [constructor|contradiction].
  - destruct l1 as [|x1 l1]; [contradiction|]. destruct l2 as [|x2 l2]; [contradiction|]. injection U as U0 U.
    destruct C1 as [(o1 & A1) C1], C2 as [(o2 & A2) C2]. apply Forall_cons_iff in Fo as [F1 F2]. apply Forall_cons_iff in Fo' as [F1' F2'].
    destruct O as (O1 & O2 & O3 & O4 & O5).
    assert (T : s_t x1 = s_t x2) by (rewrite (adv_time _ _ _ _ A1), (adv_time _ _ _ _ A2); congruence).
    assert (X : observed_alike x1 x2).
    { split; [exact U0|]. split; [exact T|]. split; [rewrite (adv_cycle _ _ _ _ A1), (adv_cycle _ _ _ _ A2); congruence|]. split.
      - destruct (adv_react _ _ _ _ A1) as (m1 & E1). apply (force_value (s_t x1) None (l_others a) (s_u x1) (s_mem s1) (s_mem s2) (s_react x1) m1 (s_react x2)); auto.
        + apply (advances_length a s1 x1 o1 F1 A1).
        + assert (Q := adv_react _ _ _ _ A2). now rewrite <- U0, <- T, <- H2 in Q.
      - assert (M1 := adv_material _ _ _ _ A1). assert (M2 := adv_material _ _ _ _ A2). rewrite <- U0, <- T, <- H2 in M2.
        eapply material_step_same; eauto. }
    constructor; [exact X|]. eapply IH; eauto.
Qed.
End Run.
