(** * Adjoint problems (C25, C26, C27)

    reverseAdjointTimestep of solid_mechanics.hpp and heat_transfer.hpp, adjoint_integrate of solid_mechanics.cpp and the
    sensitivities computed from the adjoint state, over the reals.  Matrices are functions of their indices, [n] true dofs,
    [np] parameter dofs.  [bcs] are the essential conditions, each a set of dofs.  [lin] is the linear solver. *)
From Coq Require Import Reals Lra Lia Bool List.
From Verif Require Import Sums Tensor MatAlg BoundaryElim.
Import ListNotations.
Local Open Scope R_scope.

Definition vz : vec := fun _ => 0.
(** "J_T = J->Transpose(); for bc: bc.apply(J_T, load, adjoint_essential = 0); lin_solver.Mult(load, adjoint)":
    solid_mechanics.hpp:1362-1374, solid_mechanics.cpp:36-56, heat_transfer.hpp:864-874 and 893-909 *)
Definition adjoint_system (n : nat) (bcs : list dofset) (J : mat) (load : vec) : mat * vec :=
  apply_all n vz bcs (transpose J, load).
Definition adjoint_solve (n : nat) (bcs : list dofset) (lin : mat -> vec -> vec) (J : mat) (load : vec) : vec :=
  let s := adjoint_system n bcs J load in lin (fst s) (snd s).
(** the linear solver is exact on the systems of [J] *)
Definition lin_ok (n : nat) (bcs : list dofset) (lin : mat -> vec -> vec) (J : mat) : Prop := forall load,
  solution n (fst (adjoint_system n bcs J load)) (snd (adjoint_system n bcs J load)) (adjoint_solve n bcs lin J load).

(** "drdparam_mat->MultTranspose(adjoint, sensitivity)": solid_mechanics.hpp:1407-1418, 1420-1431, heat_transfer.hpp:934-960 *)
Definition sensitivity (n : nat) (drdp : mat) (lambda : vec) : vec := fun k => sumn n (fun i => drdp i k * lambda i).

(** quasi-static adjoint; [qu] is the load the user passes to setAdjointLoad, which stores its negative
    (solid_mechanics.hpp:1318-1320, heat_transfer.hpp:801-803) *)
Definition static_adjoint (n : nat) (bcs : list dofset) (lin : mat -> vec -> vec) (J : mat) (qu : vec) : vec :=
  adjoint_solve n bcs lin J (fun i => - qu i).
(** computeDualAdjointLoad (solid_mechanics.hpp:1469-1481): the load J^T d for the objective d . reactions *)
Definition reaction_load (n : nat) (J : mat) (d : vec) : vec := mvec n (transpose J) d.

(** ** specification of linear algebra *)
Definition rows (n m : nat) (A : mat) (x : vec) : vec := fun i => sumn m (fun j => A i j * x j).

Lemma vdot_ext n x y x' y' : (forall i, (i < n)%nat -> x i * y i = x' i * y' i) -> vdot n x y = vdot n x' y'.
Proof. intros H. unfold vdot. now apply sumn_ext. Qed.
Lemma vdot_plus_r n x y z : vdot n x (fun i => y i + z i) = vdot n x y + vdot n x z.
Proof. unfold vdot. rewrite <- sumn_plus. apply sumn_ext. intros; ring. Qed.
Lemma vdot_plus_l n x y z : vdot n (fun i => x i + y i) z = vdot n x z + vdot n y z.
Proof. unfold vdot. rewrite <- sumn_plus. apply sumn_ext. intros; ring. Qed.
Lemma vdot_scal_r n c x y : vdot n x (fun i => c * y i) = c * vdot n x y.
Proof. unfold vdot. rewrite <- sumn_scal_l. apply sumn_ext. intros; ring. Qed.
Lemma vdot_scal_l n c x y : vdot n (fun i => c * x i) y = c * vdot n x y.
Proof. unfold vdot. rewrite <- sumn_scal_l. apply sumn_ext. intros; ring. Qed.
Lemma vdot_opp_l n x y : vdot n (fun i => - x i) y = - vdot n x y.
Proof. unfold vdot. rewrite <- sumn_opp. apply sumn_ext. intros; ring. Qed.
Lemma vdot_zero_r n x : vdot n x vz = 0.
Proof. unfold vdot, vz. apply sumn_zero. intros; ring. Qed.
Lemma vdot_zero_l n x : vdot n vz x = 0.
Proof. unfold vdot, vz. apply sumn_zero. intros; ring. Qed.
Lemma vdot_sym n x y : vdot n x y = vdot n y x.
Proof. apply vdot_ext. intros; ring. Qed.
Lemma vdot_rows n m A x y : vdot n x (rows n m A y) = vdot m (sensitivity n A x) y.
Proof.
  unfold vdot, rows, sensitivity. rewrite (sumn_ext n _ (fun i => sumn m (fun j => x i * A i j * y j))).
  2:{ intros i _. rewrite <- sumn_scal_l. apply sumn_ext. intros; ring. }
  rewrite sumn_swap. apply sumn_ext. intros j _. rewrite <- sumn_scal_r. apply sumn_ext. intros; ring.
Qed.
Lemma sensitivity_transpose n A x i : mvec n (transpose A) x i = sensitivity n A x i.
Proof. reflexivity. Qed.
Lemma rows_square n A x i : rows n n A x i = mvec n A x i.
Proof. reflexivity. Qed.

Lemma adjoint_solve_ok n bcs lin J load : lin_ok n bcs lin J ->
  constrained_solution n (any bcs) vz (transpose J) load (adjoint_solve n bcs lin J load).
Proof. intros L. assert (X := L load). unfold adjoint_system in X. now apply apply_all_iff in X. Qed.

(** the adjoint pairs with variations *)
Lemma adjoint_pairing n (d : dofset) J w (lam dx : vec) :
  (forall i, (i < n)%nat -> d i = false -> mvec n (transpose J) lam i = - w i) ->
  (forall i, (i < n)%nat -> d i = true -> dx i = 0) ->
  vdot n w dx = - vdot n lam (mvec n J dx).
Proof.
  intros A Z. change (mvec n J dx) with (rows n n J dx). rewrite vdot_rows, <- vdot_opp_l. apply vdot_ext. intros i Hi.
  destruct (d i) eqn:E; [rewrite (Z i Hi E); ring|]. rewrite <- sensitivity_transpose, (A i Hi E). ring.
Qed.
Lemma lambda_rows n (d : dofset) lam r r' : (forall i, (i < n)%nat -> d i = true -> lam i = 0) ->
  (forall i, (i < n)%nat -> d i = false -> r i = r' i) -> vdot n lam r = vdot n lam r'.
Proof. intros Z E. apply vdot_ext. intros i Hi. destruct (d i) eqn:D; [rewrite (Z i Hi D); ring|now rewrite (E i Hi D)]. Qed.

(** ** quasi-static (C27) *)
(** tangent of an equilibrium path: linearised residual zero at free dofs, constrained dofs fixed *)
Definition static_tangent (n np : nat) (d : dofset) (J P : mat) (du dp : vec) : Prop :=
  (forall i, (i < n)%nat -> d i = false -> rows n n J du i + rows n np P dp i = 0) /\
  (forall i, (i < n)%nat -> d i = true -> du i = 0).
Theorem static_adjoint_equations n bcs lin J qu : lin_ok n bcs lin J ->
  (forall i, (i < n)%nat -> any bcs i = true -> static_adjoint n bcs lin J qu i = 0) /\
  (forall i, (i < n)%nat -> any bcs i = false -> mvec n (transpose J) (static_adjoint n bcs lin J qu) i = - qu i).
Proof. intros L. exact (adjoint_solve_ok n bcs lin J (fun i => - qu i) L). Qed.
Theorem static_sensitivity n np bcs lin J P qu du dp : lin_ok n bcs lin J -> static_tangent n np (any bcs) J P du dp ->
  vdot n qu du = vdot np (sensitivity n P (static_adjoint n bcs lin J qu)) dp.
Proof.
  intros L [T F]. destruct (static_adjoint_equations n bcs lin J qu L) as [Z A].
  set (lam := static_adjoint n bcs lin J qu) in *.
  rewrite (adjoint_pairing n (any bcs) J qu lam du A F), <- vdot_rows.
  rewrite (lambda_rows n (any bcs) lam (mvec n J du) (fun i => - 1 * rows n np P dp i) Z).
  - rewrite vdot_scal_r. ring.
  - intros i Hi E. assert (X := T i Hi E). rewrite rows_square in X. lra.
Qed.
(** objective d . R(u, p) (reactions) *)
Theorem reaction_sensitivity n np bcs lin J P d du dp : lin_ok n bcs lin J -> static_tangent n np (any bcs) J P du dp ->
  vdot n d (fun i => rows n n J du i + rows n np P dp i) =
  vdot np (fun k => sensitivity n P (static_adjoint n bcs lin J (reaction_load n J d)) k + sensitivity n P d k) dp.
Proof.
  intros L T. rewrite vdot_plus_r, vdot_plus_l, (vdot_rows n n), (vdot_rows n np). f_equal.
  apply (static_sensitivity n np bcs lin J P (reaction_load n J d) du dp L T).
Qed.

(** ** transient heat conduction (C26) *)
(** one time step as the reverse pass sees it: matrices at its end state, loads given by the user for it *)
Record heat_step := { h_dt : R; h_K : mat; h_M : mat; h_P : mat; h_qu : vec; h_qv : option vec }.
(** implicit_sensitivity_temperature_start_of_step_, temperature_rate_adjoint_load_ and the adjoint temperatures found *)
Record heat_adjoint := { ha_mu : vec; ha_rate_load : vec; ha_lambdas : list vec }.
Definition heat_J (s : heat_step) : mat := fun i j => h_M s i j + h_dt s * h_K s i j.
(** heat_transfer.hpp:789-808 setAdjointLoad: a missing rate load leaves the old one *)
Definition rate_load (old : vec) (q : option vec) : vec := match q with Some q => fun i => - q i | None => old end.
(** heat_transfer.hpp:876-917 reverseAdjointTimestep, transient *)
Definition heat_reverse_step (n : nat) (bcs : list dofset) (lin : mat -> vec -> vec) (s : heat_step) (a : heat_adjoint) : heat_adjoint :=
  let tl : vec := fun i => - h_qu s i in
  let rl := rate_load (ha_rate_load a) (h_qv s) in
  let rhs : vec := fun i => h_dt s * tl i + 1 * rl i + - h_dt s * ha_mu a i in
  let lam := adjoint_solve n bcs lin (heat_J s) rhs in
  {| ha_mu := fun i => mvec n (h_M s) lam i * (- 1 / h_dt s) + 1 / h_dt s * rl i;
     ha_rate_load := rl; ha_lambdas := lam :: ha_lambdas a |}.
(** steps in forward order; the reverse pass starts at the last one *)
Fixpoint heat_reverse (n : nat) (bcs : list dofset) (lin : mat -> vec -> vec) (steps : list heat_step) : heat_adjoint :=
  match steps with
  | [] => {| ha_mu := vz; ha_rate_load := vz; ha_lambdas := [] |}
  | s :: rest => heat_reverse_step n bcs lin s (heat_reverse n bcs lin rest)
  end.
(** the user's sum of the sensitivities of every step *)
Fixpoint total_sensitivity {A} (n : nat) (P : A -> mat) (steps : list A) (lams : list vec) : vec :=
  match steps, lams with
  | s :: rest, lam :: lams' => fun k => sensitivity n (P s) lam k + total_sensitivity n P rest lams' k
  | _, _ => vz
  end.

(** specification: variations of one backward Euler step after another.  [direct]: constrained temperatures do not vary;
    otherwise constrained rates do not vary. *)
Fixpoint heat_tangent (n np : nat) (d : dofset) (direct : bool) (du0 dp : vec) (steps : list heat_step) (var : list (vec * vec)) : Prop :=
  match steps, var with
  | [], [] => True
  | s :: rest, (du, dv) :: var' =>
      (forall i, (i < n)%nat -> du i = du0 i + h_dt s * dv i) /\
      (forall i, (i < n)%nat -> d i = false -> rows n n (h_K s) du i + rows n n (h_M s) dv i + rows n np (h_P s) dp i = 0) /\
      (forall i, (i < n)%nat -> d i = true -> if direct then du i = 0 else dv i = 0) /\
      heat_tangent n np d direct du dp rest var'
  | _, _ => False
  end.
Definition rate_part (q : option vec) : vec := match q with Some q => q | None => vz end.
Fixpoint heat_objective (n : nat) (steps : list heat_step) (var : list (vec * vec)) : R :=
  match steps, var with
  | s :: rest, (du, dv) :: var' => vdot n (h_qu s) du + vdot n (rate_part (h_qv s)) dv + heat_objective n rest var'
  | _, _ => 0
  end.
(** rate loads are given for every step or for none *)
Definition uniform_loads (steps : list heat_step) : Prop :=
  (forall s, In s steps -> h_qv s <> None) \/ (forall s, In s steps -> h_qv s = None).
Definition heat_step_ok (n : nat) (bcs : list dofset) (lin : mat -> vec -> vec) (s : heat_step) : Prop :=
  h_dt s <> 0 /\ lin_ok n bcs lin (heat_J s) /\ (forall i j, (i < n)%nat -> (j < n)%nat -> h_M s i j = h_M s j i).

Lemma none_load n bcs lin steps : (forall s, In s steps -> h_qv s = None) ->
  forall i, ha_rate_load (heat_reverse n bcs lin steps) i = 0.
Proof.
  induction steps as [|s rest IH]; intros H i; [reflexivity|]. cbn [heat_reverse heat_reverse_step ha_rate_load].
  rewrite (H s (or_introl eq_refl)). cbn [rate_load]. apply IH. intros; apply H; now right.
Qed.
Lemma used_rate_load n bcs lin s rest : uniform_loads (s :: rest) ->
  forall i, rate_load (ha_rate_load (heat_reverse n bcs lin rest)) (h_qv s) i = - rate_part (h_qv s) i.
Proof.
  intros [H|H] i; assert (X := H s (or_introl eq_refl)).
  - destruct (h_qv s); [reflexivity|congruence].
  - rewrite X. cbn [rate_load rate_part]. rewrite none_load; [unfold vz; ring|]. intros; apply H; now right.
Qed.

Lemma heat_step_identity n np bcs lin s a (direct : bool) (du0 du dv dp : vec) (mu' qv : vec) :
  heat_step_ok n bcs lin s ->
  (forall i, ha_mu a i = mu' i) -> (forall i, rate_load (ha_rate_load a) (h_qv s) i = - qv i) ->
  (forall i, (i < n)%nat -> du i = du0 i + h_dt s * dv i) ->
  (forall i, (i < n)%nat -> any bcs i = false -> rows n n (h_K s) du i + rows n n (h_M s) dv i + rows n np (h_P s) dp i = 0) ->
  (forall i, (i < n)%nat -> any bcs i = true -> if direct then du i = 0 else dv i = 0 /\ du0 i = 0) ->
  vdot n (h_qu s) du + vdot n qv dv + vdot n mu' du =
  vdot n (ha_mu (heat_reverse_step n bcs lin s a)) du0 +
  vdot np (sensitivity n (h_P s) (hd vz (ha_lambdas (heat_reverse_step n bcs lin s a)))) dp.
Proof.
  intros [Nd [L Sy]] Mu Rl Kin Lin Fix. cbn [heat_reverse_step ha_mu ha_lambdas hd].
  set (lam := adjoint_solve _ _ _ _ _). set (dt := h_dt s) in *.
  set (w := fun i => dt * (h_qu s i + mu' i) + qv i).
  assert (AD : constrained_solution n (any bcs) vz (transpose (heat_J s)) (fun i => - w i) lam).
  { destruct (adjoint_solve_ok n bcs lin (heat_J s)
      (fun i => dt * - h_qu s i + 1 * rate_load (ha_rate_load a) (h_qv s) i + - dt * ha_mu a i) L) as [Z E].
    split; [exact Z|]. intros i Hi Ei. unfold lam. fold dt. rewrite (E i Hi Ei), Rl, Mu. unfold w. ring. }
  destruct AD as [Z AE]. unfold vz in Z.
  (* variations of rates with the constrained part moved to the start value *)
  set (e := fun i => dv i + / dt * du0 i).
  assert (De : forall i, (i < n)%nat -> du i = dt * e i) by (intros i Hi; rewrite (Kin i Hi); unfold e; field; exact Nd).
  assert (Ze : forall i, (i < n)%nat -> any bcs i = true -> e i = 0).
  { intros i Hi Ei. assert (F := Fix i Hi Ei). destruct direct.
    - rewrite (De i Hi) in F. apply Rmult_integral in F. destruct F; [contradiction|assumption].
    - unfold e. destruct F as [-> ->]. ring. }
  assert (Pair := adjoint_pairing n (any bcs) (heat_J s) w lam e AE Ze).
  assert (RowE : vdot n lam (mvec n (heat_J s) e) =
                 vdot n lam (fun i => / dt * mvec n (h_M s) du0 i + - 1 * rows n np (h_P s) dp i)).
  { apply (lambda_rows n (any bcs)); [exact Z|]. intros i Hi Ei. assert (X := Lin i Hi Ei).
    rewrite !rows_square in X.
    assert (Y : mvec n (heat_J s) e i = mvec n (h_K s) du i + mvec n (h_M s) dv i + / dt * mvec n (h_M s) du0 i).
    { unfold mvec. rewrite <- (sumn_scal_l n (/ dt)), <- !sumn_plus. apply sumn_ext. intros j Hj. rewrite (De j Hj).
      unfold heat_J, e. fold dt. ring. }
    rewrite Y. lra. }
  rewrite vdot_plus_r, !vdot_scal_r, (vdot_rows n np) in RowE.
  assert (MT : vdot n lam (mvec n (h_M s) du0) = vdot n (mvec n (h_M s) lam) du0).
  { change (mvec n (h_M s) du0) with (rows n n (h_M s) du0). rewrite vdot_rows. apply vdot_ext. intros i Hi. f_equal.
    unfold sensitivity, mvec. apply sumn_ext. intros j Hj. rewrite (Sy j i Hj Hi). ring. }
  assert (Lhs : vdot n (h_qu s) du + vdot n qv dv + vdot n mu' du = vdot n w e + - / dt * vdot n qv du0).
  { rewrite <- vdot_scal_r. unfold vdot. rewrite <- !sumn_plus. apply sumn_ext. intros i Hi. rewrite (De i Hi). unfold w, e. ring. }
  assert (Rhs : vdot n (fun i => mvec n (h_M s) lam i * (- 1 / dt) + 1 / dt * rate_load (ha_rate_load a) (h_qv s) i) du0 =
                - / dt * vdot n (mvec n (h_M s) lam) du0 + - / dt * vdot n qv du0).
  { rewrite <- !vdot_scal_l. unfold vdot. rewrite <- sumn_plus. apply sumn_ext. intros i Hi. rewrite Rl. unfold Rdiv. ring. }
  rewrite Lhs, Rhs, Pair, RowE, MT. ring.
Qed.

Theorem heat_adjoint_exact n np bcs lin direct dp steps : (forall s, In s steps -> heat_step_ok n bcs lin s) ->
  uniform_loads steps -> forall du0 var,
  (direct = false -> forall i, (i < n)%nat -> any bcs i = true -> du0 i = 0) ->
  heat_tangent n np (any bcs) direct du0 dp steps var ->
  heat_objective n steps var = vdot n (ha_mu (heat_reverse n bcs lin steps)) du0 +
    vdot np (total_sensitivity n h_P steps (ha_lambdas (heat_reverse n bcs lin steps))) dp.
Proof.
  induction steps as [|s rest IH]; intros Ok Ul du0 var Z0 T.
  - cbn [heat_reverse ha_mu ha_lambdas total_sensitivity heat_objective]. rewrite !vdot_zero_l. ring.
  - destruct var as [|[du dv] var]; [destruct T|]. cbn [heat_tangent] in T. destruct T as [Kin [Lin [Fix T]]].
    assert (UlR : uniform_loads rest) by (destruct Ul as [U|U]; [left|right]; intros; apply U; now right).
    assert (Z1 : direct = false -> forall i, (i < n)%nat -> any bcs i = true -> du i = 0).
    { intros Dr i Hi Ei. assert (F := Fix i Hi Ei). rewrite Dr in F. rewrite (Kin i Hi), F, (Z0 Dr i Hi Ei). ring. }
    assert (IH' := IH (fun s' H => Ok s' (or_intror H)) UlR du var Z1 T).
    set (a := heat_reverse n bcs lin rest) in *.
    assert (Step := heat_step_identity n np bcs lin s a direct du0 du dv dp (ha_mu a) (rate_part (h_qv s))
      (Ok s (or_introl eq_refl)) (fun _ => eq_refl) (used_rate_load n bcs lin s rest Ul) Kin Lin).
    assert (Fix' : forall i, (i < n)%nat -> any bcs i = true -> if direct then du i = 0 else dv i = 0 /\ du0 i = 0).
    { intros i Hi Ei. assert (F := Fix i Hi Ei). destruct direct; [exact F|]. auto. }
    specialize (Step Fix'). cbn [heat_objective heat_reverse]. fold a. rewrite IH'.
    cbn [heat_reverse_step ha_lambdas ha_mu hd total_sensitivity] in *. rewrite (vdot_plus_l np). lra.
Qed.

(** ** transient solid mechanics, Newmark (C25) *)
Record newmark_step := { s_dt : R; s_K : mat; s_M : mat; s_P : mat; s_qu : vec; s_qv : option vec; s_qa : option vec }.
Record newmark_adjoint := { na_U : vec; na_V : vec; na_vload : vec; na_aload : vec; na_lambdas : list vec }.
(** solid_mechanics.cpp:24-25 *)
Definition nb : R := 0.25.
Definition ng : R := 0.5.
Definition newmark_J (s : newmark_step) : mat := fun i j => s_M s i j + nb * s_dt s * s_dt s * s_K s i j.
(** solid_mechanics.hpp:1310-1338 setAdjointLoad and solid_mechanics.cpp:15-66 adjoint_integrate; [dt'] is the next time step *)
Definition newmark_reverse_step (n : nat) (bcs : list dofset) (lin : mat -> vec -> vec) (s : newmark_step) (dt' : R)
  (a : newmark_adjoint) : newmark_adjoint :=
  let dt := s_dt s in
  let fac1 := 0.5 - nb in let fac2 := 1.0 - ng in let fac3 := nb in let fac4 := ng in
  let ul : vec := fun i => - s_qu s i in
  let vl := rate_load (na_vload a) (s_qv s) in
  let al := rate_load (na_aload a) (s_qa s) in
  let rhs : vec := fun i =>
    al i + fac4 * dt * vl i + fac3 * dt * dt * ul i + (- dt' * fac2 - dt * fac4) * na_V a i +
    (- dt' * dt' * fac1 - dt * dt * fac3 - dt * dt' * fac4) * na_U a i in
  let lam := adjoint_solve n bcs lin (newmark_J s) rhs in
  {| na_V := fun i => na_V a i + dt' * na_U a i;
     na_U := fun i => na_U a i + mvec n (transpose (s_K s)) lam i + - 1 * ul i;
     na_vload := vl; na_aload := al; na_lambdas := lam :: na_lambdas a |}.
(** base_physics.cpp:380-387: the time step after the last is 0 *)
Definition next_dt (rest : list newmark_step) : R := match rest with [] => 0 | s :: _ => s_dt s end.
Fixpoint newmark_reverse (n : nat) (bcs : list dofset) (lin : mat -> vec -> vec) (steps : list newmark_step) : newmark_adjoint :=
  match steps with
  | [] => {| na_U := vz; na_V := vz; na_vload := vz; na_aload := vz; na_lambdas := [] |}
  | s :: rest => newmark_reverse_step n bcs lin s (next_dt rest) (newmark_reverse n bcs lin rest)
  end.

(** specification: variations of one Newmark step after another (beta = 1/4, gamma = 1/2), constrained accelerations fixed *)
Definition variation := (vec * vec * vec)%type.
Fixpoint newmark_tangent (n np : nat) (d : dofset) (du0 dv0 da0 dp : vec) (steps : list newmark_step) (var : list variation) : Prop :=
  match steps, var with
  | [], [] => True
  | s :: rest, (du, dv, da) :: var' =>
      (forall i, (i < n)%nat -> du i = du0 i + s_dt s * dv0 i + s_dt s * s_dt s * ((1 / 4) * da0 i + (1 / 4) * da i) /\
                                dv i = dv0 i + s_dt s * ((1 / 2) * da0 i + (1 / 2) * da i)) /\
      (forall i, (i < n)%nat -> d i = false -> rows n n (s_K s) du i + rows n n (s_M s) da i + rows n np (s_P s) dp i = 0) /\
      (forall i, (i < n)%nat -> d i = true -> da i = 0) /\
      newmark_tangent n np d du dv da dp rest var'
  | _, _ => False
  end.
Fixpoint newmark_objective (n : nat) (steps : list newmark_step) (var : list variation) : R :=
  match steps, var with
  | s :: rest, (du, dv, da) :: var' =>
      vdot n (s_qu s) du + vdot n (rate_part (s_qv s)) dv + vdot n (rate_part (s_qa s)) da + newmark_objective n rest var'
  | _, _ => 0
  end.
(** acceleration loads are given for every step or for none; velocity loads for none *)
Definition newmark_loads (steps : list newmark_step) : Prop :=
  (forall s, In s steps -> s_qv s = None) /\
  ((forall s, In s steps -> s_qa s <> None) \/ (forall s, In s steps -> s_qa s = None)).
Definition newmark_step_ok (n : nat) (bcs : list dofset) (lin : mat -> vec -> vec) (s : newmark_step) : Prop :=
  lin_ok n bcs lin (newmark_J s).

Lemma none_vload n bcs lin steps : (forall s, In s steps -> s_qv s = None) ->
  forall i, na_vload (newmark_reverse n bcs lin steps) i = 0.
Proof.
  induction steps as [|s rest IH]; intros H i; [reflexivity|]. cbn [newmark_reverse newmark_reverse_step na_vload].
  rewrite (H s (or_introl eq_refl)). cbn [rate_load]. apply IH. intros; apply H; now right.
Qed.
Lemma none_aload n bcs lin steps : (forall s, In s steps -> s_qa s = None) ->
  forall i, na_aload (newmark_reverse n bcs lin steps) i = 0.
Proof.
  induction steps as [|s rest IH]; intros H i; [reflexivity|]. cbn [newmark_reverse newmark_reverse_step na_aload].
  rewrite (H s (or_introl eq_refl)). cbn [rate_load]. apply IH. intros; apply H; now right.
Qed.

Lemma newmark_step_identity n np bcs lin s (dt' : R) a (ut vt du dv da dp qa : vec) :
  newmark_step_ok n bcs lin s ->
  (forall i, rate_load (na_vload a) (s_qv s) i = 0) -> (forall i, rate_load (na_aload a) (s_qa s) i = - qa i) ->
  (forall i, (i < n)%nat -> du i = ut i + s_dt s * s_dt s / 4 * da i /\ dv i = vt i + s_dt s / 2 * da i) ->
  (forall i, (i < n)%nat -> any bcs i = false -> rows n n (s_K s) du i + rows n n (s_M s) da i + rows n np (s_P s) dp i = 0) ->
  (forall i, (i < n)%nat -> any bcs i = true -> da i = 0) ->
  vdot n (s_qu s) du + vdot n qa da +
  vdot n (na_U a) (fun i => du i + dt' * dv i + dt' * dt' / 4 * da i) + vdot n (na_V a) (fun i => dv i + dt' / 2 * da i) =
  vdot n (na_U (newmark_reverse_step n bcs lin s dt' a)) ut + vdot n (na_V (newmark_reverse_step n bcs lin s dt' a)) vt +
  vdot np (sensitivity n (s_P s) (hd vz (na_lambdas (newmark_reverse_step n bcs lin s dt' a)))) dp.
Proof.
  intros L Vl Al Kin Lin Fix. cbn [newmark_reverse_step na_U na_V na_lambdas hd].
  set (lam := adjoint_solve _ _ _ _ _). set (dt := s_dt s) in *.
  set (w := fun i => dt * dt / 4 * (s_qu s i + na_U a i) + dt / 2 * (dt' * na_U a i + na_V a i) + qa i +
                     dt' * dt' / 4 * na_U a i + dt' / 2 * na_V a i).
  assert (AD : constrained_solution n (any bcs) vz (transpose (newmark_J s)) (fun i => - w i) lam).
  { match goal with lam := adjoint_solve _ _ _ _ ?rhs |- _ => destruct (adjoint_solve_ok n bcs lin (newmark_J s) rhs L) as [Z E] end.
    split; [exact Z|]. intros i Hi Ei. fold lam in E. rewrite (E i Hi Ei), Vl, Al. unfold w, nb, ng. lra. }
  destruct AD as [Z AE]. unfold vz in Z.
  assert (Pair := adjoint_pairing n (any bcs) (newmark_J s) w lam da AE Fix).
  assert (RowE : vdot n lam (mvec n (newmark_J s) da) =
                 vdot n lam (fun i => - 1 * rows n n (s_K s) ut i + - 1 * rows n np (s_P s) dp i)).
  { apply (lambda_rows n (any bcs)); [exact Z|]. intros i Hi Ei. assert (X := Lin i Hi Ei).
    assert (Y : mvec n (newmark_J s) da i = rows n n (s_K s) du i + rows n n (s_M s) da i + - 1 * rows n n (s_K s) ut i).
    { unfold mvec, rows. rewrite <- (sumn_scal_l n (-1)), <- !sumn_plus. apply sumn_ext. intros j Hj. destruct (Kin j Hj) as [Ku _].
      rewrite Ku. unfold newmark_J, nb. fold dt. lra. }
    rewrite Y. lra. }
  rewrite vdot_plus_r, !vdot_scal_r, (vdot_rows n n (s_K s)), (vdot_rows n np (s_P s)) in RowE.
  assert (Lhs : vdot n (s_qu s) du + vdot n qa da +
    vdot n (na_U a) (fun i => du i + dt' * dv i + dt' * dt' / 4 * da i) + vdot n (na_V a) (fun i => dv i + dt' / 2 * da i) =
    vdot n w da + vdot n (fun i => s_qu s i + na_U a i) ut + vdot n (fun i => na_V a i + dt' * na_U a i) vt).
  { unfold vdot. rewrite <- !sumn_plus. apply sumn_ext. intros i Hi. destruct (Kin i Hi) as [-> ->]. unfold w. field. }
  assert (Rhs : vdot n (fun i => na_U a i + mvec n (transpose (s_K s)) lam i + - 1 * - s_qu s i) ut =
    vdot n (fun i => s_qu s i + na_U a i) ut + vdot n (sensitivity n (s_K s) lam) ut).
  { unfold vdot. rewrite <- sumn_plus. apply sumn_ext. intros i Hi. rewrite sensitivity_transpose. ring. }
  rewrite Lhs, Rhs, Pair, RowE. ring.
Qed.

Theorem newmark_adjoint_exact n np bcs lin dp steps : (forall s, In s steps -> newmark_step_ok n bcs lin s) ->
  newmark_loads steps -> forall du0 dv0 da0 var, newmark_tangent n np (any bcs) du0 dv0 da0 dp steps var ->
  newmark_objective n steps var =
    vdot n (na_U (newmark_reverse n bcs lin steps))
      (fun i => du0 i + next_dt steps * dv0 i + next_dt steps * next_dt steps / 4 * da0 i) +
    vdot n (na_V (newmark_reverse n bcs lin steps)) (fun i => dv0 i + next_dt steps / 2 * da0 i) +
    vdot np (total_sensitivity n s_P steps (na_lambdas (newmark_reverse n bcs lin steps))) dp.
Proof.
  induction steps as [|s rest IH]; intros Ok Ld du0 dv0 da0 var T.
  - cbn [newmark_reverse na_U na_V na_lambdas total_sensitivity newmark_objective]. rewrite !vdot_zero_l. ring.
  - destruct var as [|[[du dv] da] var]; [destruct T|]. cbn [newmark_tangent] in T. destruct T as [Kin [Lin [Fix T]]].
    destruct Ld as [Lv La].
    assert (LdR : newmark_loads rest).
    { split; [intros; apply Lv; now right|]. destruct La as [U|U]; [left|right]; intros; apply U; now right. }
    assert (IH' := IH (fun s' H => Ok s' (or_intror H)) LdR du dv da var T).
    set (a := newmark_reverse n bcs lin rest) in *.
    assert (Vl : forall i, rate_load (na_vload a) (s_qv s) i = 0).
    { intros i. rewrite (Lv s (or_introl eq_refl)). cbn [rate_load]. apply none_vload. intros; apply Lv; now right. }
    assert (Al : forall i, rate_load (na_aload a) (s_qa s) i = - rate_part (s_qa s) i).
    { intros i. destruct La as [U|U]; assert (X := U s (or_introl eq_refl)).
      - destruct (s_qa s); [reflexivity|congruence].
      - rewrite X. cbn [rate_load rate_part]. unfold a. rewrite none_aload; [unfold vz; ring|]. intros; apply U; now right. }
    set (ut := fun i => du0 i + s_dt s * dv0 i + s_dt s * s_dt s / 4 * da0 i). set (vt := fun i => dv0 i + s_dt s / 2 * da0 i).
    assert (Kin' : forall i, (i < n)%nat -> du i = ut i + s_dt s * s_dt s / 4 * da i /\ dv i = vt i + s_dt s / 2 * da i).
    { intros i Hi. destruct (Kin i Hi) as [-> ->]. unfold ut, vt. split; field. }
    assert (Step := newmark_step_identity n np bcs lin s (next_dt rest) a ut vt du dv da dp (rate_part (s_qa s))
      (Ok s (or_introl eq_refl)) Vl Al Kin' Lin Fix).
    cbn [newmark_objective newmark_reverse next_dt]. fold a ut vt. rewrite IH'. rewrite (Lv s (or_introl eq_refl)).
    cbn [rate_part newmark_reverse_step na_lambdas na_U na_V hd total_sensitivity] in *. rewrite (vdot_plus_l np), vdot_zero_l. lra.
Qed.
(** with the zero-length first step that computes the initial acceleration *)
Theorem newmark_initial_sensitivity n np bcs lin dp s steps : s_dt s = 0 ->
  (forall s', In s' (s :: steps) -> newmark_step_ok n bcs lin s') ->
  newmark_loads (s :: steps) -> forall du0 dv0 da0 var, newmark_tangent n np (any bcs) du0 dv0 da0 dp (s :: steps) var ->
  newmark_objective n (s :: steps) var =
    vdot n (na_U (newmark_reverse n bcs lin (s :: steps))) du0 +
    vdot n (na_V (newmark_reverse n bcs lin (s :: steps))) dv0 +
    vdot np (total_sensitivity n s_P (s :: steps) (na_lambdas (newmark_reverse n bcs lin (s :: steps)))) dp.
Proof.
  intros D Ok Ld du0 dv0 da0 var T. rewrite (newmark_adjoint_exact n np bcs lin dp (s :: steps) Ok Ld du0 dv0 da0 var T).
  cbn [next_dt]. rewrite D. f_equal. f_equal; apply vdot_ext; intros; field.
Qed.
