(** * Adjoint problems: concrete systems and histories with wrong sensitivities *)
From Coq Require Import Reals Lra Lia Bool List.
From Coquelicot Require Import Coquelicot.
From Verif Require Import Sums Tensor MatAlg BoundaryElim Adjoint AdjointDeriv.
Import ListNotations.
Local Open Scope R_scope.

Definition scalar_solver (A : mat) (b : vec) : vec := fun i => b i / A i i.
Definition c1 (x : R) : mat := fun _ _ => x.
Definition k1 (x : R) : vec := fun _ => x.
Lemma scalar_ok J : J 0%nat 0%nat <> 0 -> lin_ok 1 [] scalar_solver J.
Proof.
  intros N load i Hi. destruct i; [|lia]. unfold adjoint_solve, adjoint_system, scalar_solver. cbn [apply_all fold_left fst snd mvec].
  unfold mvec, transpose. cbn [sumn]. field. exact N.
Qed.
Definition held1 : dofset := fun _ => true.
Lemma held_ok J : lin_ok 1 [held1] scalar_solver J.
Proof.
  intros load i Hi. destruct i; [|lia]. unfold adjoint_solve, adjoint_system, scalar_solver. cbn [apply_all fold_left fst snd].
  unfold mvec, apply_bc, eliminate, held1, eliminate_rhs, vz. cbn. field.
Qed.

(** ** a free particle of unit mass pushed by the force p: a = p.  Two steps, the first of length zero, objective v_2. *)
Definition push (dt qv : R) : newmark_step :=
  {| s_dt := dt; s_K := c1 0; s_M := c1 1; s_P := c1 (-1); s_qu := vz; s_qv := Some (k1 qv); s_qa := None |}.
Definition push_history := [push 0 0; push 1 1].
Definition push_variation (dv0 dp : R) : list variation :=
  [(vz, k1 dv0, k1 dp); (k1 (dv0 + dp / 2), k1 (dv0 + dp), k1 dp)].
Theorem velocity_objective_wrong :
  (forall s, In s push_history -> newmark_step_ok 1 [] scalar_solver s) /\
  (forall dv0 dp, newmark_tangent 1 1 (any []) vz (k1 dv0) vz (k1 dp) push_history (push_variation dv0 dp)) /\
  (* the objective v_2 = v_0 + p *)
  (forall dv0 dp, newmark_objective 1 push_history (push_variation dv0 dp) = dv0 + dp) /\
  (* what is computed *)
  na_V (newmark_reverse 1 [] scalar_solver push_history) 0%nat = 0 /\
  total_sensitivity 1 s_P push_history (na_lambdas (newmark_reverse 1 [] scalar_solver push_history)) 0%nat = 1 / 2.
Proof.
  split; [|split; [|split; [|split]]].
  - intros s [<-|[<-|[]]]; apply scalar_ok; unfold newmark_J, push, nb, c1; cbn [s_M s_K s_dt]; lra.
  - intros dv0 dp. unfold push_history, push_variation, push. cbn [newmark_tangent s_dt s_K s_M s_P]. unfold vz, k1, c1, rows.
    repeat split; intros; cbn [sumn]; try (cbn in *; discriminate); lra.
  - intros dv0 dp. unfold push_history, push_variation, push. cbn [newmark_objective s_qu s_qv s_qa rate_part]. unfold vdot, vz, k1.
    cbn [sumn]. lra.
  - unfold push_history, push. cbn [newmark_reverse newmark_reverse_step na_V na_U next_dt s_dt s_K s_qu]. unfold mvec, transpose, c1, vz. cbn [sumn]. lra.
  - unfold push_history, push. cbn [newmark_reverse newmark_reverse_step na_V na_U na_lambdas na_vload na_aload next_dt s_dt s_K s_M s_P s_qu s_qv s_qa total_sensitivity rate_load].
    unfold sensitivity, adjoint_solve, adjoint_system, scalar_solver. cbn [apply_all fold_left fst snd sumn].
    unfold newmark_J, transpose, mvec, c1, vz, k1, nb, ng. cbn [s_M s_K s_dt sumn]. lra.
Qed.
(** without the first step of length zero the initial velocity has no influence: objective u_1 = u_0 + dt v_0 + ... *)
Definition launch : newmark_step := {| s_dt := 1; s_K := c1 0; s_M := c1 1; s_P := c1 0; s_qu := k1 1; s_qv := None; s_qa := None |}.
Theorem nonzero_first_step_wrong :
  (forall s, In s [launch] -> newmark_step_ok 1 [] scalar_solver s) /\ newmark_loads [launch] /\
  (forall dv0, newmark_tangent 1 1 (any []) vz (k1 dv0) vz vz [launch] [(k1 dv0, k1 dv0, vz)] /\
               newmark_objective 1 [launch] [(k1 dv0, k1 dv0, vz)] = dv0) /\
  na_V (newmark_reverse 1 [] scalar_solver [launch]) 0%nat = 0.
Proof.
  split; [|split; [|split]].
  - intros s [<-|[]]; apply scalar_ok; unfold newmark_J, launch, nb, c1; cbn [s_M s_K s_dt]; lra.
  - split; [|right]; intros s [<-|[]]; reflexivity.
  - intros dv0. unfold launch. cbn [newmark_tangent newmark_objective s_dt s_K s_M s_P s_qu s_qv s_qa rate_part]. unfold vz, k1, c1, rows, vdot.
    repeat split; intros; cbn [sumn]; try (cbn in *; discriminate); lra.
  - unfold launch. cbn [newmark_reverse newmark_reverse_step na_V na_U next_dt]. unfold vz. lra.
Qed.

(** ** heat: constant heating p, rate = p.  Two steps of length 1, objective the rate of the last step only. *)
Definition warm (qv : option vec) : heat_step := {| h_dt := 1; h_K := c1 0; h_M := c1 1; h_P := c1 (-1); h_qu := vz; h_qv := qv |}.
Definition warm_history := [warm None; warm (Some (k1 1))].
Theorem stale_rate_load :
  (forall s, In s warm_history -> heat_step_ok 1 [] scalar_solver s) /\
  (forall dp, heat_tangent 1 1 (any []) true vz (k1 dp) warm_history [(k1 dp, k1 dp); (k1 (2 * dp), k1 dp)] /\
              heat_objective 1 warm_history [(k1 dp, k1 dp); (k1 (2 * dp), k1 dp)] = dp) /\
  total_sensitivity 1 h_P warm_history (ha_lambdas (heat_reverse 1 [] scalar_solver warm_history)) 0%nat = 2.
Proof.
  split; [|split].
  - intros s [<-|[<-|[]]]; (split; [unfold warm; cbn [h_dt]; lra|]; split; [|reflexivity]; apply scalar_ok; unfold heat_J, warm, c1; cbn [h_M h_K h_dt]; lra).
  - intros dp. unfold warm_history, warm. cbn [heat_tangent heat_objective h_dt h_K h_M h_P h_qu h_qv rate_part]. unfold vz, k1, c1, rows, vdot.
    repeat split; intros; cbn [sumn]; try (cbn in *; discriminate); lra.
  - unfold warm_history, warm. cbn [heat_reverse heat_reverse_step ha_mu ha_rate_load ha_lambdas h_dt h_K h_M h_P h_qu h_qv total_sensitivity rate_load].
    unfold sensitivity, adjoint_solve, adjoint_system, scalar_solver. cbn [apply_all fold_left fst snd sumn].
    unfold heat_J, transpose, mvec, c1, vz, k1. cbn [h_M h_K h_dt sumn]. lra.
Qed.
(** constrained rate (RateControl): the constrained temperature keeps its initial value, the returned sensitivity is zero *)
Definition kept : heat_step := {| h_dt := 1; h_K := c1 0; h_M := c1 1; h_P := c1 0; h_qu := k1 1; h_qv := None |}.
Theorem rate_control_initial_wrong :
  heat_step_ok 1 [held1] scalar_solver kept /\
  (forall du0, heat_tangent 1 1 (any [held1]) false (k1 du0) vz [kept] [(k1 du0, vz)] /\
               heat_objective 1 [kept] [(k1 du0, vz)] = du0) /\
  ha_mu (heat_reverse 1 [held1] scalar_solver [kept]) 0%nat = 0.
Proof.
  split; [|split].
  - split; [unfold kept; cbn [h_dt]; lra|]. split; [apply held_ok|reflexivity].
  - intros du0. unfold kept. cbn [heat_tangent heat_objective h_dt h_K h_M h_P h_qu h_qv rate_part]. unfold vz, k1, c1, rows, vdot.
    repeat split; intros; cbn [sumn]; try (cbn in *; discriminate); lra.
  - unfold kept. cbn [heat_reverse heat_reverse_step ha_mu ha_rate_load h_dt h_K h_M h_P h_qu h_qv rate_load].
    unfold adjoint_solve, adjoint_system, scalar_solver, mvec. cbn [sumn]. cbn [apply_all fold_left apply_bc fst snd].
    unfold eliminate, eliminate_rhs, held1, vz, c1. cbn [orb Nat.eqb]. lra.
Qed.

(** ** families that meet the hypotheses *)
Lemma derive_ext0 (f g : R -> R) (l : R) : (forall s : R, f s = g s) -> is_derive f 0 l -> is_derive g 0 l.
Proof. intros H. apply is_derive_ext. exact H. Qed.
Lemma affine_jacobian p0 u0 v0 : jacobian3 1 1 (fun _ v p i => v i - p i) u0 v0 p0 (c1 0) (c1 1) (c1 (-1)).
Proof.
  intros cu du cv dv cp dp _ Cv Cp _ _ _ i Hi. destruct i; [|lia]. unfold rows, c1. cbn [sumn].
  replace (0 + 0 * du 0%nat + (0 + 1 * dv 0%nat) + (0 + -1 * dp 0%nat)) with (dv 0%nat + -1 * dp 0%nat) by ring.
  apply (derive_ext0 (fun s => cv s 0%nat + -1 * cp s 0%nat)); [intros; ring|].
  apply curve_scal_plus; [apply Cv; lia|apply Cp; lia].
Qed.
Lemma square_derive (f : R -> R) (l : R) : is_derive f 0 l -> is_derive (fun s => f s * f s) 0 (2 * f 0 * l).
Proof.
  intros D. assert (X := is_derive_mult f f 0 l l D D Rmult_comm). unfold plus, mult in X. cbn in X.
  replace (2 * f 0 * l) with (l * f 0 + f 0 * l) by ring. exact X.
Qed.
Lemma square_gradient u v p q : q = 2 * u 0%nat -> gradient3 1 1 (fun u _ _ => u 0%nat * u 0%nat) u v p (k1 q) vz vz.
Proof.
  intros -> cu du cv dv cp dp Cu _ _ Su _ _. unfold vdot, k1, vz. cbn [sumn]. rewrite <- (Su 0%nat ltac:(lia)).
  match goal with |- is_derive _ _ ?b => replace b with (2 * cu 0 0%nat * du 0%nat) by ring end.
  apply square_derive. apply Cu. lia.
Qed.
(** heating by p(s) = 3 + s from the initial temperature 5 + 2 s, objective temperature squared after one step of length 1 *)
Definition oven : heat_family_step := {|
  hf_step := {| h_dt := 1; h_K := c1 0; h_M := c1 1; h_P := c1 (-1); h_qu := k1 16; h_qv := None |};
  hf_res := fun _ v p i => v i - p i; hf_obj := fun u _ _ => u 0%nat * u 0%nat; hf_qp := vz;
  hf_u := fun s => k1 (8 + 3 * s); hf_v := fun s => k1 (3 + s); hf_du := k1 3; hf_dv := k1 1 |}.
Lemma line_derive a b : is_derive (fun s : R => a + b * s) 0 b.
Proof.
  assert (X := curve_scal_plus (fun _ => a) (fun s => s) b 0 1 (is_derive_const a 0) (is_derive_id 0)).
  replace (0 + b * 1) with b in X by ring. exact X.
Qed.
Lemma oven_family : heat_family 1 1 (any []) true (fun s => k1 (3 + s)) (fun s => k1 (5 + 2 * s)) [oven].
Proof.
  cbn [heat_family oven hf_step hf_res hf_obj hf_qp hf_u hf_v hf_du hf_dv h_K h_M h_P h_qu h_qv h_dt rate_part].
  split; [|split; [|split; [|split; [|split; [|split; [|split]]]]]].
  - intros i _. apply line_derive.
  - intros i _. unfold k1. apply (derive_ext0 (fun s => 3 + 1 * s)); [intros; ring|apply line_derive].
  - apply affine_jacobian.
  - apply square_gradient. unfold k1. ring.
  - intros i _. apply filter_forall. intros s. unfold k1. ring.
  - intros i _ _. apply filter_forall. intros s. unfold k1. ring.
  - intros i _ E. discriminate E.
  - exact Logic.I.
Qed.
Lemma oven_ok : heat_step_ok 1 [] scalar_solver (hf_step oven).
Proof.
  split; [cbn; lra|]. split; [|reflexivity]. apply scalar_ok. unfold heat_J, oven, c1. cbn [hf_step h_M h_K h_dt]. lra.
Qed.

(** a particle pushed by the force p(s) = 2 + s, initial position s, initial velocity 1 - s, steps 0 and 1 *)
Definition shove (dt : R) (u v : R -> R) (du dv qu : R) : newmark_family_step := {|
  nf_step := {| s_dt := dt; s_K := c1 0; s_M := c1 1; s_P := c1 (-1); s_qu := k1 qu; s_qv := None; s_qa := None |};
  nf_res := fun _ a p i => a i - p i; nf_obj := fun u _ _ _ => u 0%nat * u 0%nat; nf_qp := vz;
  nf_u := fun s => k1 (u s); nf_v := fun s => k1 (v s); nf_a := fun s => k1 (2 + s); nf_du := k1 du; nf_dv := k1 dv; nf_da := k1 1 |}.
Definition shove_history := [shove 0 (fun s => 0 + 1 * s) (fun s => 1 + - 1 * s) 1 (- 1) 0;
                             shove 1 (fun s => 2 + 1 / 2 * s) (fun s => 3 + 0 * s) (1 / 2) 0 4].
Lemma square_gradient4 u v a p q : q = 2 * u 0%nat -> gradient4 1 1 (fun u _ _ _ => u 0%nat * u 0%nat) u v a p (k1 q) vz vz vz.
Proof.
  intros -> cu du cv dv ca da cp dp Cu _ _ _ Su _ _ _. unfold vdot, k1, vz. cbn [sumn]. rewrite <- (Su 0%nat ltac:(lia)).
  match goal with |- is_derive _ _ ?b => replace b with (2 * cu 0 0%nat * du 0%nat) by ring end.
  apply square_derive. apply Cu. lia.
Qed.
Lemma shove_family : newmark_family 1 1 (any []) true (fun s => k1 (2 + s)) (fun s => k1 (0 + 1 * s)) (fun s => k1 (1 + - 1 * s)) (fun _ => vz)
  shove_history.
Proof.
  unfold shove_history, shove. cbn [newmark_family nf_step nf_res nf_obj nf_qp nf_u nf_v nf_a nf_du nf_dv nf_da s_K s_M s_P s_qu s_qv s_qa s_dt rate_part].
  assert (Ca : curve 1 (fun s => k1 (2 + s)) (k1 1)).
  { intros i _. unfold k1. apply (derive_ext0 (fun s => 2 + 1 * s)); [intros; ring|apply line_derive]. }
  assert (Cl : forall a b, curve 1 (fun s => k1 (a + b * s)) (k1 b)) by (intros a b i _; apply line_derive).
  do 2 (split; [apply Cl|split; [apply Cl|split; [exact Ca|split; [apply affine_jacobian|]]]];
    (split; [apply square_gradient4; unfold k1; ring|]);
    (split; [intros i _; apply filter_forall; intros s; unfold k1, vz; split; field|]);
    (split; [intros i _ _; apply filter_forall; intros s; unfold k1; ring|]);
    (split; [intros i _ E; discriminate E|])).
  exact Logic.I.
Qed.
Lemma shove_ok f : In f shove_history -> newmark_step_ok 1 [] scalar_solver (nf_step f).
Proof. intros [<-|[<-|[]]]; apply scalar_ok; unfold newmark_J, shove, nb, c1; cbn [nf_step s_M s_K s_dt]; lra. Qed.
Lemma shove_loads : newmark_loads (map nf_step shove_history).
Proof. split; [|right]; intros s [<-|[<-|[]]]; reflexivity. Qed.
(** equilibrium u = p *)
Lemma static_jacobian u v p : jacobian3 1 1 (fun u _ p i => u i - p i) u v p (c1 1) (c1 0) (c1 (-1)).
Proof.
  intros cu du cv dv cp dp Cu _ Cp _ _ _ i Hi. destruct i; [|lia]. unfold rows, c1. cbn [sumn].
  replace (0 + 1 * du 0%nat + (0 + 0 * dv 0%nat) + (0 + -1 * dp 0%nat)) with (du 0%nat + -1 * dp 0%nat) by ring.
  apply (derive_ext0 (fun s => cu s 0%nat + -1 * cp s 0%nat)); [intros; ring|].
  apply curve_scal_plus; [apply Cu; lia|apply Cp; lia].
Qed.
Lemma static_case : let u := fun s => k1 (3 + 1 * s) in
  curve 1 u (k1 1) /\ jacobian3 1 1 (fun u _ p i => u i - p i) (u 0) vz (u 0) (c1 1) (fun _ _ => 0) (c1 (-1)) /\
  gradient3 1 1 (fun u _ _ => u 0%nat * u 0%nat) (u 0) vz (u 0) (k1 6) vz vz /\
  (forall i s, u s i - u s i = 0) /\ lin_ok 1 [] scalar_solver (c1 1).
Proof.
  cbv zeta. split; [intros i _; apply line_derive|]. split; [apply static_jacobian|]. split; [apply square_gradient; unfold k1; ring|].
  split; [intros; ring|]. apply scalar_ok. unfold c1. lra.
Qed.
