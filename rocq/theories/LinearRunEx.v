(** * Runs of the triangle of NewtonLinearEx.v: one step, and two steps to the same time (C93) *)
From Coq Require Import NArith ZArith Reals List Lia Lra Bool.
From Verif Require Import Prelude DofCodec Sums Restriction Csr Kernels FunctionalModel FunctionalGrad FunctionalTotal Assembly Dual Tensor MatAlg Materials MaterialFacts ShapeAware WeakForm WeakFormFacts WeakFormPhysics WeakFormWork WeakFormEx Fit Ode Energy EnergySolid EnergyRun StoredEnergy StoredEnergyUse.
From Verif Require Import BoundaryElim Newton QuasiStatic QuasiNewton Traced TracedSolid TracedSolidEx StiffBody NewtonLinear NewtonLinearEx LinearRun.
Import ListNotations.
Local Open Scope R_scope.

Lemma solve2_exact : exact_for_definite 6 nl_held solve2.
Proof.
  intros A b SA PD. set (B := fun i j => if Nat.leb i j then A i j else A j i).
  assert (EB : forall i j, (i < 6)%nat -> (j < 6)%nat -> eliminate nl_held A i j = eliminate nl_held B i j).
  { intros i j Hi Hj. unfold B, eliminate. destruct (nl_held i || nl_held j)%bool eqn:E; [reflexivity|]. destruct (Nat.leb_spec i j); [reflexivity|].
    assert (Q := SA i j Hi Hj). unfold eliminate in Q. rewrite E in Q. rewrite orb_comm in E. now rewrite E in Q. }
  assert (SB : forall i j, (i < 6)%nat -> (j < 6)%nat -> B i j = B j i).
  { intros i j _ _. unfold B. destruct (Nat.leb_spec i j), (Nat.leb_spec j i); try reflexivity; [|lia]. assert (i = j) by lia. now subst. }
  assert (PB : positive_definite 6 (eliminate nl_held B)).
  { intros v V. assert (P := PD v V). unfold quadratic_form, mvec in *. rewrite (sumn_ext 6 _ (fun i => v i * sumn 6 (fun j => eliminate nl_held A i j * v j))); [exact P|].
    intros i Hi. f_equal. apply sumn_ext. intros j Hj. now rewrite EB. }
  intros i Hi. refine (eq_trans _ (solve2_works B b SB PB i Hi)). unfold mvec. apply sumn_ext. intros j Hj. rewrite (EB i j Hi Hj). f_equal.
  unfold solve2. now rewrite !EB by lia.
Qed.
Lemma solve2_keeps : keeps_unit_rows 6 nl_held solve2.
Proof. intros A b i Hi Di. unfold nl_held in Di. apply Nat.ltb_lt in Di. do 4 (destruct i as [|i]; [reflexivity|]). lia. Qed.
Definition nl_options : options := {| o_rel := / 2; o_abs := 0; o_min := 0; o_max := 3; o_ls := 5 |}.
(** a call of advanceTimestep with this step length, with a warm start *)
Definition nl_load (dt : R) : load := {| l_dt := dt; l_others := nl_others; l_solver := newton_solver 6 solve2 nl_options; l_lin := solve2; l_warm := true |}.
Definition nl_start : state (St := Datatypes.unit) :=
  {| s_u := [0; 0; 0; 0; 0; 0]; s_t := 0; s_cycle := 0; s_mem := ex_mem; s_prev := nl_others; s_react := [0; 0; 0; 0; 0; 0]; s_saved := []; s_files := [] |}.
(** the second corner is pulled *)
Definition nl_target (t : R) : vec := fun i => if Nat.eqb i 2 then t else 0.
Lemma nl_plain dt : plain_load 6 nl_held nl_size (nl_load dt).
Proof.
  split; [exact nl_others_fit|]. split; [exact nl_still|]. split; [|intros _; exact solve2_keeps]. exists solve2, nl_options. split; [reflexivity|]. split; [exact solve2_exact|]. cbn [nl_options o_abs o_rel o_min o_max].
  split; [reflexivity|]. split; [lra|]. split; [reflexivity|lia].
Qed.
Lemma nl_sound : sound 6 nl_size nl_start.
Proof. split; [reflexivity|]. intros H. cbn in H. lia. Qed.
Theorem nl_runs : exists c a b b', ready nl_f 6 c nl_size /\ run_steps nl_f 6 c nl_held nl_target [nl_load 1] nl_start = Ok [a] /\
  run_steps nl_f 6 c nl_held nl_target [nl_load (/ 3); nl_load (2 / 3)] nl_start = Ok [b; b'] /\ s_t a = s_t b' /\ s_t b <> s_t b' /\ s_u a = s_u b' /\ nth 2 (s_u a) 0 = 1 /\ nth 2 (s_u b) 0 = / 3.
Proof.
  destruct nl_ready as (c & Rc).
  destruct (run_ok nl_f 6 c nl_held nl_target nl_size Rc [nl_load 1] nl_start nl_sound ltac:(repeat constructor; exact nl_others_fit)) as (l1 & E1 & C1).
  destruct (run_ok nl_f 6 c nl_held nl_target nl_size Rc [nl_load (/ 3); nl_load (2 / 3)] nl_start nl_sound ltac:(repeat constructor; exact nl_others_fit)) as (l2 & E2 & C2).
  destruct l1 as [|a [|? ?]]; try contradiction; [|destruct C1 as [_ []]]. destruct l2 as [|b [|b' [|? ?]]]; try contradiction; [destruct C2 as [_ []]| |destruct C2 as [_ [_ []]]].
  destruct C1 as [(o1 & A1) _]. destruct C2 as [(o2 & A2) [(o3 & A3) _]]. exists c, a, b, b'. split; [exact Rc|]. split; [exact E1|]. split; [exact E2|].
  assert (T1 := adv_time _ _ _ _ _ _ _ _ _ A1). assert (T2 := adv_time _ _ _ _ _ _ _ _ _ A2). assert (T3 := adv_time _ _ _ _ _ _ _ _ _ A3). cbn [nl_start s_t nl_load l_dt] in T1, T2, T3.
  assert (TT : s_t a = s_t b') by lra. split; [exact TT|]. split; [lra|].
  assert (P1 : List.Forall (plain_load 6 nl_held nl_size) [nl_load 1]) by (repeat constructor; apply nl_plain).
  assert (P2 : List.Forall (plain_load 6 nl_held nl_size) [nl_load (/ 3); nl_load (2 / 3)]) by (constructor; [apply nl_plain|constructor; [apply nl_plain|constructor]]).
  split; [|split].
  - exact (proj1 (history_free 2 6 nl_f nl_terms ex_pos ex_jac c nl_size nl_held nl_target (or_introl eq_refl) nl_fit nl_spaces Rc eq_refl nl_traced nl_linear nl_regular nl_supported
      _ _ _ _ _ _ 0%nat 1%nat _ _ a b' nl_sound nl_sound P1 P2 E1 E2 eq_refl eq_refl eq_refl eq_refl TT)).
  - destruct (run_balanced 2 6 nl_f nl_terms ex_pos ex_jac c nl_size nl_held nl_target (or_introl eq_refl) nl_fit nl_spaces Rc eq_refl nl_traced nl_linear nl_regular nl_supported
      _ _ _ nl_sound P1 E1 0%nat _ a eq_refl eq_refl) as (m & (H & _) & _). assert (Q := H 2%nat ltac:(lia) eq_refl). unfold entries, nl_target in Q. cbn [Nat.eqb] in Q. lra.
  - destruct (run_balanced 2 6 nl_f nl_terms ex_pos ex_jac c nl_size nl_held nl_target (or_introl eq_refl) nl_fit nl_spaces Rc eq_refl nl_traced nl_linear nl_regular nl_supported
      _ _ _ nl_sound P2 E2 0%nat _ b eq_refl eq_refl) as (m & (H & _) & _). assert (Q := H 2%nat ltac:(lia) eq_refl). unfold entries, nl_target in Q. cbn [Nat.eqb] in Q. lra.
Qed.
