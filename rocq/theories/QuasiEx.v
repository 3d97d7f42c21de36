(** * A creeping bar (C73): two linear elements under a dead load, clamped at one end which moves with time *)
From Coq Require Import NArith ZArith Reals List Lia Lra Bool Permutation.
From Verif Require Import Prelude DofCodec Sums Restriction Csr Kernels FunctionalModel FunctionalGrad Assembly FunctionalEx Tensor BoundaryElim Newton QuasiStatic QuasiNewton.
Import ListNotations.
Local Open Scope R_scope.

(** stress = strain - creep strain, dead load 1, and every step adds half the strain to the creep strain of a point *)
Definition bar_kernel : gkernel R :=
  {| gk_elems := [0%nat; 1%nat]; gk_dim1 := 2; gk_nq := 1; gk_w := fun _ => 1; gk_test := seg_space; gk_trial := fun _ => seg_space;
     gk_qf := fun e q t v st => (fun i b => match b with O => -1 | S O => v O O 1%nat - st | _ => 0 end, st + v O O 1%nat / 2);
     gk_ad := fun s e q t v st => fun i b j a => match b, a with S O, S O => 1 | _, _ => 0 end |}.
Definition bar : functional R :=
  {| f_test := fun dt => match dt with Elements => [seg1] | BoundaryElements => [] end;
     f_trial := fun _ dt => match dt with Elements => [seg1] | BoundaryElements => [] end;
     f_integrals := [{| i_type := Elements; i_active := [0%nat]; i_geoms := [bar_kernel] |}] |}.
Definition clamped (i : nat) : bool := Nat.eqb i 0.
Definition pulled (t : R) : vec := fun i => if Nat.eqb i 0 then t else 0.
(** the inverse of the eliminated stiffness matrix *)
Definition bar_inverse (A : mat) (b : vec) : vec :=
  fun i => match i with O => b 0%nat | S O => b 1%nat + b 2%nat | _ => b 1%nat + 2 * b 2%nat end.
Definition exact_options : options := {| o_rel := 0; o_abs := 0; o_min := 0; o_max := 1; o_ls := 0 |}.
Definition pull : load :=
  {| l_dt := 1; l_others := fun _ => [0; 0; 0]; l_solver := newton_solver 3 bar_inverse exact_options; l_lin := bar_inverse; l_warm := false |}.
Definition bar_sizes (w : nat) : nat := 3%nat.

Lemma bar_ready : exists c, ready bar 3 c bar_sizes.
Proof.
  assert (W : wf_assembly bar 0 3 3).
  { split; [|split; [|split; [|split]]].
    - intros [|] r H; cbn in H; [|contradiction]. destruct H as [<-|[]]. split; [apply seg1_plain|apply seg1_ids].
    - intros [|] r H; cbn in H; [|contradiction]. destruct H as [<-|[]]. split; [apply seg1_plain|apply seg1_ids].
    - intros [|]; reflexivity.
    - intros Ig [<-|[]]. reflexivity.
    - intros Ig s g G rt rr [<-|[]] Hs HG Ht Hr. cbn in Hs. inversion Hs; subst s. destruct g as [|g]; [|destruct g; discriminate].
      inversion HG; inversion Ht; inversion Hr; subst. repeat split. intros el [<-|[<-|[]]]; cbn; lia. }
  destruct (table_for_mesh 3 (blocks_of bar 0 Elements) (map fst (lut_keys (emitted_all (blocks_of bar 0 Elements))))) as (c & _ & B).
  - intros te tr [E|[]]. inversion E; subst. split; [apply seg1_plain|]. split; [apply seg1_plain|]. split; reflexivity.
  - apply seg_coupled.
  - lia.
  - apply Permutation_refl.
  - exists c. split; [|split; [reflexivity|split; [exact W|split; [|split; [exact B|split; [lia|]]]]]].
    + intros Ig [<-|[]]. split; [|split; [|split]].
      * intros r [<-|[]]. apply seg1_ids.
      * intros w r [<-|[]]. apply seg1_ids.
      * reflexivity.
      * repeat constructor. intros [].
    + intros [|] rt rr [|g] H1 H2; cbn in H1, H2; try discriminate; try (destruct g; discriminate). inversion H1; inversion H2; subst. reflexivity.
    + intros x (te & tr & e & i & j & k & l & [] & _).
Qed.
Lemma inverse_keeps : keeps_unit_rows 3 clamped bar_inverse.
Proof. intros A b i _ E. apply Nat.eqb_eq in E. subst i. reflexivity. Qed.

(** the creep strain of an element *)
Definition creep (m : mem R) (e : nat) : R := m_q m 0%nat 0%nat e 0%nat.
Section Bar.
Variable c : csr.
Hypothesis Rc : ready bar 3 c bar_sizes.
Lemma others_fit : fitting bar_sizes (l_others pull).
Proof. intros w. reflexivity. Qed.
Lemma bar_force t m u0 u1 u2 L : force bar 3 t (l_others pull) m [u0; u1; u2] L ->
  L = [- (u1 - u0 - creep m 0%nat) - 1 / 2; (u1 - u0 - creep m 0%nat) - (u2 - u1 - creep m 1%nat) - 1; (u2 - u1 - creep m 1%nat) - 1 / 2].
Proof.
  intros (m' & E).
  destruct (evaluate_quiet bar 3 c bar_sizes Rc t None (l_others pull) [u0; u1; u2] m m others_fit eq_refl (same_refl m)) as (L' & m1 & A & _ & B & C & _).
  rewrite A in E. injection E as E _. subst L'. apply (same_list 3); [exact B|reflexivity|]. intros k Hk. rewrite C by exact Hk.
  destruct k as [|[|[|k]]]; [| | |lia]; cbv -[Rplus Rmult Ropp Rminus Rinv Rdiv IZR m_q]; unfold creep; field.
Qed.
Lemma tab3 (x : vec) : tab 3 x = [x 0%nat; x 1%nat; x 2%nat].
Proof. reflexivity. Qed.
Lemma norm2_zero n r : (forall i, (i < n)%nat -> r i = 0) -> norm2 n r = 0.
Proof. intros H. unfold norm2. rewrite sumn_zero; [apply sqrt_0|]. intros i Hi. rewrite H by exact Hi. ring. Qed.

(** a step from anywhere but the solution *)
Lemma bar_step s v : sound 3 bar_sizes s -> s_u s = [v; 0; 0] -> 0 <= creep (s_mem s) 1%nat ->
  exists s', step bar 3 c clamped pulled pull s = Ok (s', true) /\
    (let t := s_t s + 1 in let a := creep (s_mem s) 0%nat in let b := creep (s_mem s) 1%nat in
     s_u s' = [t; t + 3 / 2 + a; t + 2 + a + b] /\ s_react s' = [-2; 0; 0] /\
     creep (s_mem s') 0%nat = a + (3 / 2 + a) / 2 /\ creep (s_mem s') 1%nat = b + (1 / 2 + b) / 2 /\
     s_files s' = s_files s ++ [(s_u s', s_react s)] /\ sound 3 bar_sizes s').
Proof.
  intros Sd U P. destruct (step_ok bar 3 c clamped pulled bar_sizes Rc pull s Sd others_fit) as (s' & ok & E & A & Sd' & Fl).
  assert (T := adv_time _ _ _ _ _ _ _ _ _ A).
  destruct (material_exists bar 3 c clamped bar_sizes Rc (s_t s') (l_others pull) (s_mem s) others_fit) as (F & J & H).
  destruct (adv_solve _ _ _ _ _ _ _ _ _ A F J H) as (x0 & x & B & Pu & Us). destruct H as [HF _].
  assert (B0 : x0 0%nat = s_t s + 1 /\ x0 1%nat = 0 /\ x0 2%nat = 0).
  { cbn [begins pull l_warm] in B. rewrite !B, U. repeat split. }
  destruct B0 as (B0 & B1 & B2).
  set (a := creep (s_mem s) 0%nat) in *. set (b := creep (s_mem s) 1%nat) in *.
  assert (VF : forall y, F y 0%nat = 0 /\ F y 1%nat = (y 1%nat - y 0%nat - a) - (y 2%nat - y 1%nat - b) - 1 /\ F y 2%nat = (y 2%nat - y 1%nat - b) - 1 / 2).
  { intros y. destruct (HF y) as (L & H1 & ->). rewrite tab3 in H1. rewrite (bar_force _ _ _ _ _ _ H1). repeat split. }
  set (hg := 1). assert (N := newton_pure 3 bar_inverse F J hg exact_options x0 (F x0)).
  change (l_solver pull) with (newton_solver 3 bar_inverse exact_options) in Pu. rewrite Pu in N. injection N as N1 N2.
  destruct (VF x0) as (V0 & V1 & V2). rewrite B0, B1, B2 in V1. rewrite B1, B2 in V2.
  destruct (newton_affine hg (sys 3 bar_inverse F J) exact_options x0 (F x0) (F x0) (norm2 3 (F x0)) eq_refl eq_refl) as (W1 & _ & W3).
  - assert (X := entry_norm 3 (F x0) 2 ltac:(lia)). rewrite V2 in X. assert (Y : 0 < Rabs (0 - 0 - b - 1 / 2)) by (apply Rabs_pos_lt; lra). lra.
  - eexists. split; [reflexivity|]. cbn [sys_norm sys sys_lin]. f_equal. apply norm2_zero. intros i Hi.
    destruct (VF (shifted x0 (-1) (bar_inverse (J x0) (F x0)))) as (Z0 & Z1 & Z2).
    destruct i as [|[|[|i]]]; [exact Z0| | |lia].
    + rewrite Z1. unfold shifted, bar_inverse. rewrite B0, B1, B2, V0, V1, V2. field.
    + rewrite Z2. unfold shifted, bar_inverse. rewrite B1, B2, V1, V2. field.
  - cbn [o_abs exact_options]. lra.
  - cbn [o_rel o_abs exact_options]. rewrite Rmult_0_l. rewrite Rmax_left by lra.
    assert (X := entry_norm 3 (F x0) 2 ltac:(lia)). rewrite V2 in X. assert (Y : 0 < Rabs (0 - 0 - b - 1 / 2)) by (apply Rabs_pos_lt; lra). lra.
  - cbn; lia.
  - cbn; lia.
  - rewrite W1 in N2. cbn [as_bool] in N2. subst ok. rewrite W3 in N1. cbn [sys_lin sys] in N1.
    assert (Us' : s_u s' = [s_t s + 1; s_t s + 1 + 3 / 2 + a; s_t s + 1 + 2 + a + b]).
    { rewrite Us, N1, tab3. unfold shifted, bar_inverse. rewrite B0, B1, B2, V0, V1, V2. f_equal; [ring|]. f_equal; [field|]. f_equal. field. }
    exists s'. split; [exact E|]. cbv zeta. fold a b. split; [exact Us'|]. split; [|split; [|split; [|split; [exact Fl|exact Sd']]]].
    + assert (Fr := adv_react _ _ _ _ _ _ _ _ _ A). rewrite Us' in Fr. rewrite (bar_force _ _ _ _ _ _ Fr). fold a b. f_equal; [field|]. f_equal; [field|]. f_equal. field.
    + unfold creep at 1. rewrite (proj1 (adv_material _ _ _ _ _ _ _ _ _ A) 0%nat _ 0%nat bar_kernel 0%nat 0%nat eq_refl eq_refl) by (cbn; lia).
      rewrite Us'. cbv -[Rplus Rmult Ropp Rminus Rinv Rdiv IZR m_q a b s_t s_mem]. fold (creep (s_mem s) 0%nat). fold a. field.
    + unfold creep at 1. rewrite (proj1 (adv_material _ _ _ _ _ _ _ _ _ A) 0%nat _ 0%nat bar_kernel 1%nat 0%nat eq_refl eq_refl) by (cbn; lia).
      rewrite Us'. cbv -[Rplus Rmult Ropp Rminus Rinv Rdiv IZR m_q a b s_t s_mem]. fold (creep (s_mem s) 1%nat). fold b. field.
Qed.
End Bar.

Definition bar_start : state := {| s_u := [0; 0; 0]; s_t := 0; s_cycle := 0; s_mem := fresh 0; s_prev := fun _ => [0; 0; 0]; s_react := [0; 0; 0];
  s_saved := [[0; 0; 0]]; s_files := [([0; 0; 0], [0; 0; 0])] |}.
Lemma bar_start_sound : sound 3 bar_sizes bar_start.
Proof. split; [reflexivity|]. intros H. cbn in H. lia. Qed.

(** the first step, and the same step after a reset *)
Theorem bar_runs : exists c s1 s2, ready bar 3 c bar_sizes /\ step bar 3 c clamped pulled pull bar_start = Ok (s1, true) /\
  s_u s1 = [1; 5 / 2; 3] /\ s_react s1 = [-2; 0; 0] /\ last (s_files s1) ([], []) = ([1; 5 / 2; 3], [0; 0; 0]) /\
  creep (s_mem s1) 0%nat = 3 / 4 /\ creep (s_mem s1) 1%nat = 1 / 4 /\
  step bar 3 c clamped pulled pull (reset_states 3 0 s1) = Ok (s2, true) /\ s_u s2 = [1; 13 / 4; 4].
Proof.
  destruct bar_ready as (c & Rc). exists c.
  destruct (bar_step c Rc bar_start 0 bar_start_sound eq_refl) as (s1 & E & U & Re & A & B & Fl & Sd); [cbn; lra|]. cbn [bar_start s_t s_mem] in *. change (creep (fresh 0) 0%nat) with 0 in *. change (creep (fresh 0) 1%nat) with 0 in *.
  destruct (bar_step c Rc (reset_states 3 0 s1) 0) as (s2 & E2 & U2 & _).
  - split; [reflexivity|]. cbn. intros H. lia.
  - reflexivity.
  - cbn [reset_states s_mem]. rewrite B. lra.
  - exists s1, s2. split; [exact Rc|]. split; [exact E|]. cbn [reset_states s_t s_mem] in U2. rewrite A, B in U2.
    assert (U' : s_u s1 = [1; 5 / 2; 3]) by (rewrite U; f_equal; [ring|]; f_equal; [field|]; f_equal; field).
    repeat split; auto.
    + rewrite Fl, last_last, U'. reflexivity.
    + rewrite A. field.
    + rewrite B. field.
    + rewrite U2. f_equal; [ring|]. f_equal; [field|]. f_equal. field.
Qed.
Theorem reset_differs : exists c s1 s2, ready bar 3 c bar_sizes /\ sound 3 bar_sizes bar_start /\
  s_u bar_start = s_u (reset_states 3 0 s1) /\ s_t bar_start = s_t (reset_states 3 0 s1) /\ s_cycle bar_start = s_cycle (reset_states 3 0 s1) /\
  step bar 3 c clamped pulled pull bar_start = Ok (s1, true) /\ step bar 3 c clamped pulled pull (reset_states 3 0 s1) = Ok (s2, true) /\ s_u s1 <> s_u s2.
Proof.
  destruct bar_runs as (c & s1 & s2 & Rc & E & U & _ & _ & _ & _ & E2 & U2). exists c, s1, s2. split; [exact Rc|]. split; [exact bar_start_sound|].
  repeat (split; [reflexivity|]). split; [exact E|]. split; [exact E2|]. rewrite U, U2. intros Q. injection Q. lra.
Qed.
Theorem files_lag : exists c s1, ready bar 3 c bar_sizes /\ step bar 3 c clamped pulled pull bar_start = Ok (s1, true) /\
  last (s_files s1) ([], []) = (s_u s1, s_react bar_start) /\ s_react s1 <> s_react bar_start.
Proof.
  destruct bar_runs as (c & s1 & s2 & Rc & E & U & Re & Fl & _). exists c, s1. split; [exact Rc|]. split; [exact E|]. rewrite Fl, U, Re.
  split; [reflexivity|]. cbn. intros Q. injection Q. lra.
Qed.
