(** * A stiffening bar differentiated by dual numbers (C82) *)
From Coq Require Import NArith ZArith Reals List Lia Lra Bool FunctionalExtensionality.
From Coquelicot Require Import Coquelicot.
From Verif Require Import Prelude DofCodec Sums Restriction Kernels FunctionalModel FunctionalGrad FunctionalTotal FunctionalEx Dual Traced.
Import ListNotations.
Local Open Scope R_scope.

(** the strain of argument 0, and the value of argument 1 *)
Definition strain_and_stiffness : placement := fun i => match i with O => (0, 0, 1)%nat | _ => (1, 0, 0)%nat end.
(** log1p(e) p / (1 + e), doubled in compression, minus the state of the point; a dead load *)
Definition log_law : expr := Bin Div (Bin Mul (Un Log1p (Var 0)) (Var 1)) (Bin Add (Cst 1) (Var 0)).
Definition log_stress (st : R) : expr := Bin Sub (Sel (Var 0) (Cst 0) (Bin Mul (Cst 2) log_law) log_law) (Cst st).
Definition log_body (e q : nat) (t st : R) (i b : nat) : expr := match b with O => Cst (-1) | S O => log_stress st | _ => Cst 0 end.
(** the same in formulas, with the derivatives taken by hand *)
Definition factor (x : R) : R := if Rlt_dec x 0 then 2 else 1.
Definition log_kernel : gkernel R :=
  {| gk_elems := [0%nat; 1%nat]; gk_dim1 := 2; gk_nq := 1; gk_w := fun _ => 1; gk_test := seg_space; gk_trial := fun _ => seg_space;
     gk_qf := fun e q t v st => (fun i b => match b with O => -1 | S O => factor (v O O 1%nat) * (ln (1 + v O O 1%nat) * v 1%nat O O / (1 + v O O 1%nat)) - st | _ => 0 end, st);
     gk_ad := fun s e q t v st => fun i b j a => match s, b, a with
       | O, S O, S O => factor (v O O 1%nat) * (v 1%nat O O * (1 - ln (1 + v O O 1%nat)) / ((1 + v O O 1%nat) * (1 + v O O 1%nat)))
       | S O, S O, O => factor (v O O 1%nat) * (ln (1 + v O O 1%nat) / (1 + v O O 1%nat))
       | _, _, _ => 0 end |}.
Definition log_bar : functional R :=
  {| f_test := fun dt => match dt with Elements => [seg1] | BoundaryElements => [] end;
     f_trial := fun _ dt => match dt with Elements => [seg1] | BoundaryElements => [] end;
     f_integrals := [{| i_type := Elements; i_active := [0%nat; 1%nat]; i_geoms := [log_kernel] |}] |}.

Lemma log_placed : placed log_kernel 2 strain_and_stiffness.
Proof. intros [|i]; cbn; lia. Qed.
Lemma log_written : written log_kernel strain_and_stiffness log_body.
Proof.
  split.
  - intros e q t v st i b y E. cbn [gk_qf log_kernel fst]. destruct b as [|[|b]]; cbn [log_body] in E; [injection E as <-; reflexivity| |injection E as <-; reflexivity].
    unfold log_stress, log_law in E. cbn [eval obind un_std bin_std read strain_and_stiffness] in E. unfold factor, std_log, std_div in *.
    destruct (Rlt_dec 0 (1 + v O O 1%nat)) as [P|P]; cbn [obind] in E.
    + destruct (Req_EM_T (1 + v O O 1%nat) 0) as [Z|Z]; [lra|]. cbn [obind] in E. destruct (Rlt_dec (v O O 1%nat) 0); cbn [obind] in E; injection E as <-; field; exact Z.
    + destruct (Rlt_dec (v O O 1%nat) 0); cbn [obind] in E; discriminate.
  - intros s e q t v st i b r E j a Hj Ha. cbn in Hj. assert (j = 0%nat) by lia. subst j. cbn [gk_dim1 log_kernel] in *. cbn [gk_ad].
    destruct b as [|[|b]]; cbn [log_body] in E; [cbn in E; injection E as <-; cbn; destruct s as [|[|]]; reflexivity| |cbn in E; injection E as <-; cbn; destruct s as [|[|]]; reflexivity].
    unfold log_stress, log_law in E.
    destruct s as [|[|s]].
    + cbn [deval obind promoted strain_and_stiffness Nat.eqb apply_un un_dual apply_bin bin_ds bin_dd bin_sd option_map is_dual kind orb get_value] in E.
      unfold std_log, gdiv, std_div, factor in *. destruct (Rlt_dec 0 (1 + v O O 1%nat)) as [P|P].
      * destruct (Req_EM_T (1 + v O O 1%nat) 0) as [Z|Z]; [lra|]. assert (Z2 : (1 + v O O 1%nat) * (1 + v O O 1%nat) <> 0) by (apply Rmult_integral_contrapositive; auto).
        destruct (Rlt_dec (v O O 1%nat) 0); repeat (cbn [obind option_map apply_bin bin_dd bin_ds bin_sd to_dual] in E; unfold std_div, gdiv in E; try (destruct (Req_EM_T (1 + v O O 1%nat) 0) as [Y|_]; [contradiction|]);
            try (destruct (Req_EM_T ((1 + v O O 1%nat) * (1 + v O O 1%nat)) 0) as [Y|_]; [contradiction|])); injection E as <-; cbn [get_gradient];
          destruct a as [|[|a]]; [|  |lia| | |lia]; cbn [Nat.eqb Nat.mul Nat.add]; cbn [gk_ad log_kernel]; unfold factor; try (destruct (Rlt_dec (v O O 1%nat) 0); [|contradiction]); try (destruct (Rlt_dec (v O O 1%nat) 0); [contradiction|]); field; exact Z.
      * destruct (Rlt_dec (v O O 1%nat) 0); cbn [obind option_map] in E; discriminate.
    + cbn [deval obind promoted strain_and_stiffness Nat.eqb apply_un un_std apply_bin bin_ds bin_dd bin_sd bin_std option_map is_dual kind orb get_value] in E.
      unfold std_log, gdiv, std_div, factor in *. destruct (Rlt_dec 0 (1 + v O O 1%nat)) as [P|P].
      * destruct (Req_EM_T (1 + v O O 1%nat) 0) as [Z|Z]; [lra|].
        destruct (Rlt_dec (v O O 1%nat) 0); repeat (cbn [obind option_map apply_bin bin_dd bin_ds bin_sd to_dual] in E; unfold std_div, gdiv in E; try (destruct (Req_EM_T (1 + v O O 1%nat) 0) as [Y|_]; [contradiction|]));
          injection E as <-; cbn [get_gradient];
          destruct a as [|[|a]]; [|  |lia| | |lia]; cbn [Nat.eqb Nat.mul Nat.add]; cbn [gk_ad log_kernel]; unfold factor; try (destruct (Rlt_dec (v O O 1%nat) 0); [|contradiction]); try (destruct (Rlt_dec (v O O 1%nat) 0); [contradiction|]); field; exact Z.
      * destruct (Rlt_dec (v O O 1%nat) 0); cbn [obind option_map] in E; discriminate.
    + cbn [deval obind promoted strain_and_stiffness Nat.eqb apply_un un_std apply_bin bin_std option_map is_dual kind orb get_value] in E.
      unfold std_log, std_div in *. destruct (Rlt_dec 0 (1 + v O O 1%nat)) as [P|P].
      * destruct (Req_EM_T (1 + v O O 1%nat) 0) as [Z|Z]; [lra|]. destruct (Rlt_dec (v O O 1%nat) 0); repeat (cbn [obind option_map apply_bin bin_std] in E; unfold std_div in E; try (destruct (Req_EM_T (1 + v O O 1%nat) 0) as [Y|_]; [contradiction|])); injection E as <-; reflexivity.
      * destruct (Rlt_dec (v O O 1%nat) 0); cbn [obind option_map apply_bin] in E; discriminate.
Qed.
Lemma log_all : all_written log_bar (fun _ _ => strain_and_stiffness) (fun _ _ => log_body).
Proof.
  intros n Ig g G Hn HG. destruct n as [|n]; [|destruct n; discriminate]. cbn in Hn. injection Hn as <-.
  destruct g as [|g]; [|destruct g; discriminate]. cbn in HG. injection HG as <-. split; [apply log_placed|apply log_written].
Qed.
(** wherever the strain of both elements is neither zero nor beyond -1 *)
Lemma log_smooth x st i b e q t : -1 < x 0%nat -> x 0%nat <> 0 -> (exists y, eval (log_body e q t st i b) x = Some y) /\ smooth everything x (log_body e q t st i b).
Proof.
  intros H N. destruct b as [|[|b]]; cbn [log_body]; [split; [now eexists|exact Logic.I]| |split; [now eexists|exact Logic.I]].
  assert (E : eval log_law x = Some (ln (1 + x 0%nat) * x 1%nat / (1 + x 0%nat))).
  { unfold log_law. cbn [eval obind un_std bin_std]. rewrite std_log_ok by lra. cbn [obind bin_std]. unfold std_div. destruct (Req_EM_T (1 + x 0%nat) 0); [lra|reflexivity]. }
  assert (Sm : smooth everything x log_law).
  { unfold log_law. cbn [smooth is_dual everything]. repeat split; auto.
    - intros _ v E1. cbn [eval] in E1. injection E1 as <-. exact H.
    - intros _ v w _ E2. cbn [eval obind bin_std] in E2. injection E2 as <-. cbn [bin_smooth]. lra. }
  unfold log_stress. split.
  - cbn [eval obind bin_std]. destruct (Rlt_dec (x 0%nat) 0); cbn [eval obind bin_std]; rewrite E; cbn [obind bin_std]; now eexists.
  - assert (Sm2 : smooth everything x (Bin Mul (Cst 2) log_law)) by (split; [exact Logic.I|split; [exact Sm|intros _ v w _ _; exact Logic.I]]).
    split; [split; [exact Logic.I|split; [exact Logic.I|]]|split; [exact Logic.I|intros _ v w _ _; exact Logic.I]].
    intros v w E1 E2. cbn [eval] in E1, E2. injection E1 as <-. injection E2 as <-. auto.
Qed.
Lemma log_strains u0 u1 u2 p0 p1 p2 m : -1 < u1 - u0 -> u1 <> u0 -> -1 < u2 - u1 -> u2 <> u1 ->
  forall t, regular log_bar None (fun _ _ => strain_and_stiffness) (fun _ _ => log_body) t (fun w => match w with O => [u0; u1; u2] | _ => [p0; p1; p2] end) m.
Proof.
  intros H1 H2 H3 H4 t n Ig g G e q Hn HG He Hq i b. destruct n as [|n]; [|destruct n; discriminate]. cbn in Hn. injection Hn as <-.
  destruct g as [|g]; [|destruct g; discriminate]. cbn in HG. injection HG as <-. cbn in He, Hq.
  set (v := qf_inputs _ _ _ _ _).
  assert (X : read strain_and_stiffness v 0%nat = match e with O => u1 - u0 | _ => u2 - u1 end).
  { unfold v. destruct e as [|[|e]]; [| |lia]; cbv -[Rplus Rmult Ropp Rminus Rinv Rdiv IZR factor ln]; ring. }
  clearbody v. cbv zeta. apply log_smooth; rewrite X; destruct e as [|[|e]]; try lia; lra.
Qed.
Lemma log_wf : wf log_bar 3 (fun _ => 3%nat).
Proof.
  intros Ig [<-|[]]. split; [|split; [|split]].
  - intros r [<-|[]]. apply seg1_ids.
  - intros w r [<-|[]]. apply seg1_ids.
  - reflexivity.
  - constructor; [intros [H|[]]; discriminate|]. constructor; [intros []|constructor].
Qed.

(** a spring twice as stiff in compression, undeformed: the force has no derivative there, yet one is stored *)
Definition kink_law : expr := Sel (Var 0) (Cst 0) (Bin Mul (Cst 2) (Var 0)) (Var 0).
Definition kink_body (e q : nat) (t : R) (st : unit) (i b : nat) : expr := kink_law.
Definition one_value : placement := fun _ => (0, 0, 0)%nat.
Definition kink_kernel : gkernel unit :=
  {| gk_elems := [0%nat]; gk_dim1 := 1; gk_nq := 1; gk_w := fun _ => 1; gk_test := pt_space; gk_trial := fun _ => pt_space;
     gk_qf := fun e q t v st => (fun _ _ => factor (v O O O) * v O O O, st);
     gk_ad := fun s e q t v st => fun _ _ _ _ => match s with O => factor (v O O O) | _ => 0 end |}.
Definition kink_spring : functional unit := pt_functional [0%nat] kink_kernel.
Lemma kink_all : all_written kink_spring (fun _ _ => one_value) (fun _ _ => kink_body).
Proof.
  intros n Ig g G Hn HG. destruct n as [|n]; [|destruct n; discriminate]. cbn in Hn. injection Hn as <-.
  destruct g as [|g]; [|destruct g; discriminate]. cbn in HG. injection HG as <-. split; [intros i; cbn; lia|]. split.
  - intros e q t v st i b y E. cbn [gk_qf kink_kernel fst]. unfold kink_body, kink_law in E. cbn [eval obind bin_std read one_value] in E.
    unfold factor. destruct (Rlt_dec (v O O O) 0); cbn [eval obind bin_std read one_value] in E; injection E as <-; ring.
  - intros s e q t v st i b r E j a Hj Ha. cbn in Hj, Ha. assert (j = 0%nat) by lia. assert (a = 0%nat) by lia. subst j a. cbn [gk_dim1 kink_kernel] in *. cbn [gk_ad kink_kernel].
    unfold kink_body, kink_law in E. unfold factor. destruct s as [|s].
    + cbn [deval obind promoted one_value Nat.eqb apply_bin bin_sd option_map is_dual kind orb get_value] in E.
      destruct (Rlt_dec (v O O O) 0); cbn [option_map to_dual] in E; injection E as <-; cbn [get_gradient Nat.eqb Nat.mul Nat.add]; ring.
    + cbn [deval obind promoted one_value Nat.eqb apply_bin bin_std option_map is_dual kind orb get_value] in E.
      destruct (Rlt_dec (v O O O) 0); cbn [option_map] in E; injection E as <-; reflexivity.
Qed.
Lemma kink_value u wrt m : exists m', perform kink_spring 1 (at_u u wrt) m = Ok ([factor u * u], m') /\ m' = mem_sum kink_spring 0 wrt false (fun _ => [u]) 0 (f_integrals kink_spring) m.
Proof.
  destruct (perform_mem kink_spring 1 (fun _ => 1%nat) (at_u u wrt) m) as (L & A & B & C).
  - apply pt_wf. repeat constructor. intros [].
  - intros w. reflexivity.
  - eexists. split; [|reflexivity]. rewrite A. repeat f_equal. apply one_elt; auto. rewrite C by lia.
    transitivity (factor (1 * u + 0) * (1 * u + 0)); [|replace (1 * u + 0) with u by ring; reflexivity].
    cbv -[Rplus Rmult Ropp Rminus Rinv IZR factor].
    replace (0 + u) with u by ring. replace (0 + u * 1) with u by ring. replace (1 * u + 0) with u by ring. ring.
Qed.
Lemma kink_action u dx m : action kink_spring 0 (mem_sum kink_spring 0 (Some 0%nat) false (fun _ => [u]) 0 (f_integrals kink_spring) m) [dx] 1 = Ok [factor u * dx].
Proof.
  destruct (action_spec kink_spring 0 (mem_sum kink_spring 0 (Some 0%nat) false (fun _ => [u]) 0 (f_integrals kink_spring) m) 1 (fun _ => 1%nat) [dx] 0 (fun _ => [u]) m) as (A & B & C & D).
  - apply pt_wf. repeat constructor. intros [].
  - reflexivity.
  - apply mem_sum_stored.
  - rewrite B. f_equal. apply one_elt; auto. rewrite D by lia. cbv -[Rplus Rmult Ropp Rminus Rinv IZR factor].
    replace (0 + u * 1) with u by ring. ring.
Qed.
Lemma kink_not_derivable : exists m1 act, perform kink_spring 1 (at_u 0 (Some 0%nat)) (fresh tt) = Ok ([factor 0 * 0], m1) /\ action kink_spring 0 m1 [1] 1 = Ok [act] /\ ~ exists d, is_derive (fun eps => factor (0 + eps * 1) * (0 + eps * 1)) 0 d.
Proof.
  destruct (kink_value 0 (Some 0%nat) (fresh tt)) as (m1 & A & B). exists m1, (factor 0 * 1). split; [exact A|]. split; [subst m1; apply kink_action|].
  intros (d & D). apply is_derive_Reals in D. destruct (D (/ 4) ltac:(lra)) as (del & HD). assert (Pd := cond_pos del).
  assert (H1 := HD (del / 2) ltac:(lra)). assert (H2 := HD (- (del / 2)) ltac:(lra)). rewrite Rabs_pos_eq in H1 by lra. rewrite Rabs_Ropp, Rabs_pos_eq in H2 by lra.
  specialize (H1 ltac:(lra)). specialize (H2 ltac:(lra)). unfold factor in H1, H2.
  destruct (Rlt_dec (0 + (0 + del / 2) * 1) 0) as [X|_]; [lra|]. destruct (Rlt_dec (0 + (0 + - (del / 2)) * 1) 0) as [_|X]; [|lra].
  replace (_ / _ - d) with (1 - d) in H1 by (field; lra). replace (_ / _ - d) with (2 - d) in H2 by (field; lra).
  apply Rabs_def2 in H1. apply Rabs_def2 in H2. lra.
Qed.
Lemma kink_refutes : exists m1 act, perform kink_spring 1 (at_u 0 (Some 0%nat)) (fresh tt) = Ok ([factor 0 * 0], m1) /\
  action kink_spring 0 m1 [1] 1 = Ok [act] /\ all_written kink_spring (fun _ _ => one_value) (fun _ _ => kink_body) /\
  (forall u wrt m, exists m', perform kink_spring 1 (at_u u wrt) m = Ok ([factor u * u], m')) /\
  ~ exists d, is_derive (fun eps => factor (0 + eps * 1) * (0 + eps * 1)) 0 d.
Proof.
  destruct kink_not_derivable as (m1 & act & A & B & C). exists m1, act. split; [exact A|]. split; [exact B|]. split; [exact kink_all|]. split; [|exact C].
  intros u wrt m. destruct (kink_value u wrt m) as (m' & E & _). now exists m'.
Qed.
Lemma product_acts : acts (fun _ => 3) (fun i => Nat.eqb i 0) (Bin Mul (Var 0) (Var 1)) 9 [(0%nat, 3 * 1)].
Proof.
  intros ins H. destruct (H 0%nat) as (V0 & K0). destruct (H 1%nat) as (V1 & K1). cbn in K0, K1. cbn [deval obind].
  rewrite (gradient_dua _ K0), (gradient_dbl _ K1), V0, V1. cbn [apply_bin bin_ds]. eexists. split; [reflexivity|]. split; [cbn; ring|]. split; [reflexivity|].
  intros d. cbn. rewrite (gradient_dua _ K0). cbn. ring.
Qed.
