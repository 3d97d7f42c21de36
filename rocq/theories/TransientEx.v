(** * A bar with mass, held at both ends (C76): one step of each kind *)
From Coq Require Import NArith ZArith Reals List Lia Lra Bool Permutation FunctionalExtensionality.
From Coquelicot Require Import Coquelicot.
From Verif Require Import Prelude DofCodec Sums Restriction Csr Kernels FunctionalModel FunctionalGrad FunctionalTotal Assembly FunctionalEx Tensor BoundaryElim Newton Adjoint Ode
  QuasiStatic QuasiNewton QuasiBalance QuasiAdjoint QuasiEx QuasiAdjointEx Transient TransientFacts.
Import ListNotations.
Local Open Scope R_scope.

(** stress = strain - creep strain, density 1, dead load 1; an update adds half the strain to the creep strain of a point *)
Definition beam_kernel : gkernel R :=
  {| gk_elems := [0%nat; 1%nat]; gk_dim1 := 2; gk_nq := 1; gk_w := fun _ => 1; gk_test := seg_space; gk_trial := fun _ => seg_space;
     gk_qf := fun e q t v st => (fun i b => match b with O => v 1%nat 0%nat 0%nat - 1 | S O => v O O 1%nat - st | _ => 0 end, st + v O O 1%nat / 2);
     gk_ad := fun s e q t v st => fun i b j a => match s, b, a with O, S O, S O => 1 | S O, O, O => 1 | _, _, _ => 0 end |}.
Definition beam : functional R :=
  {| f_test := fun dt => match dt with Elements => [seg1] | BoundaryElements => [] end;
     f_trial := fun _ dt => match dt with Elements => [seg1] | BoundaryElements => [] end;
     f_integrals := [{| i_type := Elements; i_active := [0%nat; 1%nat]; i_geoms := [beam_kernel] |}] |}.
(** both ends are held, and one of them moves *)
Definition ends (i : nat) : bool := negb (Nat.eqb i 1).
Definition moving_end (t : R) : vec := fun i => if Nat.eqb i 2 then 3 * t else 0.
(** exact for eliminated matrices *)
Definition middle_inverse (A : mat) (b : vec) : vec := fun i => if Nat.eqb i 1 then b 1%nat / A 1%nat 1%nat else b i.
Definition middle_solver : vec -> solver := newton_solver 3 middle_inverse exact_options.
Definition no_params : nat -> list R := fun _ => [0; 0; 0].

Lemma beam_assembly w : (w < 2)%nat -> wf_assembly beam w 3 3.
Proof.
  intros Hw. split; [|split; [|split; [|split]]].
  - intros [|] r H; cbn in H; [|contradiction]. destruct H as [<-|[]]. split; [apply seg1_plain|apply seg1_ids].
  - intros [|] r H; cbn in H; [|contradiction]. destruct H as [<-|[]]. split; [apply seg1_plain|apply seg1_ids].
  - intros [|]; reflexivity.
  - intros Ig [<-|[]]. reflexivity.
  - intros Ig s g G rt rr [<-|[]] Hs HG Ht Hr. destruct g as [|g]; [|destruct g; discriminate].
    inversion HG; inversion Ht; inversion Hr; subst. repeat split. intros el [<-|[<-|[]]]; cbn; lia.
Qed.
Lemma beam_same w : same_elements beam w.
Proof. intros [|] rt rr [|g] H1 H2; cbn in H1, H2; try discriminate; try (destruct g; discriminate). inversion H1; inversion H2; subst. reflexivity. Qed.
Lemma beam_ready : exists c, ready beam 3 c bar_sizes /\ ready_for beam 3 bar_sizes 0 3 c.
Proof.
  destruct (table_for_mesh 3 (blocks_of beam 0 Elements) (map fst (lut_keys (emitted_all (blocks_of beam 0 Elements))))) as (c & _ & B).
  - intros te tr [E|[]]. inversion E; subst. split; [apply seg1_plain|]. split; [apply seg1_plain|]. split; reflexivity.
  - apply seg_coupled.
  - lia.
  - apply Permutation_refl.
  - exists c. split.
    + split; [|split; [reflexivity|split; [now apply beam_assembly; lia|split; [apply beam_same|split; [exact B|split; [lia|]]]]]].
      * intros Ig [<-|[]]. split; [|split; [|split]].
        -- intros r [<-|[]]. apply seg1_ids.
        -- intros w r [<-|[]]. apply seg1_ids.
        -- reflexivity.
        -- constructor; [intros [H|[]]; discriminate|]. constructor; [intros []|constructor].
      * intros x (te & tr & e & i & j & k & l & [] & _).
    + split; [reflexivity|]. split; [apply beam_assembly; lia|]. split; [apply beam_same|]. split; [exact B|].
      intros x (te & tr & e & i & j & k & l & [] & _).
Qed.
Lemma middle_keeps : keeps_unit_rows 3 ends middle_inverse.
Proof. intros A b i _ E. unfold ends in E. apply negb_true_iff in E. unfold middle_inverse. now rewrite E. Qed.
Lemma no_params_fit : params_fit bar_sizes no_params.
Proof. intros w. reflexivity. Qed.
Lemma derive_less (x : R -> R) dx k : is_derive x 0 dx -> is_derive (fun e => x e - k) 0 dx.
Proof. intros H. apply derive_of in H as [E H]. auto_derive; [exact E|rewrite H; ring]. Qed.
Lemma beam_joint t Ls m : ad_joint beam t Ls m.
Proof.
  intros n Ig g K e q Hn HG He Hq v cv d Hc Hv i b. destruct n as [|n]; [|destruct n; discriminate]. cbn in Hn. injection Hn as <-.
  destruct g as [|g]; [|destruct g; discriminate]. cbn in HG. injection HG as <-. clearbody v. cbn [gk_qf beam_kernel fst i_active length gk_trial gk_dim1 gk_ad].
  unfold chain_rule. cbn [es_c seg_space sumn].
  destruct b as [|[|b]]; cbv beta iota.
  - replace (_ + _) with (d 1%nat 0%nat 0%nat) by ring. apply (derive_less (fun eps => cv eps 1%nat 0%nat 0%nat)). apply Hc.
  - replace (_ + _) with (d 0%nat 0%nat 1%nat) by ring. apply (derive_less (fun eps => cv eps 0%nat 0%nat 1%nat)). apply Hc.
  - replace (_ + _) with 0 by ring. apply (is_derive_const (K := R_AbsRing) (V := R_NormedModule)).
Qed.
Lemma beam_ad t Ls m : ad_correct_at beam 0 t Ls m.
Proof.
  intros n Ig s g K e q Hn Hs HG He Hq v d i b. destruct n as [|n]; [|destruct n; discriminate]. cbn in Hn. injection Hn as <-.
  cbn in Hs. injection Hs as <-.
  destruct g as [|g]; [|destruct g; discriminate]. cbn in HG. injection HG as <-. clearbody v. cbn [gk_qf beam_kernel fst i_active length gk_trial gk_dim1 gk_ad].
  unfold chain_rule, shift_slots. cbn [es_c seg_space sumn Nat.eqb].
  destruct b as [|[|b]]; cbv beta iota; auto_derive; auto; ring.
Qed.

Section Beam.
Variable c : csr.
Hypothesis Rc : ready beam 3 c bar_sizes.
Hypothesis Rd : ready_for beam 3 bar_sizes 0 3 c.
Lemma beam_force t m a0 a1 a2 u0 u1 u2 L : force beam 3 t (inputs no_params [a0; a1; a2]) m [u0; u1; u2] L ->
  L = [(a0 + a1) / 4 - (u1 - u0 - creep m 0%nat) - 1 / 2;
       (a0 + 2 * a1 + a2) / 4 + (u1 - u0 - creep m 0%nat) - (u2 - u1 - creep m 1%nat) - 1;
       (a1 + a2) / 4 + (u2 - u1 - creep m 1%nat) - 1 / 2].
Proof.
  intros (m' & E). assert (Fo : fitting bar_sizes (inputs no_params [a0; a1; a2])) by (intros [|w]; reflexivity).
  destruct (evaluate_quiet beam 3 c bar_sizes Rc t None _ [u0; u1; u2] m m Fo eq_refl (same_refl m)) as (L' & m1 & A & _ & B & C & _).
  rewrite A in E. injection E as E _. subst L'. apply (same_list 3); [exact B|reflexivity|]. intros k Hk. rewrite C by exact Hk.
  destruct k as [|[|[|k]]]; [| | |lia]; cbv -[Rplus Rmult Ropp Rminus Rinv Rdiv IZR m_q]; unfold creep; field.
Qed.
(** the entry of the Jacobian at the free dof *)
Lemma middle_jacobian t m c0 w F J x : of_motion beam 3 c c ends m t no_params c0 w F J -> J x 1%nat 1%nat = 1 / 2 + 2 * c0.
Proof.
  intros [HF HJ]. destruct (HJ x) as (K & M & HK & HM & ->). cbn [eliminate ends Nat.eqb negb orb].
  change (eliminate ends (fun i j => M i j + c0 * K i j) 1%nat 1%nat) with (M 1%nat 1%nat + c0 * K 1%nat 1%nat).
  set (dx := fun j => if Nat.eqb j 1 then 1 else 0).
  assert (D := motion_jacobian beam 3 c c bar_sizes Rc Rd t no_params c0 w m x dx K M
    (fun eps => let u := vadd c0 w (fun j => x j + eps * dx j) in let a := fun j => x j + eps * dx j in
      [(a 0%nat + a 1%nat) / 4 - (u 1%nat - u 0%nat - creep m 0%nat) - 1 / 2;
       (a 0%nat + 2 * a 1%nat + a 2%nat) / 4 + (u 1%nat - u 0%nat - creep m 0%nat) - (u 2%nat - u 1%nat - creep m 1%nat) - 1;
       (a 1%nat + a 2%nat) / 4 + (u 2%nat - u 1%nat - creep m 1%nat) - 1 / 2]) 1%nat no_params_fit (beam_joint _ _ _) HK HM).
  assert (D' : is_derive (fun eps : R => (x 0%nat + eps * 0 + 2 * (x 1%nat + eps * 1) + (x 2%nat + eps * 0)) / 4 +
     ((w 1%nat + c0 * (x 1%nat + eps * 1)) - (w 0%nat + c0 * (x 0%nat + eps * 0)) - creep m 0%nat) -
     ((w 2%nat + c0 * (x 2%nat + eps * 0)) - (w 1%nat + c0 * (x 1%nat + eps * 1)) - creep m 1%nat) - 1) 0 (mvec 3 (fun i j => M i j + c0 * K i j) dx 1)).
  { apply D; [|lia]. intros eps. rewrite !tab3. cbv zeta.
    match goal with |- force _ _ _ (inputs _ [?a; ?b; ?d]) _ [?e; ?g; ?h] _ =>
      destruct (force_exists beam 3 c bar_sizes Rc t (inputs no_params [a; b; d]) [e; g; h] m ltac:(intros [|k]; reflexivity) eq_refl) as (L & HL & _) end.
    assert (E := beam_force _ _ _ _ _ _ _ _ _ HL). rewrite <- E. exact HL. }
  assert (D2 : is_derive (fun eps : R => (x 0%nat + eps * 0 + 2 * (x 1%nat + eps * 1) + (x 2%nat + eps * 0)) / 4 +
     ((w 1%nat + c0 * (x 1%nat + eps * 1)) - (w 0%nat + c0 * (x 0%nat + eps * 0)) - creep m 0%nat) -
     ((w 2%nat + c0 * (x 2%nat + eps * 0)) - (w 1%nat + c0 * (x 1%nat + eps * 1)) - creep m 1%nat) - 1) 0 (1 / 2 + 2 * c0))
    by (auto_derive; [exact Logic.I|field]).
  apply is_derive_unique in D', D2. rewrite D2 in D'. rewrite D'. unfold mvec, dx. cbn [sumn Nat.eqb]. ring.
Qed.
Lemma middle_tangent t m others F J x : fitting bar_sizes (inputs no_params others) -> of_material beam 3 c ends m t (inputs no_params others) F J -> J x 1%nat 1%nat = 2.
Proof.
  intros Fo [HF HJ]. destruct (HJ x) as (K & HK & ->). change (eliminate ends K 1%nat 1%nat) with (K 1%nat 1%nat).
  destruct others as [|a0 [|a1 [|a2 [|]]]]; try (assert (X := Fo 0%nat); discriminate X).
  assert (D := tangent_derivative beam 3 c bar_sizes Rc t _ m (tab 3 x) [0; 1; 0] K
    (fun eps => [(a0 + a1) / 4 - ((x 1%nat + eps * 1) - (x 0%nat + eps * 0) - creep m 0%nat) - 1 / 2;
       (a0 + 2 * a1 + a2) / 4 + ((x 1%nat + eps * 1) - (x 0%nat + eps * 0) - creep m 0%nat) - ((x 2%nat + eps * 0) - (x 1%nat + eps * 1) - creep m 1%nat) - 1;
       (a1 + a2) / 4 + ((x 2%nat + eps * 0) - (x 1%nat + eps * 1) - creep m 1%nat) - 1 / 2]) 1%nat Fo (tab_length 3 x) eq_refl (beam_ad _ _ _) HK).
  assert (D' : is_derive (fun eps : R => (a0 + 2 * a1 + a2) / 4 + ((x 1%nat + eps * 1) - (x 0%nat + eps * 0) - creep m 0%nat) - ((x 2%nat + eps * 0) - (x 1%nat + eps * 1) - creep m 1%nat) - 1)
    0 (mvec 3 K (entries [0; 1; 0]) 1)).
  { apply D; [|lia]. intros eps. rewrite !tab3. cbn [nth].
    match goal with |- force _ _ _ _ _ [?e; ?g; ?h] _ =>
      destruct (force_exists beam 3 c bar_sizes Rc t (inputs no_params [a0; a1; a2]) [e; g; h] m Fo eq_refl) as (L & HL & _) end.
    assert (E := beam_force _ _ _ _ _ _ _ _ _ HL). rewrite <- E. exact HL. }
  assert (D2 : is_derive (fun eps : R => (a0 + 2 * a1 + a2) / 4 + ((x 1%nat + eps * 1) - (x 0%nat + eps * 0) - creep m 0%nat) - ((x 2%nat + eps * 0) - (x 1%nat + eps * 1) - creep m 1%nat) - 1) 0 2)
    by (auto_derive; [exact Logic.I|field]).
  apply is_derive_unique in D', D2. rewrite D2 in D'. rewrite D'. unfold mvec, entries. cbn [sumn nth]. ring.
Qed.
Lemma middle_newton F J x0 j : (forall y i, (i < 3)%nat -> ends i = true -> F y i = 0) -> J x0 1%nat 1%nat = j -> F x0 1%nat <> 0 ->
  (forall y, y 0%nat = x0 0%nat -> y 2%nat = x0 2%nat -> y 1%nat = x0 1%nat - F x0 1%nat / j -> F y 1%nat = 0) ->
  exists x, pure F J (middle_solver x0) = (x, true) /\ x 0%nat = x0 0%nat /\ x 1%nat = x0 1%nat - F x0 1%nat / j /\ x 2%nat = x0 2%nat.
Proof.
  intros F0 Ej N Z. set (z := shifted x0 (-1) (middle_inverse (J x0) (F x0))).
  assert (Z0 : z 0%nat = x0 0%nat) by (unfold z, shifted, middle_inverse; cbn [Nat.eqb]; rewrite (F0 x0 0%nat) by (try lia; reflexivity); ring).
  assert (Z2 : z 2%nat = x0 2%nat) by (unfold z, shifted, middle_inverse; cbn [Nat.eqb]; rewrite (F0 x0 2%nat) by (try lia; reflexivity); ring).
  assert (Z1 : z 1%nat = x0 1%nat - F x0 1%nat / j) by (unfold z, shifted, middle_inverse; cbn [Nat.eqb]; rewrite Ej; ring).
  assert (X := entry_norm 3 (F x0) 1 ltac:(lia)). assert (Y : 0 < Rabs (F x0 1%nat)) by now apply Rabs_pos_lt.
  destruct (newton_affine 1 (sys 3 middle_inverse F J) exact_options x0 (F x0) (F x0) (norm2 3 (F x0)) eq_refl eq_refl) as (W1 & _ & W3).
  - lra.
  - eexists. split; [reflexivity|]. cbn [sys_norm sys sys_lin]. f_equal. apply norm2_zero. intros i Hi. fold z.
    destruct i as [|[|[|i]]]; [apply F0; [lia|reflexivity]|now apply Z|apply F0; [lia|reflexivity]|lia].
  - cbn [o_abs exact_options]. lra.
  - cbn [o_rel o_abs exact_options]. rewrite Rmult_0_l. rewrite Rmax_left by lra. lra.
  - cbn; lia.
  - cbn; lia.
  - exists z. split; [|auto]. unfold middle_solver. rewrite (newton_pure 3 middle_inverse F J 1 exact_options x0 (F x0)), W1, W3. reflexivity.
Qed.
(** a solve for the acceleration of the free dof *)
Lemma middle_solve t m c0 w g a ok : 0 <= c0 -> (forall F J, of_motion beam 3 c c ends m t no_params c0 w F J -> pure F J (middle_solver g) = (a, ok)) ->
  let r y := (g 0%nat + 2 * y + g 2%nat) / 4 + (2 * (w 1%nat + c0 * y) - (w 0%nat + c0 * g 0%nat) - (w 2%nat + c0 * g 2%nat)) - creep m 0%nat + creep m 1%nat - 1 in
  r (g 1%nat) <> 0 ->
  ok = true /\ a 0%nat = g 0%nat /\ a 2%nat = g 2%nat /\ a 1%nat = g 1%nat - r (g 1%nat) / (1 / 2 + 2 * c0).
Proof.
  intros Pc H r N. destruct (motion_exists beam 3 c c ends bar_sizes Rc Rd t no_params c0 w m no_params_fit) as (F & J & HFJ).
  assert (E := H F J HFJ). assert (Ej := middle_jacobian t m c0 w F J g HFJ). destruct HFJ as [HF HJ].
  assert (V : forall y, F y 1%nat = (y 0%nat + 2 * y 1%nat + y 2%nat) / 4 + ((w 1%nat + c0 * y 1%nat) - (w 0%nat + c0 * y 0%nat) - creep m 0%nat) -
     ((w 2%nat + c0 * y 2%nat) - (w 1%nat + c0 * y 1%nat) - creep m 1%nat) - 1).
  { intros y. destruct (HF y) as (L & H1 & ->). rewrite !tab3 in H1. rewrite (beam_force _ _ _ _ _ _ _ _ _ H1). reflexivity. }
  assert (V0 : F g 1%nat = r (g 1%nat)) by (rewrite V; unfold r; ring).
  destruct (middle_newton F J g (1 / 2 + 2 * c0)) as (x & P & X0 & X1 & X2).
  - intros y i Hi Eb. destruct (HF y) as (L & _ & ->). unfold zeroed. now rewrite Eb.
  - exact Ej.
  - rewrite V0. exact N.
  - intros y Y0 Y2 Y1. rewrite V, Y0, Y1, Y2, V0. unfold r. field. lra.
  - rewrite E in P. injection P as -> ->. rewrite V0 in X1. auto.
Qed.
Lemma middle_steady t m others g a ok : fitting bar_sizes (inputs no_params others) ->
  (forall F J, of_material beam 3 c ends m t (inputs no_params others) F J -> pure F J (middle_solver g) = (a, ok)) ->
  let r y := (nth 0 others 0 + 2 * nth 1 others 0 + nth 2 others 0) / 4 + (2 * y - g 0%nat - g 2%nat) - creep m 0%nat + creep m 1%nat - 1 in
  r (g 1%nat) <> 0 -> ok = true /\ a 0%nat = g 0%nat /\ a 2%nat = g 2%nat /\ a 1%nat = g 1%nat - r (g 1%nat) / 2.
Proof.
  intros Fo H r N. destruct (material_exists beam 3 c ends bar_sizes Rc t _ m Fo) as (F & J & HFJ).
  assert (E := H F J HFJ). assert (Ej := middle_tangent t m others F J g Fo HFJ). destruct HFJ as [HF HJ].
  assert (Ho : others = [nth 0 others 0; nth 1 others 0; nth 2 others 0]).
  { destruct others as [|a0 [|a1 [|a2 [|]]]]; try (assert (X := Fo 0%nat); discriminate X). reflexivity. }
  assert (V : forall y, F y 1%nat = (nth 0 others 0 + 2 * nth 1 others 0 + nth 2 others 0) / 4 + (y 1%nat - y 0%nat - creep m 0%nat) - (y 2%nat - y 1%nat - creep m 1%nat) - 1).
  { intros y. destruct (HF y) as (L & H1 & ->). rewrite tab3, Ho in H1. rewrite (beam_force _ _ _ _ _ _ _ _ _ H1). reflexivity. }
  assert (V0 : F g 1%nat = r (g 1%nat)) by (rewrite V; unfold r; ring).
  destruct (middle_newton F J g 2) as (x & P & X0 & X1 & X2).
  - intros y i Hi Eb. destruct (HF y) as (L & _ & ->). unfold zeroed. now rewrite Eb.
  - exact Ej.
  - rewrite V0. exact N.
  - intros y Y0 Y2 Y1. rewrite V, Y0, Y1, Y2, V0. unfold r. field.
  - rewrite E in P. injection P as -> ->. rewrite V0 in X1. auto.
Qed.
End Beam.

Definition beam_start : motion := {| d_u := [0; 0; 0]; d_v := [0; 0; 0]; d_a := [0; 0; 0]; d_old := None; d_told := 0; d_t := 0; d_cycle := 0; d_mem := fresh 0;
  d_react := [0; 0; 0]; d_saved := [([0; 0; 0], [0; 0; 0], [0; 0; 0])] |}.
Definition two_seconds : push := {| k_dt := 2; k_params := no_params; k_solver := middle_solver |}.
Definition average_acceleration : integrator := Newmark (1 / 4) (1 / 2).
Lemma creep_fresh e : creep (fresh 0) e = 0.
Proof. reflexivity. Qed.

(** the first Newmark step: the start acceleration of the free dof is 2 *)
Theorem beam_newmark : exists c s', ready beam 3 c bar_sizes /\ ready_for beam 3 bar_sizes 0 3 c /\
  dynamic_step beam 3 c c ends moving_end average_acceleration DirectControl two_seconds beam_start = Ok (s', true) /\
  d_u s' = [0; 13 / 5; 6] /\ d_v s' = [0; 13 / 5; 6] /\ d_a s' = [0; 3 / 5; 6] /\ d_react s' = [- 59 / 20; 0; 91 / 20] /\
  creep (d_mem s') 0%nat = 13 / 10 /\ creep (d_mem s') 1%nat = 17 / 10.
Proof.
  destruct beam_ready as (c & Rc & Rd). assert (Al : step_allowed average_acceleration DirectControl (k_dt two_seconds)) by (cbn; lra).
  destruct (dynamic_step_ok beam 3 c c ends moving_end bar_sizes Rc Rd average_acceleration DirectControl two_seconds beam_start no_params_fit (or_introl Al)) as (s' & ok & E & Mv).
  assert (T := mv_time _ _ _ _ _ _ _ _ _ _ _ _ Mv). cbn [beam_start two_seconds d_t k_dt] in T.
  destruct (mv_goes _ _ _ _ _ _ _ _ _ _ _ _ Mv) as (x & v & a & G & Ux & Uv & Ua & _).
  cbn [goes average_acceleration] in G. cbv zeta in G. destruct G as (a0 & ok0 & ok1 & F0 & Eo & F1 & Ep).
  cbn [first_acceleration beam_start d_old d_told d_u d_v d_mem two_seconds k_params k_solver k_dt d_t] in F0, F1, Ep.
  destruct F0 as (st0 & S0 & H0). unfold setup2 in S0. rewrite is_zero_0 in S0. cbn [negb orb] in S0. injection S0 as <-. cbn [su sguess] in H0.
  set (g0 := merge _ (second _ _ _) _) in H0. set (w0 := merge _ (U _ _) _) in H0.
  assert (P0 : g0 0%nat = 0) by (unfold g0, merge, second, U, held_dofs, moving_end, ends, eps2; cbn [p_ess p_g Nat.eqb negb]; field).
  assert (P1 : g0 1%nat = 0) by reflexivity.
  assert (P2 : g0 2%nat = 0) by (unfold g0, merge, second, U, held_dofs, moving_end, ends, eps2; cbn [p_ess p_g Nat.eqb negb]; field).
  assert (Q0 : w0 0%nat = 0) by reflexivity. assert (Q1 : w0 1%nat = 0) by reflexivity.
  assert (Q2 : w0 2%nat = 0) by (unfold w0, merge, U, held_dofs, moving_end, ends; cbn [p_ess p_g Nat.eqb negb]; field).
  apply (middle_solve c Rc Rd) in H0; [|lra|rewrite P0, P1, P2, Q0, Q1, Q2, !creep_fresh; lra].
  destruct H0 as (-> & A0 & A2 & A1). rewrite P0 in A0. rewrite P2 in A2. rewrite P0, P1, P2, Q0, Q1, Q2, !creep_fresh in A1.
  assert (B0 : a0 0%nat = 0) by exact A0. assert (B1 : a0 1%nat = 2) by (rewrite A1; field). assert (B2 : a0 2%nat = 0) by exact A2.
  clear A0 A1 A2. destruct F1 as (st & S1 & H1).
  destruct (setup_direct 3 ends moving_end (0 + 2) (1 / 4 * 2 * 2) (1 / 2 * 2) (vadd ((0.5 - 1 / 4) * 2 * 2) (vadd 2 (entries [0; 0; 0]) (entries [0; 0; 0])) a0)
    (vadd ((1 - 1 / 2) * 2) (entries [0; 0; 0]) a0)) as (st' & S1' & Hs & Hg); [lra|]. rewrite S1 in S1'. injection S1' as <-.
  assert (W0 : su st 0%nat = 0) by (rewrite Hs; unfold vadd, entries; cbn [nth]; rewrite B0; lra).
  assert (W1 : su st 1%nat = 2) by (rewrite Hs; unfold vadd, entries; cbn [nth]; rewrite B1; lra).
  assert (W2 : su st 2%nat = 0) by (rewrite Hs; unfold vadd, entries; cbn [nth]; rewrite B2; lra).
  assert (G0 : sguess st 0%nat = 0) by (rewrite Hg, <- Hs, W0; unfold ends, moving_end; cbn [Nat.eqb negb]; field).
  assert (G1 : sguess st 1%nat = 0) by (rewrite Hg; reflexivity).
  assert (G2 : sguess st 2%nat = 6) by (rewrite Hg, <- Hs, W2; unfold ends, moving_end; cbn [Nat.eqb negb]; field).
  apply (middle_solve c Rc Rd) in H1; [|lra|rewrite G0, G1, G2, W0, W1, W2, !creep_fresh; lra].
  destruct H1 as (-> & A0 & A2 & A1). rewrite G0 in A0. rewrite G2 in A2. rewrite G0, G1, G2, W0, W1, W2, !creep_fresh in A1.
  assert (A1' : a 1%nat = 3 / 5) by (rewrite A1; field). clear A1. cbn [andb] in Eo. subst ok.
  cbn [patch] in Ep. injection Ep as -> ->.
  assert (Ua' : d_a s' = [0; 3 / 5; 6]) by (rewrite Ua, tab3, A0, A1', A2; reflexivity).
  assert (Ux' : d_u s' = [0; 13 / 5; 6]).
  { rewrite Ux, tab3. unfold vadd, entries. cbn [nth]. rewrite A0, A1', A2, B0, B1, B2. f_equal; [lra|]. f_equal; [lra|]. f_equal. lra. }
  assert (Uv' : d_v s' = [0; 13 / 5; 6]).
  { rewrite Uv, tab3. unfold vadd, entries. cbn [nth]. rewrite A0, A1', A2, B0, B1, B2. f_equal; [lra|]. f_equal; [lra|]. f_equal. lra. }
  exists c, s'. split; [exact Rc|]. split; [exact Rd|]. split; [exact E|]. split; [exact Ux'|]. split; [exact Uv'|]. split; [exact Ua'|].
  assert (Fr := mv_react _ _ _ _ _ _ _ _ _ _ _ _ Mv). rewrite Ux', Ua' in Fr. cbn [two_seconds k_params beam_start d_mem] in Fr.
  split; [rewrite (beam_force c Rc _ _ _ _ _ _ _ _ _ Fr), !creep_fresh; f_equal; [field|]; f_equal; [field|]; f_equal; field|].
  assert (Ms := mv_material _ _ _ _ _ _ _ _ _ _ _ _ Mv). rewrite Ux', Ua' in Ms. destruct Ms as [Ms _]. split; unfold creep.
  - rewrite (Ms 0%nat _ 0%nat beam_kernel 0%nat 0%nat eq_refl eq_refl) by (cbn; lia). cbn [beam_start d_mem].
    cbv -[Rplus Rmult Ropp Rminus Rinv Rdiv IZR d_t]. field.
  - rewrite (Ms 0%nat _ 0%nat beam_kernel 1%nat 0%nat eq_refl eq_refl) by (cbn; lia). cbn [beam_start d_mem].
    cbv -[Rplus Rmult Ropp Rminus Rinv Rdiv IZR d_t]. field.
Qed.

(** the same residual as a heat conductor of capacity and conductivity 1 with heat source 1 *)
Definition cold : warmth := {| w_u := [0; 0; 0]; w_rate := [0; 0; 0]; w_t := 0; w_cycle := 0; w_mem := fresh 0; w_saved := [([0; 0; 0], [0; 0; 0])] |}.
Definition one_second : push := {| k_dt := 1; k_params := no_params; k_solver := middle_solver |}.
Theorem wall_heats : exists c s', ready beam 3 c bar_sizes /\ ready_for beam 3 bar_sizes 0 3 c /\
  heat_step beam 3 c c ends moving_end DirectControl one_second cold = Ok (s', true) /\ w_u s' = [0; 13 / 10; 3] /\ w_rate s' = [0; 13 / 10; 3].
Proof.
  destruct beam_ready as (c & Rc & Rd).
  destruct (heat_step_ok beam 3 c c ends moving_end bar_sizes Rc Rd DirectControl one_second cold no_params_fit) as (s' & ok & E & T & _ & _ & _ & k & H & Hr & Hu).
  cbv zeta in H. cbn [one_second cold k_dt w_t w_mem w_u w_rate k_params k_solver] in H, T, Hu. rewrite T in H.
  destruct (setup1_direct 3 ends moving_end (0 + 1) 1 (entries [0; 0; 0]) ltac:(lra)) as [Hf Hg]. set (g := setup1 _ _ _ _ _) in *.
  assert (G0 : merge (held_dofs 3 ends moving_end) (snd g) (entries [0; 0; 0]) 0%nat = 0) by (change (snd g 0%nat = 0); rewrite Hg by reflexivity; unfold moving_end, entries; cbn [Nat.eqb nth]; field).
  assert (G1 : merge (held_dofs 3 ends moving_end) (snd g) (entries [0; 0; 0]) 1%nat = 0) by reflexivity.
  assert (G2 : merge (held_dofs 3 ends moving_end) (snd g) (entries [0; 0; 0]) 2%nat = 3) by (change (snd g 2%nat = 3); rewrite Hg by reflexivity; unfold moving_end, entries; cbn [Nat.eqb nth]; field).
  assert (W0 : fst g 0%nat = 0) by (rewrite Hf; reflexivity). assert (W1 : fst g 1%nat = 0) by (rewrite Hf; reflexivity). assert (W2 : fst g 2%nat = 0) by (rewrite Hf; reflexivity).
  apply (middle_solve c Rc Rd) in H; [|lra|rewrite G0, G1, G2, W0, W1, W2, !creep_fresh; lra].
  destruct H as (-> & A0 & A2 & A1). rewrite G0 in A0. rewrite G2 in A2. rewrite G0, G1, G2, W0, W1, W2, !creep_fresh in A1.
  assert (A1' : k 1%nat = 13 / 10) by (rewrite A1; field). exists c, s'. split; [exact Rc|]. split; [exact Rd|]. split; [exact E|].
  rewrite Hu, Hr, !tab3. unfold vadd, entries. cbn [nth]. rewrite A0, A1', A2. split; [|reflexivity]. f_equal; [field|]. f_equal; [field|]. f_equal. field.
Qed.
Theorem wall_steady : exists c s', ready beam 3 c bar_sizes /\ ready_for beam 3 bar_sizes 0 3 c /\
  steady_step beam 3 c ends moving_end one_second cold = Ok (s', true) /\ w_u s' = [0; 2; 3].
Proof.
  destruct beam_ready as (c & Rc & Rd).
  destruct (steady_step_ok beam 3 c c ends moving_end bar_sizes Rc Rd one_second cold no_params_fit eq_refl) as (s' & ok & E & T & _ & _ & _ & _ & x & H & Hu).
  cbn [one_second cold k_dt w_t w_mem w_u w_rate k_params k_solver] in H, T. rewrite T in H.
  apply (middle_steady c Rc) in H; [|intros [|w]; reflexivity|].
  2:{ unfold ends, moving_end, entries. cbn [Nat.eqb negb nth]. rewrite !creep_fresh. lra. }
  destruct H as (-> & A0 & A2 & A1). unfold ends, moving_end, entries in A0, A1, A2. cbn [Nat.eqb negb nth] in A0, A1, A2. rewrite !creep_fresh in A1.
  exists c, s'. split; [exact Rc|]. split; [exact Rd|]. split; [exact E|]. rewrite Hu, tab3, A0, A1, A2. f_equal. f_equal; [field|]. f_equal. field.
Qed.

(** a module which starts at time 5 (solid_mechanics.hpp:139-141 takes the time): its operator starts at time 0 all the same (odes.cpp:11-12).
    The bar is at rest in equilibrium, with its end where it should be at time 5 *)
Definition at_five : motion := {| d_u := [0; 8; 15]; d_v := [0; 0; 0]; d_a := [0; 0; 0]; d_old := None; d_told := 0; d_t := 5; d_cycle := 0; d_mem := fresh 0;
  d_react := [0; 0; 0]; d_saved := [([0; 8; 15], [0; 0; 0], [0; 0; 0])] |}.
Theorem start_time_ignored : exists c, ready beam 3 c bar_sizes /\ ready_for beam 3 bar_sizes 0 3 c /\
  (forall i, (i < 3)%nat -> ends i = true -> nth i (d_u at_five) 0 = moving_end (d_t at_five) i) /\
  (exists L, force beam 3 (d_t at_five) (inputs no_params (tab 3 (fun i => curvature moving_end eps2 (d_t at_five) i))) (d_mem at_five) (d_u at_five) L /\ nth 1 L 0 = 0) /\
  exists s' a L, dynamic_step beam 3 c c ends moving_end average_acceleration DirectControl two_seconds at_five = Ok (s', true) /\
    first_acceleration beam 3 c c ends moving_end DirectControl two_seconds at_five a true /\
    kinematics 3 average_acceleration 2 (d_u at_five) (d_v at_five) a (d_u s') (d_v s') (d_a s') /\
    force beam 3 (d_t at_five) (inputs no_params (tab 3 a)) (d_mem at_five) (d_u at_five) L /\ nth 1 L 0 = - 15.
Proof.
  destruct beam_ready as (c & Rc & Rd). exists c. split; [exact Rc|]. split; [exact Rd|]. split; [|split].
  - intros i Hi He. destruct i as [|[|[|i]]]; [|discriminate|  |lia]; unfold moving_end, at_five; cbn [Nat.eqb d_u d_t nth]; ring.
  - destruct (force_exists beam 3 c bar_sizes Rc (d_t at_five) (inputs no_params (tab 3 (fun i => curvature moving_end eps2 (d_t at_five) i))) (d_u at_five) (d_mem at_five)
      (fits_tab beam 3 c bar_sizes Rd _ _ no_params_fit) eq_refl) as (L & HL & _).
    exists L. split; [exact HL|]. rewrite tab3 in HL. cbn [at_five d_u] in HL. apply (beam_force c Rc) in HL. rewrite HL. cbn [nth at_five d_mem]. rewrite !creep_fresh.
    unfold curvature, moving_end, eps2. cbn [Nat.eqb at_five d_t]. field.
  - assert (Al : step_allowed average_acceleration DirectControl (k_dt two_seconds)) by (cbn; lra).
    destruct (dynamic_step_ok beam 3 c c ends moving_end bar_sizes Rc Rd average_acceleration DirectControl two_seconds at_five no_params_fit (or_introl Al)) as (s' & ok & E & Mv).
    destruct (mv_goes _ _ _ _ _ _ _ _ _ _ _ _ Mv) as (x & v & a & G & Ux & Uv & Ua & _).
    cbn [goes average_acceleration] in G. cbv zeta in G. destruct G as (a0 & ok0 & ok1 & F0 & Eo & F1 & Ep). assert (F0' := F0).
    cbn [first_acceleration at_five d_old d_told d_u d_v d_mem two_seconds k_params k_solver k_dt d_t] in F0, F1, Ep.
    destruct F0 as (st0 & S0 & H0). unfold setup2 in S0. rewrite is_zero_0 in S0. cbn [negb orb] in S0. injection S0 as <-. cbn [su sguess] in H0.
    set (g0 := merge _ (second _ _ _) _) in H0. set (w0 := merge _ (U _ _) _) in H0.
    assert (P0 : g0 0%nat = 0) by (unfold g0, merge, second, U, held_dofs, moving_end, ends, eps2; cbn [p_ess p_g Nat.eqb negb]; field).
    assert (P1 : g0 1%nat = 0) by reflexivity.
    assert (P2 : g0 2%nat = 0) by (unfold g0, merge, second, U, held_dofs, moving_end, ends, eps2; cbn [p_ess p_g Nat.eqb negb]; field).
    assert (Q0 : w0 0%nat = 0) by reflexivity. assert (Q1 : w0 1%nat = 8) by reflexivity.
    assert (Q2 : w0 2%nat = 0) by (unfold w0, merge, U, held_dofs, moving_end, ends; cbn [p_ess p_g Nat.eqb negb]; field).
    apply (middle_solve c Rc Rd) in H0; [|lra|rewrite P0, P1, P2, Q0, Q1, Q2, !creep_fresh; lra].
    destruct H0 as (-> & A0 & A2 & A1). rewrite P0 in A0. rewrite P2 in A2. rewrite P0, P1, P2, Q0, Q1, Q2, !creep_fresh in A1.
    assert (B1 : a0 1%nat = - 30) by (rewrite A1; field). clear A1. rename A0 into B0, A2 into B2.
    destruct F1 as (st & S1 & H1).
    destruct (setup_direct 3 ends moving_end (5 + 2) (1 / 4 * 2 * 2) (1 / 2 * 2) (vadd ((0.5 - 1 / 4) * 2 * 2) (vadd 2 (entries [0; 8; 15]) (entries [0; 0; 0])) a0)
      (vadd ((1 - 1 / 2) * 2) (entries [0; 0; 0]) a0)) as (st' & S1' & Hs & Hg); [lra|]. rewrite S1 in S1'. injection S1' as <-.
    assert (W0 : su st 0%nat = 0) by (rewrite Hs; unfold vadd, entries; cbn [nth]; rewrite B0; lra).
    assert (W1 : su st 1%nat = -22) by (rewrite Hs; unfold vadd, entries; cbn [nth]; rewrite B1; lra).
    assert (W2 : su st 2%nat = 15) by (rewrite Hs; unfold vadd, entries; cbn [nth]; rewrite B2; lra).
    assert (G0 : sguess st 0%nat = 0) by (rewrite Hg, <- Hs, W0; unfold ends, moving_end; cbn [Nat.eqb negb]; field).
    assert (G1 : sguess st 1%nat = 0) by (rewrite Hg; reflexivity).
    assert (G2 : sguess st 2%nat = 6) by (rewrite Hg, <- Hs, W2; unfold ends, moving_end; cbn [Nat.eqb negb]; field).
    apply (middle_solve c Rc Rd) in H1; [|lra|rewrite G0, G1, G2, W0, W1, W2, !creep_fresh; lra].
    destruct H1 as (-> & _). cbn [andb] in Eo. subst ok.
    destruct (force_exists beam 3 c bar_sizes Rc (d_t at_five) (inputs no_params (tab 3 a0)) (d_u at_five) (d_mem at_five)
      (fits_tab beam 3 c bar_sizes Rd _ _ no_params_fit) eq_refl) as (L & HL & _).
    exists s', a0, L. split; [exact E|]. split; [exact F0'|]. split; [|split; [exact HL|]].
    + cbn [patch] in Ep. injection Ep as -> ->. intros i Hi. cbn [average_acceleration]. rewrite Ux, Uv, Ua, !nth_tab by exact Hi. unfold vadd, entries, at_five. cbn [d_u d_v]. split; lra.
    + rewrite tab3 in HL. cbn [at_five d_u] in HL. apply (beam_force c Rc) in HL. rewrite HL. cbn [nth at_five d_mem]. rewrite !creep_fresh, B0, B1, B2. field.
Qed.
Lemma beam_pushes : pushes_fit bar_sizes average_acceleration DirectControl [two_seconds; one_second].
Proof. repeat apply Forall_cons; try (split; [exact no_params_fit|left; cbn; lra]). apply Forall_nil. Qed.
(** a step of length zero at time 5, from a displacement which is not in equilibrium *)
Definition off_five : motion := {| d_u := [0; 9; 15]; d_v := [0; 0; 0]; d_a := [0; 0; 0]; d_old := None; d_told := 0; d_t := 5; d_cycle := 0; d_mem := fresh 0;
  d_react := [0; 0; 0]; d_saved := [([0; 9; 15], [0; 0; 0], [0; 0; 0])] |}.
Definition no_time : push := {| k_dt := 0; k_params := no_params; k_solver := middle_solver |}.
Theorem beam_still : exists c s', ready beam 3 c bar_sizes /\ ready_for beam 3 bar_sizes 0 3 c /\
  dynamic_step beam 3 c c ends moving_end average_acceleration DirectControl no_time off_five = Ok (s', true) /\
  d_u s' = [0; 9; 15] /\ d_v s' = [0; 0; 0] /\ d_a s' = [0; -4; 0].
Proof.
  destruct beam_ready as (c & Rc & Rd).
  destruct (dynamic_step_ok beam 3 c c ends moving_end bar_sizes Rc Rd average_acceleration DirectControl no_time off_five no_params_fit (or_intror eq_refl)) as (s' & ok & E & Mv).
  destruct (mv_goes _ _ _ _ _ _ _ _ _ _ _ _ Mv) as (x & v & a & G & Ux & Uv & Ua & _).
  cbn [goes average_acceleration] in G. cbv zeta in G. destruct G as (a0 & ok0 & ok1 & F0 & Eo & F1 & Ep).
  cbn [first_acceleration off_five d_old d_told d_u d_v d_mem no_time k_params k_solver k_dt d_t] in F0, F1, Ep.
  rewrite !Rmult_0_r, Rplus_0_r in F1.
  destruct F0 as (st0 & S0 & H0). unfold setup2 in S0. rewrite is_zero_0 in S0. cbn [negb orb] in S0. injection S0 as <-. cbn [su sguess] in H0.
  destruct F1 as (st1 & S1 & H1). unfold setup2 in S1. rewrite is_zero_0 in S1. cbn [negb orb] in S1. injection S1 as <-. cbn [su sguess] in H1.
  set (g0 := merge _ (second _ _ _) _) in H0. set (w0 := merge _ (U _ _) _) in H0. set (g1 := merge _ (second _ _ _) _) in H1. set (w1 := merge _ (U _ _) _) in H1.
  assert (P0 : g0 0%nat = 0 /\ g0 1%nat = 0 /\ g0 2%nat = 0) by (split; [|split; [reflexivity|]]; unfold g0, merge, second, U, held_dofs, moving_end, ends, eps2; cbn [p_ess p_g Nat.eqb negb]; field).
  assert (P1 : g1 0%nat = 0 /\ g1 1%nat = 0 /\ g1 2%nat = 0) by (split; [|split; [reflexivity|]]; unfold g1, merge, second, U, held_dofs, moving_end, ends, eps2; cbn [p_ess p_g Nat.eqb negb]; field).
  assert (Q0 : w0 0%nat = 0 /\ w0 1%nat = 9 /\ w0 2%nat = 0) by (split; [reflexivity|split; [reflexivity|]]; unfold w0, merge, U, held_dofs, moving_end, ends; cbn [p_ess p_g Nat.eqb negb]; field).
  assert (Q1 : w1 0%nat = 0 /\ w1 1%nat = 9 /\ w1 2%nat = 15).
  { split; [reflexivity|]. split; unfold w1, merge, U, held_dofs, moving_end, ends, vadd, entries; cbn [p_ess p_g Nat.eqb negb nth]; ring. }
  destruct P0 as (p0 & p1 & p2), Q0 as (q0 & q1 & q2), P1 as (p3 & p4 & p5), Q1 as (q3 & q4 & q5).
  apply (middle_solve c Rc Rd) in H0; [|lra|rewrite p0, p1, p2, q0, q1, q2, !creep_fresh; lra]. destruct H0 as (-> & _).
  apply (middle_solve c Rc Rd) in H1; [|lra|rewrite p3, p4, p5, q3, q4, q5, !creep_fresh; lra].
  destruct H1 as (-> & A0 & A2 & A1). rewrite p3 in A0. rewrite p5 in A2. rewrite p3, p4, p5, q3, q4, q5, !creep_fresh in A1.
  cbn [andb] in Eo. subst ok. cbn [patch] in Ep. injection Ep as -> ->.
  exists c, s'. split; [exact Rc|]. split; [exact Rd|]. split; [exact E|]. rewrite Ux, Uv, Ua, !tab3, A0, A1, A2. unfold vadd, entries. cbn [nth].
  split; [f_equal; [ring|f_equal; [ring|f_equal; ring]]|]. split; [f_equal; [ring|f_equal; [ring|f_equal; ring]]|]. f_equal. f_equal. field.
Qed.
