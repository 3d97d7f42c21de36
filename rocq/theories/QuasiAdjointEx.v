(** * Reverse passes on a one-node model (C74)

    A functional with two displacement dofs at one node and a parameter field with two entries of which the first is used; dof 1 is held
    and moves with time. *)
From Coq Require Import NArith ZArith Reals List Lia Lra Bool Permutation FunctionalExtensionality.
From Coquelicot Require Import Coquelicot.
From Verif Require Import Prelude DofCodec Sums Restriction Csr Kernels FunctionalModel FunctionalGrad FunctionalTotal Assembly FunctionalEx Tensor MatAlg BoundaryElim Adjoint AdjointDeriv QuasiStatic QuasiAdjoint QuasiGradient.
Import ListNotations.
Local Open Scope R_scope.

Definition both : restriction :=
  {| r_ordering := byNODES; r_components := 2; r_num_nodes := 1; r_nodes_per_elem := 1; r_dofs := [[mk_dof 0 0 0]]%N |}.
Definition both_space : elem_space := {| es_c := 2; es_n := 1; es_B := fun _ _ _ => 1 |}.
(** forces, their derivatives by displacement (argument 0) or parameter (argument 1), and the update of the material state *)
Record law := { fo : nat -> R -> R -> R -> R -> R; df : nat -> nat -> nat -> R -> R -> R -> R -> R; up : R -> R -> R -> R }.
Definition node_kernel (G : law) : gkernel R :=
  {| gk_elems := [0%nat]; gk_dim1 := 1; gk_nq := 1; gk_w := fun _ => 1; gk_test := both_space; gk_trial := fun _ => both_space;
     gk_qf := fun e q t v st => (fun i b => fo G i (v O O O) (v O 1%nat O) (v 1%nat O O) st, up G (v O O O) (v O 1%nat O) st);
     gk_ad := fun s e q t v st => fun i b j a => df G s i j (v O O O) (v O 1%nat O) (v 1%nat O O) st |}.
Definition node (G : law) : functional R :=
  {| f_test := fun dt => match dt with Elements => [both] | BoundaryElements => [] end;
     f_trial := fun _ dt => match dt with Elements => [both] | BoundaryElements => [] end;
     f_integrals := [{| i_type := Elements; i_active := [0%nat; 1%nat]; i_geoms := [node_kernel G] |}] |}.
Definition two (v : nat) : nat := 2%nat.
Definition none (v : nat) : list R := [0; 0].
Definition held (i : nat) : bool := Nat.eqb i 1.
Definition moved (t : R) : vec := fun _ => t.

Lemma both_plain : plain both.
Proof. split; [|reflexivity]. intros row [<-|[]]. split; [reflexivity|]. intros d [<-|[]]. exists 0%nat. split; [cbn; lia|reflexivity]. Qed.
Lemma both_ids : ids_ok both 2.
Proof. apply (plain_ids_ok both both_plain). Qed.

Section Node.
Variable G : law.
Lemma node_wf_assembly v : (v < 2)%nat -> wf_assembly (node G) v 2 2.
Proof.
  intros Hv. split; [|split; [|split; [|split]]].
  - intros [|] r H; cbn in H; [|contradiction]. destruct H as [<-|[]]. split; [apply both_plain|apply both_ids].
  - intros [|] r H; cbn in H; [|contradiction]. destruct H as [<-|[]]. split; [apply both_plain|apply both_ids].
  - intros [|]; reflexivity.
  - intros Ig [<-|[]]. reflexivity.
  - intros Ig s g K rt rr [<-|[]] Hs HG Ht Hr. cbn in Hs. destruct g as [|g]; [|destruct g; discriminate].
    inversion HG; inversion Ht; inversion Hr; subst. repeat split. intros el [<-|[]]; cbn; lia.
Qed.
Lemma node_same v : same_elements (node G) v.
Proof. intros [|] rt rr [|g] H1 H2; cbn in H1, H2; try discriminate; try (destruct g; discriminate). inversion H1; inversion H2; subst. reflexivity. Qed.
Lemma node_wf : wf (node G) 2 two.
Proof.
  intros Ig [<-|[]]. split; [|split; [|split]].
  - intros r [<-|[]]. apply both_ids.
  - intros v r [<-|[]]. apply both_ids.
  - reflexivity.
  - repeat constructor; intros []; try discriminate; auto.
Qed.
Lemma node_table v : exists c, valid_csr 2 (coupled (blocks_of (node G) v Elements)) c.
Proof.
  destruct (table_for_mesh 2 (blocks_of (node G) v Elements) (map fst (lut_keys (emitted_all (blocks_of (node G) v Elements))))) as (c & _ & B).
  - intros te tr [E|[]]. inversion E; subst. split; [apply both_plain|]. split; [apply both_plain|]. split; reflexivity.
  - intros i Hi. destruct i as [|[|i]]; [| |lia].
    + exists 0%Z, both, both, 0%nat, 0%nat, 0%nat, 0%nat, 0%nat. repeat split; cbn; auto; lia.
    + exists 0%Z, both, both, 0%nat, 0%nat, 0%nat, 1%nat, 0%nat. repeat split; cbn; auto; lia.
  - lia.
  - apply Permutation_refl.
  - exists c. exact B.
Qed.
Lemma node_ready : exists c, ready (node G) 2 c two.
Proof.
  destruct (node_table 0) as (c & B). exists c. split; [apply node_wf|]. split; [reflexivity|]. split; [apply node_wf_assembly; lia|]. split; [apply node_same|].
  split; [exact B|]. split; [lia|]. intros x (te & tr & e & i & j & k & l & [] & _).
Qed.
Lemma node_ready_for : exists cw, ready_for (node G) 2 two 0 2 cw.
Proof.
  destruct (node_table 1) as (c & B). exists c. split; [reflexivity|]. split; [apply node_wf_assembly; lia|]. split; [apply node_same|].
  split; [exact B|]. intros x (te & tr & e & i & j & k & l & [] & _).
Qed.

Variable c cw : csr.
Hypothesis Rc : ready (node G) 2 c two.
Hypothesis Rw : ready_for (node G) 2 two 0 2 cw.
Definition with_p (p : R) : nat -> list R := with_param none 0 [p; 0].
Lemma p_fits p : fitting two (with_p p).
Proof. intros [|v]; reflexivity. Qed.
Definition mat_state (m : mem R) : R := m_q m 0%nat 0%nat 0%nat 0%nat.

Lemma node_force t m p a b L : force (node G) 2 t (with_p p) m [a; b] L -> L = [fo G 0 a b p (mat_state m); fo G 1 a b p (mat_state m)].
Proof.
  intros (m' & E).
  destruct (evaluate_quiet (node G) 2 c two Rc t None (with_p p) [a; b] m m (p_fits p) eq_refl (same_refl m)) as (L' & m1 & A & _ & B & C & _).
  rewrite A in E. injection E as E _. subst L'. apply (same_list 2); [exact B|reflexivity|]. intros k Hk. rewrite C by exact Hk.
  destruct k as [|[|k]]; [| |lia]; cbv -[Rplus Rmult Ropp Rminus Rinv Rdiv IZR m_q fo]; rewrite ?Rmult_1_l, ?Rmult_1_r, ?Rplus_0_l, ?Rplus_0_r; reflexivity.
Qed.

Lemma sum2 (g : nat -> R) : sumn 2 g = g 0%nat + g 1%nat.
Proof. cbn [sumn]. ring. Qed.
Lemma node_tangent t m p a b A : tangent (node G) 2 c t (with_p p) m [a; b] A -> forall i j, (i < 2)%nat -> (j < 2)%nat -> A i j = df G 0 i j a b p (mat_state m).
Proof.
  intros (L & m1 & V & E & B & ->) i j Hi Hj. pose proof Rc as (_ & _ & WA & SE & VC & _ & Bd).
  destruct (evaluate_quiet (node G) 2 c two Rc t (Some 0%nat) (with_p p) [a; b] m m (p_fits p) eq_refl (same_refl m)) as (L' & m2 & E2 & _ & _ & _ & Em).
  rewrite E2 in E. injection E as _ <-. assert (Sd := mem_sum_stored (node G) 0 t false (inputs (with_p p) [a; b]) m). rewrite <- Em in Sd.
  assert (X : sumn 2 (fun k => csr_entry c V i k * nth k (tab 2 (fun k => if Nat.eqb k j then 1 else 0)) 0) = df G 0 i j a b p (mat_state m)).
  { rewrite (assembled_rows (node G) 2 c two Rc 0 m2 c V 2) with (dx := tab 2 (fun k => if Nat.eqb k j then 1 else 0)); auto; [|exact (written_of _ _ _ _ _ _ Sd)]. rewrite Em.
    destruct i as [|[|i]]; [| |lia]; (destruct j as [|[|j]]; [| |lia]); cbv -[Rplus Rmult Ropp Rminus Rinv Rdiv IZR m_q df]; rewrite ?Rmult_1_l, ?Rmult_1_r, ?Rplus_0_l, ?Rplus_0_r; ring. }
  rewrite <- X, sum2. destruct j as [|[|j]]; [| |lia]; cbn; ring.
Qed.
Lemma node_param t m p a b P : param_tangent (node G) 2 0 cw t (with_p p) m [a; b] P -> forall i j, (i < 2)%nat -> (j < 2)%nat -> P i j = df G 1 i j a b p (mat_state m).
Proof.
  intros (L & m1 & V & E & B & ->) i j Hi Hj. pose proof Rw as (_ & WA & SE & VC & Bd).
  destruct (evaluate_quiet (node G) 2 c two Rc t (Some 1%nat) (with_p p) [a; b] m m (p_fits p) eq_refl (same_refl m)) as (L' & m2 & E2 & _ & _ & _ & Em).
  rewrite E2 in E. injection E as _ <-. assert (Sd := mem_sum_stored (node G) 1 t false (inputs (with_p p) [a; b]) m). rewrite <- Em in Sd.
  assert (X : sumn 2 (fun k => csr_entry cw V i k * nth k (tab 2 (fun k => if Nat.eqb k j then 1 else 0)) 0) = df G 1 i j a b p (mat_state m)).
  { rewrite (assembled_rows (node G) 2 c two Rc 1 m2 cw V 2) with (dx := tab 2 (fun k => if Nat.eqb k j then 1 else 0)); auto; [|exact (written_of _ _ _ _ _ _ Sd)]. rewrite Em.
    destruct i as [|[|i]]; [| |lia]; (destruct j as [|[|j]]; [| |lia]); cbv -[Rplus Rmult Ropp Rminus Rinv Rdiv IZR m_q df]; rewrite ?Rmult_1_l, ?Rmult_1_r, ?Rplus_0_l, ?Rplus_0_r; ring. }
  rewrite <- X, sum2. destruct j as [|[|j]]; [| |lia]; cbn; ring.
Qed.

(** a step to a displacement which the solver finds at once *)
Definition to (p a b : R) : load :=
  {| l_dt := 1; l_others := with_p p; l_solver := fun _ => Give (fun i => if Nat.eqb i 0 then a else b) true; l_lin := fun _ r => r; l_warm := false |}.
Lemma node_step p a b s : sound 2 two s -> exists s', step (node G) 2 c held moved (to p a b) s = Ok (s', true) /\
  s_u s' = [a; b] /\ s_t s' = s_t s + 1 /\ s_react s' = [fo G 0 a b p (mat_state (s_mem s)); fo G 1 a b p (mat_state (s_mem s))] /\
  mat_state (s_mem s') = up G a b (mat_state (s_mem s)) /\ s_cycle s' = S (s_cycle s) /\ s_saved s' = s_saved s ++ [[a; b]] /\ sound 2 two s'.
Proof.
  intros Sd. destruct (step_ok (node G) 2 c held moved two Rc (to p a b) s Sd (p_fits p)) as (s' & ok & E & A & Sd' & Fl).
  destruct (material_exists (node G) 2 c held two Rc (s_t s') (l_others (to p a b)) (s_mem s) (p_fits p)) as (F & J & H).
  destruct (adv_solve _ _ _ _ _ _ _ _ _ A F J H) as (x0 & x & _ & Pu & Us). cbn [to l_solver pure] in Pu. injection Pu as <- <-.
  change (tab 2 (fun i => if Nat.eqb i 0 then a else b)) with [a; b] in Us.
  exists s'. split; [exact E|]. split; [exact Us|]. split; [exact (adv_time _ _ _ _ _ _ _ _ _ A)|].
  assert (Fr := adv_react _ _ _ _ _ _ _ _ _ A). rewrite Us in Fr. split; [exact (node_force _ _ _ _ _ _ Fr)|].
  split; [|split; [exact (adv_cycle _ _ _ _ _ _ _ _ _ A)|split; [rewrite (adv_saved _ _ _ _ _ _ _ _ _ A), Us; reflexivity|exact Sd']]].
  unfold mat_state at 1. rewrite (proj1 (adv_material _ _ _ _ _ _ _ _ _ A) 0%nat _ 0%nat (node_kernel G) 0%nat 0%nat eq_refl eq_refl) by (cbn; lia).
  rewrite Us. cbv -[Rplus Rmult Ropp Rminus Rinv Rdiv IZR m_q up s_t s_mem]. rewrite ?Rmult_1_l, ?Rmult_1_r, ?Rplus_0_l, ?Rplus_0_r. reflexivity.
Qed.
End Node.
Definition at_rest : state := {| s_u := [0; 0]; s_t := 0; s_cycle := 0; s_mem := fresh 0; s_prev := none; s_react := [0; 0]; s_saved := [[0; 0]]; s_files := [] |}.
Lemma at_rest_sound : sound 2 two at_rest.
Proof. split; [reflexivity|]. intros H. cbn in H. lia. Qed.

(** the linear solver: dof 1 is held *)
Definition solve_free (A : mat) (b : vec) : vec := fun i => if Nat.eqb i 0 then b 0%nat / A 0%nat 0%nat else b i.
Lemma free_ok A : A 0%nat 0%nat <> 0 -> lin_ok 2 [held] solve_free A.
Proof.
  intros H q i Hi. unfold adjoint_solve, adjoint_system, apply_all. cbn [fold_left apply_bc fst snd]. unfold mvec. rewrite sum2.
  destruct i as [|[|i]]; [| |lia]; unfold solve_free, eliminate, eliminate_rhs, removed, mvec, transpose, vz; cbn [Nat.eqb held orb sumn]; [field; exact H|ring].
Qed.
Lemma free_adjoint A q : A 0%nat 0%nat <> 0 -> static_adjoint 2 [held] solve_free A q 0%nat = - q 0%nat / A 0%nat 0%nat /\ static_adjoint 2 [held] solve_free A q 1%nat = 0.
Proof.
  intros H. destruct (static_adjoint_equations 2 [held] solve_free A q (free_ok A H)) as [X Y]. specialize (X 1%nat ltac:(lia) eq_refl). specialize (Y 0%nat ltac:(lia) eq_refl).
  split; [|exact X]. unfold mvec, transpose in Y. rewrite sum2, X in Y. apply (Rmult_eq_reg_l (A 0%nat 0%nat)); [|exact H]. field_simplify; [lra|exact H].
Qed.

Section Two.
Variable G : law.
Variable c cw : csr.
Hypothesis Rc : ready (node G) 2 c two.
Hypothesis Rw : ready_for (node G) 2 two 0 2 cw.
Lemma two_run p1 a1 b1 p2 a2 b2 : exists s1 s2, run_steps (node G) 2 c held moved [to p1 a1 b1; to p2 a2 b2] at_rest = Ok [s1; s2] /\
  s_u s1 = [a1; b1] /\ s_u s2 = [a2; b2] /\ s_t s1 = 1 /\ s_t s2 = 2 /\ s_saved s2 = [[0; 0]; [a1; b1]; [a2; b2]] /\ s_cycle s2 = 2%nat /\
  mat_state (s_mem s1) = up G a1 b1 0 /\ mat_state (s_mem s2) = up G a2 b2 (up G a1 b1 0) /\
  s_react s1 = [fo G 0 a1 b1 p1 0; fo G 1 a1 b1 p1 0] /\ s_react s2 = [fo G 0 a2 b2 p2 (up G a1 b1 0); fo G 1 a2 b2 p2 (up G a1 b1 0)].
Proof.
  destruct (node_step G c Rc p1 a1 b1 at_rest at_rest_sound) as (s1 & E1 & U1 & T1 & Re1 & M1 & C1 & S1 & Sd1).
  destruct (node_step G c Rc p2 a2 b2 s1 Sd1) as (s2 & E2 & U2 & T2 & Re2 & M2 & C2 & S2 & Sd2).
  change (mat_state (s_mem at_rest)) with 0 in *. change (s_t at_rest) with 0 in *. rewrite M1 in Re2, M2.
  exists s1, s2. split; [cbn [run_steps]; rewrite E1; cbn [bindO fst]; rewrite E2; reflexivity|]. split; [exact U1|]. split; [exact U2|].
  split; [rewrite T1; ring|]. split; [rewrite T2, T1; ring|]. split; [rewrite S2, S1; reflexivity|]. split; [rewrite C2, C1; reflexivity|]. auto.
Qed.

Variables a1 b1 a2 b2 p : R.
Let us (k : nat) := match k with O => [a1; b1] | _ => [a2; b2] end.
Let times (k : nat) := match k with O => 1 | _ => 2 end.
Variable s2 : state (St := R).
Hypothesis T2 : s_t s2 = 2.
Hypothesis U2 : s_u s2 = [a2; b2].
Hypothesis C2 : s_cycle s2 = 2%nat.
Hypothesis V2 : s_saved s2 = [[0; 0]; [a1; b1]; [a2; b2]].
Let st := mat_state (s_mem s2).
Hypothesis D1 : df G 0 0 0 a1 b1 p st <> 0.
Hypothesis D2 : df G 0 0 0 a2 b2 p st <> 0.
Lemma two_dts : forall k, (k < 2)%nat -> exists dt, nth_error [1; 1] k = Some dt /\ forall j, (S j = k)%nat -> times j = times k - dt.
Proof. intros [|[|k]] H; [| |lia]; exists 1; (split; [reflexivity|]); intros j Hj; [lia|]. injection Hj as ->. cbn. ring. Qed.
Lemma two_saved : forall k, (k < 2)%nat -> nth_error (s_saved s2) (S k) = Some (us k) /\ length (us k) = 2%nat.
Proof. intros [|[|k]] H; [| |lia]; rewrite V2; split; reflexivity. Qed.
Lemma two_time j : (S j = 2)%nat -> b_t (turn s2) = times j.
Proof. intros H. injection H as ->. exact T2. Qed.

Lemma two_pass q : exists total, reverse_pass (node G) 2 c [held] 0 cw solve_free [1; 1] (s_saved s2) (with_p p) q 2 (turn s2) = Ok total /\
  (df G 1 1 0 a1 b1 p st = 0 -> df G 1 1 0 a2 b2 p st = 0 ->
   total 0%nat = - q 0%nat 0%nat / df G 0 0 0 a1 b1 p st * df G 1 0 0 a1 b1 p st + - q 1%nat 0%nat / df G 0 0 0 a2 b2 p st * df G 1 0 0 a2 b2 p st).
Proof.
  destruct (pass_sum (node G) 2 c [held] two Rc 0 2 cw Rw solve_free [1; 1] (s_saved s2) (with_p p) (p_fits p) times us 2 two_dts two_saved q 2 (turn s2) (le_n 2) C2 two_time)
    as (total & E & A & P & ms & HA & HT).
  exists total. split; [exact E|]. intros Z1 Z2. rewrite HT, sum2.
  assert (St : forall k, (k < 2)%nat -> mat_state (ms k) = st) by (intros k Hk; destruct (HA k Hk) as (_ & _ & Sm); apply Sm).
  destruct (HA 0%nat ltac:(lia)) as (TA & TP & _). destruct (HA 1%nat ltac:(lia)) as (TA' & TP' & _). cbn [us times] in *.
  assert (X := node_tangent G c Rc _ _ _ _ _ _ TA). assert (Y := node_param G c cw Rc Rw _ _ _ _ _ _ TP).
  assert (X' := node_tangent G c Rc _ _ _ _ _ _ TA'). assert (Y' := node_param G c cw Rc Rw _ _ _ _ _ _ TP').
  rewrite St in X, Y, X', Y' by lia.
  destruct (free_adjoint (A 0%nat) (q 0%nat)) as [L1 L2]; [rewrite X by lia; exact D1|]. destruct (free_adjoint (A 1%nat) (q 1%nat)) as [L3 L4]; [rewrite X' by lia; exact D2|].
  unfold sensitivity. rewrite !sum2, L1, L2, L3, L4, !X, !Y, !X', !Y' by lia. field. auto.
Qed.
(** reactions at the held dof *)
Definition at_held : nat -> vec := fun _ i => if held i then 1 else 0.
Lemma two_reactions : exists total, reaction_pass (node G) 2 c [held] 0 cw solve_free [1; 1] (s_saved s2) (with_p p) at_held 2 (turn s2) = Ok total /\
  total 0%nat = - df G 0 1 0 a2 b2 p st / df G 0 0 0 a1 b1 p st * df G 1 0 0 a1 b1 p st + df G 1 1 0 a1 b1 p st +
                (- df G 0 1 0 a2 b2 p st / df G 0 0 0 a2 b2 p st * df G 1 0 0 a2 b2 p st + df G 1 1 0 a2 b2 p st).
Proof.
  destruct (reaction_sum (node G) 2 c [held] two Rc 0 2 cw Rw solve_free [1; 1] (s_saved s2) (with_p p) (p_fits p) times us 2 two_dts two_saved at_held 2 (turn s2) (le_n 2) C2 two_time)
    as (total & E & B & A & P & HA & HT); [cbn [turn b_u]; rewrite U2; reflexivity|].
  exists total. split; [exact E|]. rewrite HT, sum2.
  destruct (HA 0%nat ltac:(lia)) as (TB & TA & TP). destruct (HA 1%nat ltac:(lia)) as (TB' & TA' & TP'). cbn [us times Nat.eqb turn b_u b_mem] in *. rewrite U2 in TB'.
  assert (W := node_tangent G c Rc _ _ _ _ _ _ TB). assert (W' := node_tangent G c Rc _ _ _ _ _ _ TB').
  assert (X := node_tangent G c Rc _ _ _ _ _ _ TA). assert (Y := node_param G c cw Rc Rw _ _ _ _ _ _ TP).
  assert (X' := node_tangent G c Rc _ _ _ _ _ _ TA'). assert (Y' := node_param G c cw Rc Rw _ _ _ _ _ _ TP'). fold st in W, W', X, X', Y, Y'.
  destruct (free_adjoint (A 0%nat) (reaction_load 2 (B 0%nat) (at_held 0%nat))) as [L1 L2]; [rewrite X by lia; exact D1|].
  destruct (free_adjoint (A 1%nat) (reaction_load 2 (B 1%nat) (at_held 1%nat))) as [L3 L4]; [rewrite X' by lia; exact D2|].
  unfold sensitivity. rewrite !sum2, L1, L2, L3, L4, !X, !Y, !X', !Y' by lia. unfold reaction_load, mvec, transpose, at_held. rewrite !sum2. cbn [held Nat.eqb].
  rewrite !W, !W' by lia. field. auto.
Qed.
End Two.

(** ** laws *)
Definition law_right (G : law) : Prop := forall st (x y z r : R -> R) dx dy dz dr i, is_derive x 0 dx -> is_derive y 0 dy -> is_derive z 0 dz -> is_derive r 0 dr ->
  is_derive (fun e => fo G i (x e) (y e) (z e) st) 0
    (df G 0 i 0 (x 0) (y 0) (z 0) st * dx + df G 0 i 1 (x 0) (y 0) (z 0) st * dy + (df G 1 i 0 (x 0) (y 0) (z 0) st * dz + df G 1 i 1 (x 0) (y 0) (z 0) st * dr)).
Lemma law_joint G t Ls m : law_right G -> ad_joint (node G) t Ls m.
Proof.
  intros H n Ig g K e q Hn HG He Hq v cv d Hc Hv i b. destruct n as [|n]; [|destruct n; discriminate]. cbn in Hn. injection Hn as <-.
  destruct g as [|g]; [|destruct g; discriminate]. cbn in HG. injection HG as <-. clearbody v. cbn [gk_qf node_kernel fst i_active length gk_trial gk_dim1 gk_ad].
  unfold chain_rule. cbn [es_c both_space sumn].
  assert (X := H (m_q m 0%nat 0%nat e q) (fun eps => cv eps 0%nat 0%nat 0%nat) (fun eps => cv eps 0%nat 1%nat 0%nat) (fun eps => cv eps 1%nat 0%nat 0%nat) (fun eps => cv eps 1%nat 1%nat 0%nat)
    _ _ _ _ i (Hc _ _ _) (Hc _ _ _) (Hc _ _ _) (Hc _ _ _)). cbv beta in X. rewrite Hv in X.
  replace (_ + _ : R) with (df G 0 i 0 (v 0%nat 0%nat 0%nat) (v 0%nat 1%nat 0%nat) (v 1%nat 0%nat 0%nat) (m_q m 0%nat 0%nat e q) * d 0%nat 0%nat 0%nat +
   df G 0 i 1 (v 0%nat 0%nat 0%nat) (v 0%nat 1%nat 0%nat) (v 1%nat 0%nat 0%nat) (m_q m 0%nat 0%nat e q) * d 0%nat 1%nat 0%nat +
   (df G 1 i 0 (v 0%nat 0%nat 0%nat) (v 0%nat 1%nat 0%nat) (v 1%nat 0%nat 0%nat) (m_q m 0%nat 0%nat e q) * d 1%nat 0%nat 0%nat +
    df G 1 i 1 (v 0%nat 0%nat 0%nat) (v 0%nat 1%nat 0%nat) (v 1%nat 0%nat 0%nat) (m_q m 0%nat 0%nat e q) * d 1%nat 1%nat 0%nat)); [exact X|ring].
Qed.

(** u0 - p - u1 at the free dof and u0^2 at the held one *)
Definition elastic : law :=
  {| fo := fun i a b p st => if Nat.eqb i 0 then a - p - b else a * a;
     df := fun s i j a b p st => match s, i, j with O, O, O => 1 | O, O, S O => -1 | O, S _, O => 2 * a | S O, O, O => -1 | _, _, _ => 0 end;
     up := fun a b st => st |}.
(** u0 - p - creep strain; every step adds half of u0 to the creep strain *)
Definition creeping : law :=
  {| fo := fun i a b p st => if Nat.eqb i 0 then a - p - st else b;
     df := fun s i j a b p st => match s, i, j with O, O, O => 1 | O, S _, S O => 1 | S O, O, O => -1 | _, _, _ => 0 end;
     up := fun a b st => st + a / 2 |}.
(** p u0 - 1 *)
Definition spring : law :=
  {| fo := fun i a b p st => if Nat.eqb i 0 then p * a - 1 else b;
     df := fun s i j a b p st => match s, i, j with O, O, O => p | O, S _, S O => 1 | S O, O, O => a | _, _, _ => 0 end;
     up := fun a b st => st |}.
Lemma derive_of (x : R -> R) dx : is_derive x 0 dx -> ex_derive x 0 /\ Derive (fun e => x e) 0 = dx.
Proof. intros H. split; [now exists dx|exact (is_derive_unique _ _ _ H)]. Qed.
Lemma elastic_right : law_right elastic.
Proof. 
  intros st x y z r dx dy dz dr i Hx Hy Hz Hr. apply derive_of in Hx as [Ex Hx], Hy as [Ey Hy], Hz as [Ez Hz].
  destruct i as [|i]; cbn [elastic fo df Nat.eqb]; (auto_derive; [auto|rewrite ?Hx, ?Hy, ?Hz; ring]).
 Qed.
Lemma creeping_right : law_right creeping.
Proof. 
  intros st x y z r dx dy dz dr i Hx Hy Hz Hr. apply derive_of in Hx as [Ex Hx], Hy as [Ey Hy], Hz as [Ez Hz].
  destruct i as [|i]; cbn [creeping fo df Nat.eqb]; (auto_derive; [auto|rewrite ?Hx, ?Hy, ?Hz; ring]).
 Qed.
Lemma spring_right : law_right spring.
Proof. 
  intros st x y z r dx dy dz dr i Hx Hy Hz Hr. apply derive_of in Hx as [Ex Hx], Hy as [Ey Hy], Hz as [Ez Hz].
  destruct i as [|i]; cbn [spring fo df Nat.eqb]; (auto_derive; [auto|rewrite ?Hx, ?Hy, ?Hz; ring]).
 Qed.

Definition of_run (o : outcome (list (state (St := R)))) : list state := match o with Ok l => l | _ => [] end.
Definition elastic_loads (eps : R) : list load := [to (1 + eps) (2 + eps) 1; to (1 + eps) (3 + eps) 2].
Section Elastic.
Variable c cw : csr.
Hypothesis Rc : ready (node elastic) 2 c two.
Hypothesis Rw : ready_for (node elastic) 2 two 0 2 cw.
Let runs (eps : R) := of_run (run_steps (node elastic) 2 c held moved (elastic_loads eps) at_rest).
Lemma elastic_runs eps : exists s1 s2, runs eps = [s1; s2] /\ run_steps (node elastic) 2 c held moved (elastic_loads eps) at_rest = Ok [s1; s2] /\
  s_u s1 = [2 + eps; 1] /\ s_u s2 = [3 + eps; 2] /\ s_t s1 = 1 /\ s_t s2 = 2 /\ s_saved s2 = [[0; 0]; [2 + eps; 1]; [3 + eps; 2]] /\ s_cycle s2 = 2%nat /\
  s_react s1 = [0; (2 + eps) * (2 + eps)] /\ s_react s2 = [0; (3 + eps) * (3 + eps)].
Proof.
  destruct (two_run elastic c Rc (1 + eps) (2 + eps) 1 (1 + eps) (3 + eps) 2) as (s1 & s2 & E & A & B & C & D & F & H & _ & _ & I1 & I2).
  exists s1, s2. unfold runs, elastic_loads. rewrite E. split; [reflexivity|]. split; [reflexivity|]. cbn [elastic fo Nat.eqb] in I1, I2. rewrite I1, I2.
  repeat (split; [assumption|]). split; f_equal; ring.
Qed.
Lemma any_held i : any [held] i = held i.
Proof. unfold any. cbn. apply orb_false_r. Qed.
Lemma any_is_held : any [held] = held.
Proof. apply functional_extensionality. intros i. apply any_held. Qed.
Lemma dshift a : is_derive (fun eps : R => a + eps) 0 1.
Proof. auto_derive; [auto|ring]. Qed.
Lemma dconst a : is_derive (fun _ : R => a) 0 0.
Proof. apply (is_derive_const (K:=R_AbsRing) (V:=R_NormedModule)). Qed.
Definition first : vec := fun i => if Nat.eqb i 0 then 1 else 0.
Lemma elastic_u eps k : (k < 2)%nat -> s_u (at_step at_rest (runs eps) k) = [match k with O => 2 | _ => 3 end + eps; match k with O => 1 | _ => 2 end].
Proof. intros H. destruct (elastic_runs eps) as (s1 & s2 & -> & _ & A & B & _). destruct k as [|[|k]]; [| |lia]; assumption. Qed.
Lemma elastic_react eps k : (k < 2)%nat -> s_react (at_step at_rest (runs eps) k) = [0; (match k with O => 2 | _ => 3 end + eps) * (match k with O => 2 | _ => 3 end + eps)].
Proof. intros H. destruct (elastic_runs eps) as (s1 & s2 & -> & _ & _ & _ & _ & _ & _ & _ & A & B). destruct k as [|[|k]]; [| |lia]; assumption. Qed.
Lemma elastic_t k : (k < 2)%nat -> s_t (at_step at_rest (runs 0) k) = match k with O => 1 | _ => 2 end.
Proof. intros H. destruct (elastic_runs 0) as (s1 & s2 & -> & _ & _ & _ & A & B & _). destruct k as [|[|k]]; [| |lia]; assumption. Qed.
Lemma elastic_memoryless : memoryless (node elastic).
Proof. intros Ig K e q t v s s' [<-|[]] [<-|[]]. reflexivity. Qed.
Lemma elastic_p : curve 2 (fun eps => entries [1 + eps; 0]) first.
Proof.
  intros [|[|i]] Hi; [| |lia].
  - change (is_derive (fun eps : R => 1 + eps) 0 1). exact (dshift 1).
  - change (is_derive (fun eps : R => 0) 0 0). exact (dconst 0).
Qed.
Lemma elastic_curve k : (k < 2)%nat -> curve 2 (fun eps => entries (s_u (at_step at_rest (runs eps) k))) first.
Proof.
  intros Hk i Hi. apply (is_derive_ext (fun eps => nth i [match k with O => 2 | _ => 3 end + eps; match k with O => 1 | _ => 2 end] 0)).
  - intros eps. now rewrite elastic_u.
  - destruct i as [|[|i]]; [| |lia].
    + change (is_derive (fun eps : R => match k with O => 2 | _ => 3 end + eps) 0 1). exact (dshift _).
    + change (is_derive (fun eps : R => match k with O => 1 | _ => 2 end) 0 0). exact (dconst _).
Qed.
Lemma elastic_lin k m A : (k < 2)%nat -> tangent (node elastic) 2 c (s_t (at_step at_rest (runs 0) k)) (with_p (1 + 0)) m (s_u (at_step at_rest (runs 0) k)) A ->
  lin_ok 2 [held] solve_free A.
Proof.
  intros Hk T. rewrite (elastic_u 0 k Hk) in T. apply free_ok. rewrite (node_tangent elastic c Rc _ _ _ _ _ _ T) by lia. cbn. lra.
Qed.
Definition square : nat -> vec -> vec -> R := fun k u p => u 0%nat * u 0%nat.
Lemma elastic_gradient : exists total,
  reverse_pass (node elastic) 2 c [held] 0 cw solve_free [1; 1] (s_saved (final at_rest (runs 0))) (with_p (1 + 0))
    (fun k i => if Nat.eqb i 0 then 2 * (match k with O => 2 | _ => 3 end) else 0) 2 (turn (final at_rest (runs 0))) = Ok total /\
  is_derive (fun eps => sumn 2 (fun k => square k (entries (s_u (at_step at_rest (runs eps) k))) (entries [1 + eps; 0]))) 0 (total 0%nat) /\ total 0%nat = 10.
Proof.
  destruct (run_gradient (node elastic) 2 c [held] moved two Rc 0 2 cw Rw none (fun _ => eq_refl) solve_free [1; 1] (fun eps => [1 + eps; 0]) first elastic_loads runs at_rest square
    (fun k i => if Nat.eqb i 0 then 2 * (match k with O => 2 | _ => 3 end) else 0) (fun _ _ => 0) (fun _ => first)) as (total & E & D).
  - exact elastic_memoryless.
  - exact at_rest_sound.
  - reflexivity.
  - reflexivity.
  - reflexivity.
  - exact elastic_p.
  - intros eps. split; [reflexivity|]. repeat constructor.
  - intros eps. rewrite any_is_held. destruct (elastic_runs eps) as (s1 & s2 & -> & E & _). exact E.
  - exact elastic_curve.
  - intros k i Hk Hi Bi. rewrite any_held in Bi. exists (mkposreal 1 Rlt_0_1). intros eps _. rewrite elastic_react by exact Hk. destruct i as [|[|i]]; [reflexivity|discriminate|lia].
  - intros k i Hk Hi Bi. rewrite any_held in Bi. exists (mkposreal 1 Rlt_0_1). intros eps _. rewrite elastic_u, elastic_t by exact Hk. destruct i as [|[|i]]; [discriminate|reflexivity|lia].
  - intros k m Hk. apply law_joint, elastic_right.
  - intros k m A Hk. now apply elastic_lin.
  - intros k Hk cu du cv dv cp dp Cu _ _ Su _ _. cbn [length] in Hk. specialize (Cu 0%nat ltac:(lia)). specialize (Su 0%nat ltac:(lia)). cbv beta in Cu. unfold entries in Su. rewrite elastic_u in Su by exact Hk. cbn [nth] in Su.
    unfold square.
    assert (M := is_derive_mult (fun e : R => cu e 0%nat) (fun e : R => cu e 0%nat) 0 (du 0%nat) (du 0%nat) Cu Cu Rmult_comm). cbv beta in M. rewrite Su in M.
    match goal with |- is_derive _ _ ?r => match type of M with is_derive _ _ ?l => replace r with l; [exact M|] end end. unfold plus, mult, vdot, vz. cbn. destruct k as [|[|k]]; [| |lia]; ring.
  - exists total. split; [exact E|]. assert (V : vdot 2 (fun i => total i + sumn (length [1; 1]) (fun _ => 0)) first = total 0%nat) by (unfold vdot; rewrite sum2; cbn; ring).
    rewrite V in D. split; [exact D|]. rewrite <- (is_derive_unique _ _ _ D). cbn [length].
    rewrite (Derive_ext _ (fun eps => (2 + eps) * (2 + eps) + (3 + eps) * (3 + eps))).
    + apply is_derive_unique. auto_derive; [auto|ring].
    + intros eps. rewrite sum2. unfold square, entries. rewrite !elastic_u by lia. reflexivity.
Qed.
Lemma elastic_last : exists b0 b1 g h, reaction_adjoint_load (node elastic) 2 c (with_p (1 + 0)) (at_held 0%nat) (turn (final at_rest (runs 0))) = Ok b0 /\
    reverse_step (node elastic) 2 c [held] solve_free [1; 1] (s_saved (final at_rest (runs 0))) (with_p (1 + 0)) b0 = Ok b1 /\
    timestep_sensitivity (node elastic) 2 0 cw (with_p (1 + 0)) b1 = Ok g /\
    dual_sensitivity (node elastic) 2 0 cw (with_p (1 + 0)) (at_held 0%nat) (remember (snd g) b1) = Ok h /\ fst g 0%nat + fst h 0%nat = 6.
Proof.
  destruct (last_reaction (node elastic) 2 c [held] moved two Rc 0 2 cw Rw none (fun _ => eq_refl) solve_free [1; 1] (fun eps => [1 + eps; 0]) first elastic_loads runs at_rest (at_held 0%nat) first 1%nat)
    as (b0 & b1 & g & h & E0 & E1 & E2 & E3 & D).
  - exact elastic_memoryless.
  - exact at_rest_sound.
  - reflexivity.
  - reflexivity.
  - reflexivity.
  - exact elastic_p.
  - intros eps. split; [reflexivity|]. repeat constructor.
  - intros eps. rewrite any_is_held. destruct (elastic_runs eps) as (s1 & s2 & -> & E & _). exact E.
  - reflexivity.
  - apply elastic_curve. lia.
  - intros i Hi Bi. rewrite any_held in Bi. exists (mkposreal 1 Rlt_0_1). intros eps _. rewrite elastic_react by lia. destruct i as [|[|i]]; [reflexivity|discriminate|lia].
  - intros i Hi Bi. rewrite any_held in Bi. exists (mkposreal 1 Rlt_0_1). intros eps _. rewrite elastic_u, elastic_t by lia. destruct i as [|[|i]]; [discriminate|reflexivity|lia].
  - intros m. apply law_joint, elastic_right.
  - intros m A. apply elastic_lin. lia.
  - exists b0, b1, g, h. split; [exact E0|]. split; [exact E1|]. split; [exact E2|]. split; [exact E3|].
    assert (V : vdot 2 (fun i => fst g i + fst h i) first = fst g 0%nat + fst h 0%nat) by (unfold vdot; rewrite sum2; cbn; ring).
    rewrite V in D. rewrite <- (is_derive_unique _ _ _ D).
    rewrite (Derive_ext _ (fun eps => (3 + eps) * (3 + eps))).
    + apply is_derive_unique. auto_derive; [auto|ring].
    + intros eps. unfold vdot. rewrite sum2. unfold entries. rewrite !elastic_react by lia. cbn. ring.
Qed.
(** the sum over both steps of the reaction at the held dof *)
Lemma elastic_all : exists total, reaction_pass (node elastic) 2 c [held] 0 cw solve_free [1; 1] (s_saved (final at_rest (runs 0))) (with_p (1 + 0)) at_held 2 (turn (final at_rest (runs 0))) = Ok total /\
  total 0%nat = 12 /\ is_derive (fun eps => sumn 2 (fun k => nth 1 (s_react (at_step at_rest (runs eps) k)) 0)) 0 10.
Proof.
  destruct (elastic_runs 0) as (s1 & s2 & R0 & _ & _ & U2 & _ & T2 & V2 & C2 & _). rewrite R0. unfold final. cbn [last].
  destruct (two_reactions elastic c cw Rc Rw (2 + 0) 1 (3 + 0) 2 (1 + 0) s2 T2 U2 C2 V2) as (total & E & V); [cbn; lra|cbn; lra|].
  exists total. split; [exact E|]. split; [rewrite V; cbn; field|].
  apply (is_derive_ext (fun eps => (2 + eps) * (2 + eps) + (3 + eps) * (3 + eps))).
  - intros eps. rewrite sum2, !elastic_react by lia. reflexivity.
  - auto_derive; [auto|ring].
Qed.
End Elastic.

(** ** what the theorem does not cover *)
(** equilibrium of every step of a family of runs at the dofs which are not held, and the prescribed values at those which are *)
Definition equilibrium_runs (n : nat) (bcs : list dofset) (target : R -> vec) (runs : R -> list (state (St := R))) : Prop :=
  forall eps s, In s (runs eps) -> forall i, (i < n)%nat -> if any bcs i then nth i (s_u s) 0 = target (s_t s) i else nth i (s_react s) 0 = 0.

(** a material with memory: u0 = p, then 3/2 p *)
Definition creeping_loads (eps : R) : list load := [to (1 + eps) (1 + eps) 1; to (1 + eps) (3 / 2 * (1 + eps)) 2].
Definition last_only : nat -> vec := fun k i => if Nat.eqb k 1 then first i else 0.
Theorem memory_matters : exists c cw runs total, ready (node creeping) 2 c two /\ ready_for (node creeping) 2 two 0 2 cw /\
  (forall t Ls m, ad_joint (node creeping) t Ls m) /\
  (forall eps, run_steps (node creeping) 2 c (any [held]) moved (creeping_loads eps) at_rest = Ok (runs eps)) /\
  equilibrium_runs 2 [held] moved runs /\ (forall t m a b A, tangent (node creeping) 2 c t (with_p (1 + 0)) m [a; b] A -> lin_ok 2 [held] solve_free A) /\
  reverse_pass (node creeping) 2 c [held] 0 cw solve_free [1; 1] (s_saved (final at_rest (runs 0))) (with_p (1 + 0)) last_only 2 (turn (final at_rest (runs 0))) = Ok total /\
  is_derive (fun eps => nth 0 (s_u (at_step at_rest (runs eps) 1)) 0) 0 (3 / 2) /\ total 0%nat = 1.
Proof.
  destruct (node_ready creeping) as (c & Rc). destruct (node_ready_for creeping) as (cw & Rw).
  set (runs := fun eps => of_run (run_steps (node creeping) 2 c held moved (creeping_loads eps) at_rest)).
  assert (Hr : forall eps, exists s1 s2, runs eps = [s1; s2] /\ run_steps (node creeping) 2 c held moved (creeping_loads eps) at_rest = Ok [s1; s2] /\
    s_u s1 = [1 + eps; 1] /\ s_u s2 = [3 / 2 * (1 + eps); 2] /\ s_t s1 = 1 /\ s_t s2 = 2 /\ s_saved s2 = [[0; 0]; [1 + eps; 1]; [3 / 2 * (1 + eps); 2]] /\ s_cycle s2 = 2%nat /\
    nth 0 (s_react s1) 0 = 0 /\ nth 0 (s_react s2) 0 = 0).
  { intros eps. destruct (two_run creeping c Rc (1 + eps) (1 + eps) 1 (1 + eps) (3 / 2 * (1 + eps)) 2) as (s1 & s2 & E & A & B & C & D & F & H & _ & _ & I1 & I2).
    exists s1, s2. unfold runs, creeping_loads. rewrite E. split; [reflexivity|]. split; [reflexivity|]. rewrite I1, I2. cbn [creeping fo up Nat.eqb nth].
    repeat (split; [assumption|]). split; field. }
  destruct (Hr 0) as (s1 & s2 & R0 & _ & _ & U2 & _ & T2 & V2 & C2 & _).
  destruct (two_pass creeping c cw Rc Rw (1 + 0) 1 (3 / 2 * (1 + 0)) 2 (1 + 0) s2 T2 C2 V2) with (q := last_only) as (total & E & V); [cbn; lra|cbn; lra|].
  exists c, cw, runs, total. split; [exact Rc|]. split; [exact Rw|]. split; [intros; apply law_joint, creeping_right|].
  split; [intros eps; rewrite any_is_held; destruct (Hr eps) as (x1 & x2 & -> & Q & _); exact Q|]. split; [|split; [|split; [|split]]].
  - intros eps s Hs i Hi. rewrite any_held. destruct (Hr eps) as (x1 & x2 & Q & _ & Q1 & Q2 & Q3 & Q4 & _ & _ & Q5 & Q6). rewrite Q in Hs.
    destruct Hs as [<-|[<-|[]]]; (destruct i as [|[|i]]; [| |lia]); cbn [held Nat.eqb]; [exact Q5|now rewrite Q1, Q3|exact Q6|now rewrite Q2, Q4].
  - intros t m a b A HA. apply free_ok. rewrite (node_tangent creeping c Rc _ _ _ _ _ _ HA) by lia. cbn. lra.
  - rewrite R0. unfold final. cbn [last]. exact E.
  - apply (is_derive_ext (fun eps => 3 / 2 * (1 + eps))); [intros eps; destruct (Hr eps) as (x1 & x2 & -> & _ & _ & Q & _); unfold at_step; cbn [nth]; now rewrite Q|].
    auto_derive; [auto|field].
  - rewrite V by reflexivity. cbn. field.
Qed.

(** a parameter which the user changes between the steps: u0 = 1/p, with p = 1 + eps in the first step and 2 in the second *)
Definition spring_loads (eps : R) : list load := [to (1 + eps) (/ (1 + eps)) 1; to 2 (1 / 2) 2].
Definition first_only : nat -> vec := fun k i => if Nat.eqb k 0 then first i else 0.
Theorem parameters_in_force : exists c cw runs total, ready (node spring) 2 c two /\ ready_for (node spring) 2 two 0 2 cw /\ memoryless (node spring) /\
  (forall t Ls m, ad_joint (node spring) t Ls m) /\
  (forall eps, run_steps (node spring) 2 c (any [held]) moved (spring_loads eps) at_rest = Ok (runs eps)) /\
  (forall eps, -1 < eps -> equilibrium_runs 2 [held] moved (fun _ => runs eps)) /\ (forall t m a b A, tangent (node spring) 2 c t (with_p 2) m [a; b] A -> lin_ok 2 [held] solve_free A) /\
  reverse_pass (node spring) 2 c [held] 0 cw solve_free [1; 1] (s_saved (final at_rest (runs 0))) (with_p 2) first_only 2 (turn (final at_rest (runs 0))) = Ok total /\
  is_derive (fun eps => nth 0 (s_u (at_step at_rest (runs eps) 0)) 0) 0 (-1) /\ total 0%nat = - (1 / 2).
Proof.
  destruct (node_ready spring) as (c & Rc). destruct (node_ready_for spring) as (cw & Rw).
  set (runs := fun eps => of_run (run_steps (node spring) 2 c held moved (spring_loads eps) at_rest)).
  assert (Hr : forall eps, exists s1 s2, runs eps = [s1; s2] /\ run_steps (node spring) 2 c held moved (spring_loads eps) at_rest = Ok [s1; s2] /\
    s_u s1 = [/ (1 + eps); 1] /\ s_u s2 = [1 / 2; 2] /\ s_t s1 = 1 /\ s_t s2 = 2 /\ s_saved s2 = [[0; 0]; [/ (1 + eps); 1]; [1 / 2; 2]] /\ s_cycle s2 = 2%nat /\
    (-1 < eps -> nth 0 (s_react s1) 0 = 0) /\ nth 0 (s_react s2) 0 = 0).
  { intros eps. destruct (two_run spring c Rc (1 + eps) (/ (1 + eps)) 1 2 (1 / 2) 2) as (s1 & s2 & E & A & B & C & D & F & H & _ & _ & I1 & I2).
    exists s1, s2. unfold runs, spring_loads. rewrite E. split; [reflexivity|]. split; [reflexivity|]. rewrite I1, I2. cbn [spring fo up Nat.eqb nth].
    repeat (split; [assumption|]). split; [intros Q; field; lra|field]. }
  destruct (Hr 0) as (s1 & s2 & R0 & _ & _ & U2 & _ & T2 & V2 & C2 & _).
  destruct (two_pass spring c cw Rc Rw (/ (1 + 0)) 1 (1 / 2) 2 2 s2 T2 C2 V2) with (q := first_only) as (total & E & V); [cbn; lra|cbn; lra|].
  exists c, cw, runs, total. split; [exact Rc|]. split; [exact Rw|]. split; [intros Ig K e q t v s s' [<-|[]] [<-|[]]; reflexivity|]. split; [intros; apply law_joint, spring_right|].
  split; [intros eps; rewrite any_is_held; destruct (Hr eps) as (x1 & x2 & -> & Q & _); exact Q|]. split; [|split; [|split; [|split]]].
  - intros eps He _ s Hs i Hi. rewrite any_held. destruct (Hr eps) as (x1 & x2 & Q & _ & Q1 & Q2 & Q3 & Q4 & _ & _ & Q5 & Q6). rewrite Q in Hs.
    destruct Hs as [<-|[<-|[]]]; (destruct i as [|[|i]]; [| |lia]); cbn [held Nat.eqb]; [exact (Q5 He)|now rewrite Q1, Q3|exact Q6|now rewrite Q2, Q4].
  - intros t m a b A HA. apply free_ok. rewrite (node_tangent spring c Rc _ _ _ _ _ _ HA) by lia. cbn. lra.
  - rewrite R0. unfold final. cbn [last]. exact E.
  - apply (is_derive_ext (fun eps => / (1 + eps))); [intros eps; destruct (Hr eps) as (x1 & x2 & -> & _ & Q & _); unfold at_step; cbn [nth]; now rewrite Q|].
    auto_derive; [lra|field].
  - rewrite V by reflexivity. cbn. field.
Qed.

(** reactions of more than one step *)
Theorem reactions_lag : exists c cw runs total, ready (node elastic) 2 c two /\ ready_for (node elastic) 2 two 0 2 cw /\ memoryless (node elastic) /\
  (forall t Ls m, ad_joint (node elastic) t Ls m) /\
  (forall eps, run_steps (node elastic) 2 c (any [held]) moved (elastic_loads eps) at_rest = Ok (runs eps)) /\
  equilibrium_runs 2 [held] moved runs /\ (forall t m a b A, tangent (node elastic) 2 c t (with_p (1 + 0)) m [a; b] A -> lin_ok 2 [held] solve_free A) /\
  reaction_pass (node elastic) 2 c [held] 0 cw solve_free [1; 1] (s_saved (final at_rest (runs 0))) (with_p (1 + 0)) at_held 2 (turn (final at_rest (runs 0))) = Ok total /\
  is_derive (fun eps => sumn 2 (fun k => vdot 2 (at_held k) (entries (s_react (at_step at_rest (runs eps) k))))) 0 10 /\ total 0%nat = 12.
Proof.
  destruct (node_ready elastic) as (c & Rc). destruct (node_ready_for elastic) as (cw & Rw).
  destruct (elastic_all c cw Rc Rw) as (total & E & V & D).
  exists c, cw, (fun eps => of_run (run_steps (node elastic) 2 c held moved (elastic_loads eps) at_rest)), total.
  split; [exact Rc|]. split; [exact Rw|]. split; [exact elastic_memoryless|]. split; [intros; apply law_joint, elastic_right|].
  split; [intros eps; rewrite any_is_held; destruct (elastic_runs c Rc eps) as (x1 & x2 & -> & Q & _); exact Q|]. split; [|split; [|split; [exact E|split; [|exact V]]]].
  - intros eps s Hs i Hi. rewrite any_held. destruct (elastic_runs c Rc eps) as (x1 & x2 & Q & _ & Q1 & Q2 & Q3 & Q4 & _ & _ & Q5 & Q6). rewrite Q in Hs.
    destruct Hs as [<-|[<-|[]]]; (destruct i as [|[|i]]; [| |lia]); cbn [held Nat.eqb]; [now rewrite Q5|now rewrite Q1, Q3|now rewrite Q6|now rewrite Q2, Q4].
  - intros t m a b A HA. apply free_ok. rewrite (node_tangent elastic c Rc _ _ _ _ _ _ HA) by lia. cbn. lra.
  - revert D. apply is_derive_ext. intros eps. apply sumn_ext. intros k Hk. unfold vdot. rewrite sum2. unfold at_held, entries. cbn [held Nat.eqb]. ring.
Qed.
Theorem gradient_case : exists c cw runs total, ready (node elastic) 2 c two /\ ready_for (node elastic) 2 two 0 2 cw /\
  (forall eps, run_steps (node elastic) 2 c held moved (elastic_loads eps) at_rest = Ok (runs eps)) /\
  reverse_pass (node elastic) 2 c [held] 0 cw solve_free [1; 1] (s_saved (final at_rest (runs 0))) (with_p (1 + 0))
    (fun k i => if Nat.eqb i 0 then 2 * (match k with O => 2 | _ => 3 end) else 0) 2 (turn (final at_rest (runs 0))) = Ok total /\
  is_derive (fun eps => sumn 2 (fun k => square k (entries (s_u (at_step at_rest (runs eps) k))) (entries [1 + eps; 0]))) 0 (total 0%nat) /\ total 0%nat = 10.
Proof.
  destruct (node_ready elastic) as (c & Rc). destruct (node_ready_for elastic) as (cw & Rw). destruct (elastic_gradient c cw Rc Rw) as (total & E & D & V).
  exists c, cw, (fun eps => of_run (run_steps (node elastic) 2 c held moved (elastic_loads eps) at_rest)), total. split; [exact Rc|]. split; [exact Rw|].
  split; [intros eps; destruct (elastic_runs c Rc eps) as (x1 & x2 & -> & Q & _); exact Q|]. auto.
Qed.
Theorem reaction_case : exists c cw runs, ready (node elastic) 2 c two /\ ready_for (node elastic) 2 two 0 2 cw /\
  (forall eps, run_steps (node elastic) 2 c held moved (elastic_loads eps) at_rest = Ok (runs eps)) /\
  exists b0 b1 g h, reaction_adjoint_load (node elastic) 2 c (with_p (1 + 0)) (at_held 0%nat) (turn (final at_rest (runs 0))) = Ok b0 /\
    reverse_step (node elastic) 2 c [held] solve_free [1; 1] (s_saved (final at_rest (runs 0))) (with_p (1 + 0)) b0 = Ok b1 /\
    timestep_sensitivity (node elastic) 2 0 cw (with_p (1 + 0)) b1 = Ok g /\
    dual_sensitivity (node elastic) 2 0 cw (with_p (1 + 0)) (at_held 0%nat) (remember (snd g) b1) = Ok h /\ fst g 0%nat + fst h 0%nat = 6.
Proof.
  destruct (node_ready elastic) as (c & Rc). destruct (node_ready_for elastic) as (cw & Rw).
  exists c, cw, (fun eps => of_run (run_steps (node elastic) 2 c held moved (elastic_loads eps) at_rest)). split; [exact Rc|]. split; [exact Rw|].
  split; [intros eps; destruct (elastic_runs c Rc eps) as (x1 & x2 & -> & Q & _); exact Q|]. exact (elastic_last c cw Rc Rw).
Qed.
Theorem both_arguments : exists (res : R -> list R) (act : nat -> list R),
  (forall eps, exists m', evaluate (node elastic) 0 None false (fun w => match w with O => [2 + eps; 1] | _ => [1 + eps * 5; 0] end) 2 (fresh 0) = Ok (res eps, m')) /\
  (forall w, exists mw, evaluate (node elastic) 0 (Some w) false (fun w => match w with O => [2 + 0; 1] | _ => [1 + 0 * 5; 0] end) 2 (fresh 0) = Ok (res 0, mw) /\
     action (node elastic) w mw (match w with O => [1; 0] | _ => [5; 0] end) 2 = Ok (act w)) /\
  forall k, (k < 2)%nat -> is_derive (fun eps => nth k (res eps) 0) 0 (nth k (act 0%nat) 0 + nth k (act 1%nat) 0).
Proof.
  destruct (all_arguments (node elastic) 2 two 0 (fun eps w => match w with O => [2 + eps; 1] | _ => [1 + eps * 5; 0] end) (fun w => match w with O => [1; 0] | _ => [5; 0] end) (fresh 0) 2)
    as (res & act & A & B & D).
  - apply node_wf.
  - intros eps [|w]; reflexivity.
  - intros [|w]; reflexivity.
  - intros Ig w [<-|[]] Hw. cbn in Hw. lia.
  - intros [|w] [|[|i]]; cbn [nth].
    + exact (dshift 2).
    + exact (dconst 1).
    + destruct i; exact (dconst 0).
    + auto_derive; [auto|ring].
    + exact (dconst 0).
    + destruct i; exact (dconst 0).
  - apply law_joint, elastic_right.
  - exists res, act. split; [exact A|]. split; [exact B|]. intros k Hk. rewrite <- (sum2 (fun w => nth k (act w) 0)). now apply D.
Qed.
