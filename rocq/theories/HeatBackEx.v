(** * A reverse pass through two steps of heat conduction (C77)

    One node with two dofs, of which the second is held at the temperature [t]; state, rate and a parameter field with two entries. *)
From Coq Require Import NArith ZArith Reals List Lia Lra Bool Permutation FunctionalExtensionality.
From Coquelicot Require Import Coquelicot.
From Verif Require Import Prelude DofCodec Sums Restriction Csr Kernels FunctionalModel FunctionalGrad FunctionalTotal Assembly FunctionalEx Tensor MatAlg BoundaryElim Adjoint AdjointDeriv Ode
  QuasiStatic QuasiAdjoint QuasiGradient QuasiAdjointEx Transient TransientFacts JointRate HeatBack HeatGradient.
Import ListNotations.
Local Open Scope R_scope.

(** nodal forces as functions of the dofs of argument 0, 1 and 2, and their derivatives with respect to dof [j] of argument [s] *)
Record law3 := { fo3 : nat -> (nat -> nat -> R) -> R -> R; df3 : nat -> nat -> nat -> (nat -> nat -> R) -> R -> R; up3 : (nat -> nat -> R) -> R -> R }.
Definition at_node (v : nat -> slots) : nat -> nat -> R := fun s j => v s j O.
Definition node3_kernel (G : law3) : gkernel R :=
  {| gk_elems := [0%nat]; gk_dim1 := 1; gk_nq := 1; gk_w := fun _ => 1; gk_test := both_space; gk_trial := fun _ => both_space;
     gk_qf := fun e q t v st => (fun i b => fo3 G i (at_node v) st, up3 G (at_node v) st);
     gk_ad := fun s e q t v st => fun i b j a => df3 G s i j (at_node v) st |}.
Definition node3 (G : law3) : functional R :=
  {| f_test := fun dt => match dt with Elements => [both] | BoundaryElements => [] end;
     f_trial := fun _ dt => match dt with Elements => [both] | BoundaryElements => [] end;
     f_integrals := [{| i_type := Elements; i_active := [0%nat; 1%nat; 2%nat]; i_geoms := [node3_kernel G] |}] |}.
(** the derivatives are those of the forces, with all dofs moving at once *)
Definition law3_right (G : law3) : Prop := forall st (x : R -> nat -> nat -> R) (d : nat -> nat -> R) i, (forall s j, is_derive (fun e => x e s j) 0 (d s j)) ->
  is_derive (fun e => fo3 G i (x e) st) 0 (sumn 3 (fun s => sumn 2 (fun j => df3 G s i j (x 0) st * d s j))).

Section Node3.
Variable G : law3.
Lemma node3_wf_assembly v : (v < 3)%nat -> wf_assembly (node3 G) v 2 2.
Proof.
  intros Hv. split; [|split; [|split; [|split]]].
  - intros [|] r H; cbn in H; [|contradiction]. destruct H as [<-|[]]. split; [apply both_plain|apply both_ids].
  - intros [|] r H; cbn in H; [|contradiction]. destruct H as [<-|[]]. split; [apply both_plain|apply both_ids].
  - intros [|]; reflexivity.
  - intros Ig [<-|[]]. reflexivity.
  - intros Ig s g K rt rr [<-|[]] Hs HG Ht Hr. destruct g as [|g]; [|destruct g; discriminate].
    inversion HG; inversion Ht; inversion Hr; subst. repeat split. intros el [<-|[]]; cbn; lia.
Qed.
Lemma node3_same v : same_elements (node3 G) v.
Proof. intros [|] rt rr [|g] H1 H2; cbn in H1, H2; try discriminate; try (destruct g; discriminate). inversion H1; inversion H2; subst. reflexivity. Qed.
Lemma node3_wf : wf (node3 G) 2 two.
Proof.
  intros Ig [<-|[]]. split; [|split; [|split]].
  - intros r [<-|[]]. apply both_ids.
  - intros v r [<-|[]]. apply both_ids.
  - reflexivity.
  - repeat constructor; cbn; intuition discriminate.
Qed.
Lemma node3_table v : exists c, valid_csr 2 (coupled (blocks_of (node3 G) v Elements)) c.
Proof.
  destruct (table_for_mesh 2 (blocks_of (node3 G) v Elements) (map fst (lut_keys (emitted_all (blocks_of (node3 G) v Elements))))) as (c & _ & B).
  - intros te tr [E|[]]. inversion E; subst. split; [apply both_plain|]. split; [apply both_plain|]. split; reflexivity.
  - intros i Hi. destruct i as [|[|i]]; [| |lia].
    + exists 0%Z, both, both, 0%nat, 0%nat, 0%nat, 0%nat, 0%nat. repeat split; cbn; auto; lia.
    + exists 0%Z, both, both, 0%nat, 0%nat, 0%nat, 1%nat, 0%nat. repeat split; cbn; auto; lia.
  - lia.
  - apply Permutation_refl.
  - exists c. exact B.
Qed.
Lemma node3_ready : exists c, ready (node3 G) 2 c two.
Proof.
  destruct (node3_table 0) as (c & B). exists c. split; [apply node3_wf|]. split; [reflexivity|]. split; [apply node3_wf_assembly; lia|]. split; [apply node3_same|].
  split; [exact B|]. split; [lia|]. intros x (te & tr & e & i & j & k & l & [] & _).
Qed.
Lemma node3_ready_for v : (v < 2)%nat -> exists cw, ready_for (node3 G) 2 two v 2 cw.
Proof.
  intros Hv. destruct (node3_table (S v)) as (c & B). exists c. split; [reflexivity|]. split; [apply node3_wf_assembly; lia|]. split; [apply node3_same|].
  split; [exact B|]. intros x (te & tr & e & i & j & k & l & [] & _).
Qed.
Lemma node3_joint t Ls m : law3_right G -> ad_joint (node3 G) t Ls m.
Proof.
  intros H n Ig g K e q Hn HG He Hq v cv d Hc Hv i b. destruct n as [|n]; [|destruct n; discriminate]. cbn in Hn. injection Hn as <-.
  destruct g as [|g]; [|destruct g; discriminate]. cbn in HG. injection HG as <-. clearbody v. cbn [gk_qf node3_kernel fst i_active length gk_trial gk_dim1 gk_ad].
  assert (X := H (m_q m 0%nat 0%nat e q) (fun eps => at_node (cv eps)) (at_node d) i (fun s j => Hc s j 0%nat)). cbv beta in X. rewrite Hv in X.
  match goal with |- is_derive _ _ ?r => match type of X with is_derive _ _ ?l => replace r with l; [exact X|] end end.
  apply sumn_ext. intros s _. unfold chain_rule. cbn [es_c both_space]. apply sumn_ext. intros j _. cbn [sumn]. unfold at_node at 2. ring.
Qed.

Variable c : csr.
Hypothesis Rc : ready (node3 G) 2 c two.
Definition dofs3 (u r p : list R) : nat -> nat -> R := fun s j => nth j (match s with O => u | S O => r | _ => p end) 0.
Definition given (p : R) : nat -> list R := with_param none 0 [p; 0].
Lemma given_fits p : params_fit two (given p).
Proof. intros [|v]; reflexivity. Qed.
Lemma given_rate p a b : fitting two (inputs (given p) [a; b]).
Proof. intros [|[|v]]; reflexivity. Qed.
(** what the quadrature point sees *)
Hypothesis fo3_local : forall i x y st, (forall s j, (s < 3)%nat -> (j < 2)%nat -> x s j = y s j) -> fo3 G i x st = fo3 G i y st.
Hypothesis df3_local : forall s i j x y st, (forall s j, (s < 3)%nat -> (j < 2)%nat -> x s j = y s j) -> df3 G s i j x st = df3 G s i j y st.
Hypothesis up3_local : forall x y st, (forall s j, (s < 3)%nat -> (j < 2)%nat -> x s j = y s j) -> up3 G x st = up3 G y st.
Lemma seen3 p a b r s : forall s' j', (s' < 3)%nat -> (j' < 2)%nat ->
  at_node (qf_inputs (node3_kernel G) 0 (Es_of (node3 G) (inputs (inputs (given p) [r; s]) [a; b]) {| i_type := Elements; i_active := [0%nat; 1%nat; 2%nat]; i_geoms := [node3_kernel G] |}) 0 0) s' j' =
  dofs3 [a; b] [r; s] [p; 0] s' j'.
Proof.
  intros s' j' Hs Hj. destruct s' as [|[|[|s']]]; [| | |lia]; (destruct j' as [|[|j']]; [| |lia]);
  cbv -[Rplus Rmult Ropp Rminus Rinv Rdiv IZR]; ring.
Qed.
Lemma node3_force t m p a b r s L : force (node3 G) 2 t (inputs (given p) [r; s]) m [a; b] L ->
  L = [fo3 G 0 (dofs3 [a; b] [r; s] [p; 0]) (mat_state m); fo3 G 1 (dofs3 [a; b] [r; s] [p; 0]) (mat_state m)].
Proof.
  intros (m' & E).
  destruct (evaluate_quiet (node3 G) 2 c two Rc t None (inputs (given p) [r; s]) [a; b] m m (given_rate p r s) eq_refl (same_refl m)) as (L' & m1 & A & _ & B & C & _).
  rewrite A in E. injection E as E _. subst L'. apply (same_list 2); [exact B|reflexivity|]. intros k Hk. rewrite C by exact Hk.
  transitivity (fo3 G k (at_node (qf_inputs (node3_kernel G) 0 (Es_of (node3 G) (inputs (inputs (given p) [r; s]) [a; b]) {| i_type := Elements; i_active := [0%nat; 1%nat; 2%nat]; i_geoms := [node3_kernel G] |}) 0 0)) (mat_state m)).
  - destruct k as [|[|k]]; [| |lia]; cbv -[Rplus Rmult Ropp Rminus Rinv Rdiv IZR m_q fo3 at_node qf_inputs Es_of inputs given]; rewrite ?Rmult_1_l, ?Rmult_1_r, ?Rplus_0_l, ?Rplus_0_r; reflexivity.
  - rewrite (fo3_local k _ _ _ (seen3 p a b r s)). destruct k as [|[|k]]; [reflexivity|reflexivity|lia].
Qed.
(** entries of the derivatives; [v] is the argument *)
Lemma node3_entries v cv t m p a b r s V L m1 : (v < 3)%nat -> wf_assembly (node3 G) v 2 2 -> valid_csr 2 (coupled (blocks_of (node3 G) v Elements)) cv ->
  evaluate (node3 G) t (Some v) false (inputs (inputs (given p) [r; s]) [a; b]) 2 m = Ok (L, m1) -> assemble (node3 G) v m1 cv = Ok V ->
  forall i j, (i < 2)%nat -> (j < 2)%nat -> csr_entry cv V i j = df3 G v i j (dofs3 [a; b] [r; s] [p; 0]) (mat_state m).
Proof.
  intros Hv WA VC E B i j Hi Hj.
  destruct (evaluate_quiet (node3 G) 2 c two Rc t (Some v) (inputs (given p) [r; s]) [a; b] m m (given_rate p r s) eq_refl (same_refl m)) as (L' & m2 & E2 & _ & _ & _ & Em).
  rewrite E2 in E. injection E as _ <-. assert (Sd := mem_sum_stored (node3 G) v t false (inputs (inputs (given p) [r; s]) [a; b]) m). rewrite <- Em in Sd.
  assert (Bd : forall x, coupled (blocks_of (node3 G) v BoundaryElements) x -> coupled (blocks_of (node3 G) v Elements) x) by (intros x (te & tr & e & i' & j' & k & l & [] & _)).
  assert (X : sumn 2 (fun k => csr_entry cv V i k * nth k (tab 2 (fun k => if Nat.eqb k j then 1 else 0)) 0) = df3 G v i j (dofs3 [a; b] [r; s] [p; 0]) (mat_state m)).
  { rewrite (assembled_rows (node3 G) 2 c two Rc v m2 cv V 2) with (dx := tab 2 (fun k => if Nat.eqb k j then 1 else 0)); auto; [|apply node3_same|exact (written_of _ _ _ _ _ _ Sd)].
    rewrite Em, <- (df3_local v i j _ _ _ (seen3 p a b r s)).
    destruct v as [|[|[|v]]]; [| | |lia]; (destruct i as [|[|i]]; [| |lia]); (destruct j as [|[|j]]; [| |lia]);
    cbv -[Rplus Rmult Ropp Rminus Rinv Rdiv IZR m_q df3 at_node qf_inputs Es_of inputs given]; rewrite ?Rmult_1_l, ?Rmult_1_r, ?Rplus_0_l, ?Rplus_0_r; ring. }
  rewrite <- X, sum2. destruct j as [|[|j]]; [| |lia]; cbn; ring.
Qed.
Lemma node3_tangent t m p a b r s A : tangent (node3 G) 2 c t (inputs (given p) [r; s]) m [a; b] A ->
  forall i j, (i < 2)%nat -> (j < 2)%nat -> A i j = df3 G 0 i j (dofs3 [a; b] [r; s] [p; 0]) (mat_state m).
Proof.
  intros (L & m1 & V & E & B & ->). pose proof Rc as (_ & _ & WA & _ & VC & _ & _). apply (node3_entries 0 c t m p a b r s V L m1); auto.
Qed.
Lemma node3_derivative v cv t m p a b r s P : (v < 2)%nat -> ready_for (node3 G) 2 two v 2 cv -> param_tangent (node3 G) 2 v cv t (inputs (given p) [r; s]) m [a; b] P ->
  forall i j, (i < 2)%nat -> (j < 2)%nat -> P i j = df3 G (S v) i j (dofs3 [a; b] [r; s] [p; 0]) (mat_state m).
Proof.
  intros Hv (_ & WA & _ & VC & _) (L & m1 & V & E & B & ->). apply (node3_entries (S v) cv t m p a b r s V L m1); auto. lia.
Qed.
End Node3.

(** capacity 1 and conductivity 1 to the held dof; the parameter is a heat source *)
Definition wall : law3 :=
  {| fo3 := fun i x st => if Nat.eqb i 0 then x 1%nat 0%nat + x 0%nat 0%nat - x 2%nat 0%nat - x 0%nat 1%nat else x 1%nat 1%nat;
     df3 := fun s i j x st => match s, i, j with
       | O, O, O => 1 | O, O, S O => -1 | S O, O, O => 1 | S O, S _, S O => 1 | S (S O), O, O => -1 | _, _, _ => 0 end;
     up3 := fun x st => st |}.
Lemma wall_fo_local i x y st : (forall s j, (s < 3)%nat -> (j < 2)%nat -> x s j = y s j) -> fo3 wall i x st = fo3 wall i y st.
Proof. intros H. cbn [wall fo3]. rewrite !H by lia. reflexivity. Qed.
Lemma wall_df_local s i j x y st : (forall s j, (s < 3)%nat -> (j < 2)%nat -> x s j = y s j) -> df3 wall s i j x st = df3 wall s i j y st.
Proof. intros _. reflexivity. Qed.
Lemma wall_right : law3_right wall.
Proof.
  intros st x d i H. destruct i as [|i]; cbn [wall fo3 Nat.eqb sumn df3].
  - replace (_ + _ : R) with (d 1%nat 0%nat + d 0%nat 0%nat - d 2%nat 0%nat - d 0%nat 1%nat) by ring.
    apply (is_derive_minus (fun e => x e 1%nat 0%nat + x e 0%nat 0%nat - x e 2%nat 0%nat) (fun e => x e 0%nat 1%nat)); [|apply H].
    apply (is_derive_minus (fun e => x e 1%nat 0%nat + x e 0%nat 0%nat) (fun e => x e 2%nat 0%nat)); [|apply H].
    apply (is_derive_plus (fun e => x e 1%nat 0%nat) (fun e => x e 0%nat 0%nat)); apply H.
  - replace (_ + _ : R) with (d 1%nat 1%nat) by ring. apply H.
Qed.

(** a step of size 1 with a solver which finds the rate [r] at the free dof at once *)
Definition warm_to (p r : R) : push := {| k_dt := 1; k_params := given p; k_solver := fun _ => Give (fun i => if Nat.eqb i 0 then r else 1) true |}.
Definition warm_start (a : R) : warmth (St := R) := {| w_u := [a; 0]; w_rate := [0; 0]; w_t := 0; w_cycle := 0; w_mem := fresh 0; w_saved := [([a; 0], [0; 0])] |}.
(** source 1 + eps, initial temperature 2 eps *)
Definition wall_pushes (eps : R) : list push := [warm_to (1 + eps) (1 - eps / 2); warm_to (1 + eps) (1 - eps / 4)].
Definition wall_u (eps : R) (k : nat) : list R := match k with O => [1 + 3 / 2 * eps; 1] | _ => [2 + 5 / 4 * eps; 2] end.
Definition wall_r (eps : R) (k : nat) : list R := match k with O => [1 - eps / 2; 1] | _ => [1 - eps / 4; 1] end.
(** temperature times rate at the free dof, summed over the steps *)
Definition product : nat -> vec -> vec -> vec -> R := fun _ u r _ => u 0%nat * r 0%nat.
Definition of_heat (o : outcome (list (warmth (St := R) * bool))) : list (warmth * bool) := match o with Ok l => l | _ => [] end.

Section Wall.
Variable c cm cw : csr.
Hypothesis Rc : ready (node3 wall) 2 c two.
Hypothesis Rm : ready_for (node3 wall) 2 two 0 2 cm.
Hypothesis Rw : ready_for (node3 wall) 2 two 1 2 cw.
Notation stepw := (Transient.heat_step (node3 wall) 2 c cm (any [held]) moved DirectControl).
Let runs (eps : R) := of_heat (heat_run stepw (wall_pushes eps) (warm_start (2 * eps))).
Lemma wall_step p r a b s : w_u s = [a; b] -> exists s', stepw (warm_to p r) s = Ok (s', true) /\
  w_u s' = [a + r; b + 1] /\ w_rate s' = [r; 1] /\ w_t s' = w_t s + 1 /\ w_cycle s' = S (w_cycle s) /\ w_saved s' = w_saved s ++ [(w_u s', w_rate s')].
Proof.
  intros Eu. destruct (Transient.heat_step_ok (node3 wall) 2 c cm (any [held]) moved two Rc Rm DirectControl (warm_to p r) s (given_fits p)) as (s' & ok & E & T & C & _ & Sv & k & H & Hr & Hu).
  destruct (motion_exists (node3 wall) 2 c cm (any [held]) two Rc Rm (w_t s') (k_params (warm_to p r)) (k_dt (warm_to p r)) (fst (setup1 (held_dofs 2 (any [held]) moved) DirectControl (w_t s') (k_dt (warm_to p r)) (entries (w_u s)))) (w_mem s) (given_fits p)) as (F & J & M).
  specialize (H F J M). cbn [warm_to k_solver pure] in H. injection H as <- <-. exists s'. split; [exact E|].
  split; [rewrite Hu; cbn [warm_to k_dt]; unfold tab; cbn [seq map]; unfold vadd, entries; rewrite Eu; cbn; f_equal; [ring|f_equal; ring]|]. split; [rewrite Hr; reflexivity|]. split; [exact T|]. split; [exact C|exact Sv].
Qed.
Lemma wall_runs eps : exists s1 s2, runs eps = [(s1, true); (s2, true)] /\ heat_run stepw (wall_pushes eps) (warm_start (2 * eps)) = Ok [(s1, true); (s2, true)] /\
  w_u s1 = wall_u eps 0 /\ w_u s2 = wall_u eps 1 /\ w_rate s1 = wall_r eps 0 /\ w_rate s2 = wall_r eps 1 /\ w_t s1 = 1 /\ w_t s2 = 2.
Proof.
  destruct (wall_step (1 + eps) (1 - eps / 2) (2 * eps) 0 (warm_start (2 * eps)) eq_refl) as (s1 & E1 & U1 & V1 & T1 & _).
  destruct (wall_step (1 + eps) (1 - eps / 4) _ _ s1 U1) as (s2 & E2 & U2 & V2 & T2 & _).
  assert (E : heat_run stepw (wall_pushes eps) (warm_start (2 * eps)) = Ok [(s1, true); (s2, true)]).
  { unfold wall_pushes. cbn [heat_run]. rewrite E1. cbn [bindO fst]. rewrite E2. reflexivity. }
  exists s1, s2. unfold runs. rewrite E. split; [reflexivity|]. split; [reflexivity|]. rewrite U1, U2, V1, V2, T2, T1. cbn [wall_u wall_r warm_start w_t].
  repeat split; try ring; (f_equal; [field|f_equal; ring]).
Qed.
Lemma wall_hot_u eps k : (k < 2)%nat -> w_u (hot (warm_start (2 * eps)) (runs eps) k) = wall_u eps k.
Proof. intros H. destruct (wall_runs eps) as (s1 & s2 & -> & _ & A & B & _). destruct k as [|[|k]]; [| |lia]; assumption. Qed.
Lemma wall_hot_r eps k : (k < 2)%nat -> w_rate (hot (warm_start (2 * eps)) (runs eps) k) = wall_r eps k.
Proof. intros H. destruct (wall_runs eps) as (s1 & s2 & -> & _ & _ & _ & A & B & _). destruct k as [|[|k]]; [| |lia]; assumption. Qed.
Lemma wall_hot_t eps k : (k < 2)%nat -> w_t (hot (warm_start (2 * eps)) (runs eps) k) = match k with O => 1 | _ => 2 end.
Proof. intros H. destruct (wall_runs eps) as (s1 & s2 & -> & _ & _ & _ & _ & _ & A & B). destruct k as [|[|k]]; [| |lia]; assumption. Qed.
Lemma wall_force t m eps k L : (k < 2)%nat -> force (node3 wall) 2 t (inputs (given (1 + eps)) (wall_r eps k)) m (wall_u eps k) L -> nth 0 L 0 = 0.
Proof.
  intros Hk F. destruct k as [|[|k]]; [| |lia]; cbn [wall_u wall_r] in F; apply (node3_force wall c Rc wall_fo_local) in F; subst L; cbn; field.
Qed.
Lemma two_entries (x0 x1 : R -> R) d0 d1 : is_derive x0 0 d0 -> is_derive x1 0 d1 -> curve 2 (fun eps => entries [x0 eps; x1 eps]) (fun i => if Nat.eqb i 0 then d0 else d1).
Proof. intros H0 H1 [|[|i]] Hi; [exact H0|exact H1|lia]. Qed.
Lemma wall_gradient : exists total b,
  heat_pass (node3 wall) 2 c cm [held] 0 cw solve_free [1; 1] (w_saved (hot_end (warm_start (2 * 0)) (runs 0))) (given (1 + 0))
    (fun k i => if Nat.eqb i 0 then nth 0 (wall_r 0 k) 0 else 0) (fun k => Some (fun i => if Nat.eqb i 0 then nth 0 (wall_u 0 k) 0 else 0)) 2
    (heat_turn (hot_end (warm_start (2 * 0)) (runs 0))) = Ok (total, b) /\
  is_derive (fun eps => sumn 2 (fun k => nth 0 (w_u (hot (warm_start (2 * eps)) (runs eps) k)) 0 * nth 0 (w_rate (hot (warm_start (2 * eps)) (runs eps) k)) 0)) 0
    (2 * q_mu b 0%nat + total 0%nat) /\ 2 * q_mu b 0%nat + total 0%nat = 7 / 4.
Proof.
  destruct (heat_run_gradient (node3 wall) 2 c cm [held] moved two Rc Rm 0 2 cw Rw DirectControl none solve_free [1; 1] (fun eps => [1 + eps; 0]) first
    (fun eps => warm_start (2 * eps)) (fun i => if Nat.eqb i 0 then 2 else 0) wall_pushes runs product
    (fun k i => if Nat.eqb i 0 then nth 0 (wall_r 0 k) 0 else 0) (fun k => Some (fun i => if Nat.eqb i 0 then nth 0 (wall_u 0 k) 0 else 0)) (fun _ _ => 0)
    (fun k i => if Nat.eqb i 0 then match k with O => 3 / 2 | _ => 5 / 4 end else 0) (fun k i => if Nat.eqb i 0 then match k with O => - 1 / 2 | _ => - 1 / 4 end else 0))
    as (total & b & E & D).
  - intros v. reflexivity.
  - discriminate.
  - intros eps. repeat split; reflexivity.
  - apply two_entries; [auto_derive; [auto|ring]|apply dconst].
  - discriminate.
  - reflexivity.
  - exact elastic_p.
  - intros [|[|k]] dt Hk; cbn in Hk; try (injection Hk as <-; lra). destruct k; discriminate.
  - intros eps. split; [reflexivity|]. repeat constructor.
  - intros eps. destruct (wall_runs eps) as (s1 & s2 & -> & E & _). exact E.
  - intros k Hk. cbn [length] in Hk. split.
    + intros i Hi. apply (is_derive_ext (fun eps : R => nth i (wall_u eps k) 0)); [intros eps; unfold entries; rewrite wall_hot_u by exact Hk; reflexivity|].
      destruct k as [|[|k]]; [| |lia]; (destruct i as [|[|i]]; [| |lia]); cbn [wall_u nth Nat.eqb]; auto_derive; auto; field.
    + intros i Hi. apply (is_derive_ext (fun eps : R => nth i (wall_r eps k) 0)); [intros eps; unfold entries; rewrite wall_hot_r by exact Hk; reflexivity|].
      destruct k as [|[|k]]; [| |lia]; (destruct i as [|[|i]]; [| |lia]); cbn [wall_r nth Nat.eqb]; auto_derive; auto; field.
  - intros k i Hk Hi Bi. cbn [length] in Hk. rewrite any_held in Bi. exists (mkposreal 1 Rlt_0_1). intros eps _. destruct i as [|[|i]]; [|discriminate|lia].
    rewrite wall_hot_u, wall_hot_r by exact Hk.
    destruct (force_exists (node3 wall) 2 c two Rc (w_t (hot (warm_start (2 * 0)) (runs 0) k)) (inputs (given (1 + eps)) (wall_r eps k)) (wall_u eps k) (w_mem (hot_end (warm_start (2 * 0)) (runs 0)))) as (L & A & _).
    + destruct k as [|k]; apply given_rate.
    + destruct k as [|k]; reflexivity.
    + exists L. split; [exact A|exact (wall_force _ _ _ _ _ Hk A)].
  - intros k i Hk Hi Bi. cbn [length] in Hk. rewrite any_held in Bi. exists (mkposreal 1 Rlt_0_1). intros eps _. destruct i as [|[|i]]; [discriminate| |lia].
    unfold heat_obeys. rewrite wall_hot_u, wall_hot_t by exact Hk. destruct k as [|[|k]]; [| |lia]; reflexivity.
  - intros k Hk. apply node3_joint, wall_right.
  - intros k dt K M Hd TK TM. assert (Hk : (k < 2)%nat) by (change 2%nat with (length [1; 1]); apply nth_error_Some; congruence).
    assert (dt = 1) by (destruct k as [|[|k]]; [| |lia]; cbn in Hd; congruence). subst dt.
    rewrite wall_hot_u, wall_hot_r in TK, TM by exact Hk.
    assert (EK : forall i j, (i < 2)%nat -> (j < 2)%nat -> K i j = df3 wall 0 i j (fun _ _ => 0) 0).
    { destruct k as [|[|k]]; [| |lia]; cbn [wall_u wall_r] in TK; intros i j Hi Hj; now rewrite (node3_tangent wall c Rc wall_df_local _ _ _ _ _ _ _ _ TK i j Hi Hj). }
    assert (EM : forall i j, (i < 2)%nat -> (j < 2)%nat -> M i j = df3 wall 1 i j (fun _ _ => 0) 0).
    { destruct k as [|[|k]]; [| |lia]; cbn [wall_u wall_r] in TM; intros i j Hi Hj; now rewrite (node3_derivative wall c Rc wall_df_local 0 cm _ _ _ _ _ _ _ _ (le_S _ _ (le_n 1)) Rm TM i j Hi Hj). }
    split; [apply free_ok; rewrite EK, EM by lia; cbn; lra|]. intros i j Hi Hj. rewrite !EM by assumption. destruct i as [|[|i]]; [| |lia]; (destruct j as [|[|j]]; [| |lia]); reflexivity.
  - intros k Hk cu du cv dv cp dp Cu Cv _ Su Sv _. cbn [length] in Hk. specialize (Cu 0%nat ltac:(lia)). specialize (Su 0%nat ltac:(lia)). specialize (Cv 0%nat ltac:(lia)). specialize (Sv 0%nat ltac:(lia)).
    cbv beta in Cu, Cv. unfold entries in Su, Sv. rewrite wall_hot_u in Su by exact Hk. rewrite wall_hot_r in Sv by exact Hk.
    unfold product. assert (M := is_derive_mult (fun e : R => cu e 0%nat) (fun e : R => cv e 0%nat) 0 (du 0%nat) (dv 0%nat) Cu Cv Rmult_comm). cbv beta in M. rewrite Su, Sv in M.
    match goal with |- is_derive _ _ ?r => match type of M with is_derive _ _ ?l => replace r with l; [exact M|] end end. unfold plus, mult, vdot. rewrite !sum2. cbn [rate_part Nat.eqb]. cbn. ring.
  - left. intros k _. discriminate.
  - exists total, b. split; [exact E|].
    assert (V : vdot 2 (q_mu b) (fun i => if Nat.eqb i 0 then 2 else 0) + vdot 2 (fun i => total i + sumn (length [1; 1]) (fun _ => 0)) first = 2 * q_mu b 0%nat + total 0%nat)
      by (unfold vdot; rewrite !sum2; cbn; ring).
    rewrite V in D. split; [exact D|]. rewrite <- (is_derive_unique _ _ _ D). cbn [length].
    rewrite (Derive_ext _ (fun eps => (1 + 3 / 2 * eps) * (1 - eps / 2) + (2 + 5 / 4 * eps) * (1 - eps / 4))).
    + apply is_derive_unique. auto_derive; [auto|field].
    + intros eps. rewrite sum2. unfold product, entries. rewrite !wall_hot_u, !wall_hot_r by lia. reflexivity.
Qed.
End Wall.
Theorem wall_case : exists c cm cw runs total b, ready (node3 wall) 2 c two /\ ready_for (node3 wall) 2 two 0 2 cm /\ ready_for (node3 wall) 2 two 1 2 cw /\
  (forall eps, heat_run (Transient.heat_step (node3 wall) 2 c cm (any [held]) moved DirectControl) (wall_pushes eps) (warm_start (2 * eps)) = Ok (runs eps)) /\
  heat_pass (node3 wall) 2 c cm [held] 0 cw solve_free [1; 1] (w_saved (hot_end (warm_start (2 * 0)) (runs 0))) (given (1 + 0))
    (fun k i => if Nat.eqb i 0 then nth 0 (wall_r 0 k) 0 else 0) (fun k => Some (fun i => if Nat.eqb i 0 then nth 0 (wall_u 0 k) 0 else 0)) 2
    (heat_turn (hot_end (warm_start (2 * 0)) (runs 0))) = Ok (total, b) /\
  is_derive (fun eps => sumn 2 (fun k => nth 0 (w_u (hot (warm_start (2 * eps)) (runs eps) k)) 0 * nth 0 (w_rate (hot (warm_start (2 * eps)) (runs eps) k)) 0)) 0
    (2 * q_mu b 0%nat + total 0%nat) /\ 2 * q_mu b 0%nat + total 0%nat = 7 / 4.
Proof.
  destruct (node3_ready wall) as (c & Rc). destruct (node3_ready_for wall 0 ltac:(lia)) as (cm & Rm). destruct (node3_ready_for wall 1 ltac:(lia)) as (cw & Rw).
  destruct (wall_gradient c cm cw Rc Rm Rw) as (total & b & E & D & V).
  exists c, cm, cw, (fun eps => of_heat (heat_run (Transient.heat_step (node3 wall) 2 c cm (any [held]) moved DirectControl) (wall_pushes eps) (warm_start (2 * eps)))), total, b.
  repeat (split; [assumption|]). split; [|auto]. intros eps. destruct (wall_runs c cm Rc Rm eps) as (s1 & s2 & _ & E1 & _). now rewrite E1.
Qed.
Theorem wall_ready : exists c cm cw, ready (node3 wall) 2 c two /\ ready_for (node3 wall) 2 two 0 2 cm /\ ready_for (node3 wall) 2 two 1 2 cw /\
  (forall t Ls m, ad_joint (node3 wall) t Ls m).
Proof.
  destruct (node3_ready wall) as (c & Rc). destruct (node3_ready_for wall 0 ltac:(lia)) as (cm & Rm). destruct (node3_ready_for wall 1 ltac:(lia)) as (cw & Rw).
  exists c, cm, cw. repeat (split; [assumption|]). intros t Ls m. apply node3_joint, wall_right.
Qed.
