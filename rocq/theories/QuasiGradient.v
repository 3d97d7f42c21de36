(** * What the reverse pass of a quasi-static run returns (C74) *)
From Coq Require Import NArith ZArith Reals List Lia Lra Bool FunctionalExtensionality.
From Coquelicot Require Import Coquelicot.
From Verif Require Import Prelude DofCodec Sums Restriction Csr Kernels FunctionalModel FunctionalGrad FunctionalTotal Assembly Tensor MatAlg BoundaryElim Adjoint AdjointDeriv QuasiStatic QuasiAdjoint.
Import ListNotations.
Local Open Scope R_scope.

Lemma last_nth_local {A} (l : list A) d : forall j, S j = length l -> last l d = nth j l d.
Proof.
  induction l as [|a l IH]; intros j H; [discriminate|]. cbn in H. injection H as ->. destruct l as [|b l]; [reflexivity|]. cbn [length]. cbn [nth].
  change (last (a :: b :: l) d) with (last (b :: l) d). now rewrite (IH (length l) eq_refl).
Qed.

Section Gradient.
Context {St : Type}.
Notation mem := (mem St).
Variable f : functional St.
Variable n : nat.
Variable c : csr.
Variable bcs : list dofset.
Variable tsize : nat -> nat.
Hypothesis R0 : ready f n c tsize.
Variable w np : nat.
Variable cw : csr.
Hypothesis Rw : ready_for f n tsize w np cw.
Variable lin : mat -> vec -> vec.
Variable dts : list R.
Variable saved : list (list R).
Variable others : nat -> list R.
Hypothesis Fo : fitting tsize others.

Notation reverse_step := (reverse_step f n c bcs lin dts saved others).
Notation timestep_sensitivity := (timestep_sensitivity f n w cw others).
Notation d_residual := (d_residual f n w cw others).

Lemma jacobian_quiet t u m : length u = n -> exists A m', jacobian f n c t others (entries u) m = Ok (A, m') /\ tangent f n c t others m u A /\ same_material m' m.
Proof.
  intros Hu. unfold jacobian. rewrite (tab_of n u Hu).
  destruct (evaluate_quiet f n c tsize R0 t (Some 0%nat) others u m m Fo Hu (same_refl m)) as (L & m' & E & Sm & _ & _ & Em).
  assert (Sd := mem_sum_stored f 0 t false (inputs others u) m). rewrite <- Em in Sd.
  destruct (assemble_ok f n c tsize R0 t _ _ _ Sd) as (V & B). exists (csr_entry c V), m'. rewrite E. cbn [bindO snd]. rewrite B. cbn [bindO].
  split; [reflexivity|]. split; [|exact Sm]. exists L, m', V. auto.
Qed.
Lemma d_residual_quiet (b : backward (St := St)) : length (b_u b) = n ->
  exists P m', d_residual b = Ok (P, m') /\ param_tangent f n w cw (b_end b) others (b_mem b) (b_u b) P /\ same_material m' (b_mem b).
Proof.
  intros Hu. unfold QuasiAdjoint.d_residual.
  destruct (evaluate_quiet f n c tsize R0 (b_end b) (Some (S w)) others (b_u b) (b_mem b) (b_mem b) Fo Hu (same_refl _)) as (L & m' & E & Sm & _ & _ & Em).
  assert (Sd := mem_sum_stored f (S w) (b_end b) false (inputs others (b_u b)) (b_mem b)). rewrite <- Em in Sd.
  pose proof R0 as (_ & _ & _ & _ & _ & Z & _). pose proof Rw as (_ & WA & SE & VC & Bd).
  destruct (assembled_agrees f (S w) m' cw n np WA SE (written_of f (S w) _ _ _ _ Sd) VC Z Bd) as (V & B & _).
  exists (csr_entry cw V), m'. rewrite E. cbn [bindO snd]. rewrite B. cbn [bindO]. split; [reflexivity|]. split; [|exact Sm]. exists L, m', V. auto.
Qed.

(** one step back *)
Lemma reverse_step_ok b k dt u : b_cycle b = S k -> nth_error dts k = Some dt -> nth_error saved (S k) = Some u -> length u = n ->
  exists b' A, reverse_step b = Ok b' /\ b_u b' = u /\ b_end b' = b_t b /\ b_t b' = b_t b - dt /\ b_cycle b' = k /\
    tangent f n c (b_t b) others (b_mem b) u A /\ b_adj b' = adjoint_solve n bcs lin A (b_load b) /\ same_material (b_mem b') (b_mem b).
Proof.
  intros Hc Hdt Hsv Hu. destruct (jacobian_quiet (b_t b) u (b_mem b) Hu) as (A & m' & E & T & Sm). unfold QuasiAdjoint.reverse_step. rewrite Hc, Hdt, Hsv, E. cbn [bindO fst snd].
  eexists _, A. split; [reflexivity|]. cbn. repeat (split; [reflexivity|]). split; [exact T|]. split; [reflexivity|exact Sm].
Qed.

(** times and displacements of the forward run, by step *)
Variable times : nat -> R.
Variable us : nat -> list R.
Variable N : nat.
Hypothesis Hdt : forall k, (k < N)%nat -> exists dt, nth_error dts k = Some dt /\ forall j, (S j = k)%nat -> times j = times k - dt.
Hypothesis Hsv : forall k, (k < N)%nat -> nth_error saved (S k) = Some (us k) /\ length (us k) = n.

(** the whole pass adds up the sensitivities of the single equilibria *)
Theorem pass_sum loads : forall k b, (k <= N)%nat -> b_cycle b = k -> (forall j, (S j = k)%nat -> b_t b = times j) ->
  exists total, reverse_pass f n c bcs w cw lin dts saved others loads k b = Ok total /\
    exists A P (ms : nat -> mem), (forall j, (j < k)%nat -> tangent f n c (times j) others (ms j) (us j) (A j) /\ param_tangent f n w cw (times j) others (ms j) (us j) (P j)
      /\ same_material (ms j) (b_mem b)) /\
    forall i, total i = sumn k (fun j => sensitivity n (P j) (static_adjoint n bcs lin (A j) (loads j)) i).
Proof.
  induction k as [|k IH]; intros b Hk Hc Ht.
  - exists (fun _ => 0). split; [reflexivity|]. exists (fun _ _ _ => 0), (fun _ _ _ => 0), (fun _ => b_mem b). split; [intros; lia|reflexivity].
  - destruct (Hdt k ltac:(lia)) as (dt & D1 & D2). destruct (Hsv k ltac:(lia)) as [V1 V2]. cbn [reverse_pass].
    destruct (reverse_step_ok (set_load (loads k) b) k dt (us k) Hc D1 V1 V2) as (b1 & A1 & E1 & U1 & T1 & T1' & C1 & Tg & Ad & Sm).
    rewrite E1. cbn [bindO]. cbn [set_load b_t b_load b_mem] in *. rewrite (Ht k eq_refl) in *.
    destruct (d_residual_quiet b1) as (P1 & m1 & E2 & Tp & Sm1); [now rewrite U1|]. unfold QuasiAdjoint.timestep_sensitivity. rewrite E2. cbn [bindO fst snd].
    destruct (IH (remember m1 b1)) as (rest & E3 & A & P & ms & HA & HT); [lia|exact C1| |].
    { intros j Hj. cbn [remember b_t]. rewrite T1'. symmetry. now apply D2. }
    rewrite E3. cbn [bindO]. eexists. split; [reflexivity|].
    (* the parameter gradient is taken with the memory after the Jacobian *)
    assert (Tp' : param_tangent f n w cw (times k) others (b_mem b) (us k) P1).
    { rewrite T1, U1 in Tp. destruct Tp as (L2 & m2 & V & X1 & X2 & X3).
      destruct (evaluate_quiet f n c tsize R0 (times k) (Some (S w)) others (us k) (b_mem b) (b_mem b) Fo V2 (same_refl _)) as (L4 & m4 & Y1 & Y2 & _ & _ & Y5).
      destruct (evaluate_quiet f n c tsize R0 (times k) (Some (S w)) others (us k) (b_mem b1) (b_mem b1) Fo V2 (same_refl _)) as (L5 & m5 & Z1 & Z2 & _ & _ & Z5).
      rewrite Z1 in X1. injection X1 as _ <-. exists L4, m4, V. split; [exact Y1|]. split; [|exact X3]. rewrite <- X2.
      assert (S4 := mem_sum_stored f (S w) (times k) false (inputs others (us k)) (b_mem b)). rewrite <- Y5 in S4.
      assert (S5 := mem_sum_stored f (S w) (times k) false (inputs others (us k)) (b_mem b1)). rewrite <- Z5 in S5.
      exact (assemble_same_for f (S w) cw _ _ _ _ _ _ S4 S5 (same_sym _ _ Sm)). }
    exists (fun j => if Nat.eqb j k then A1 else A j), (fun j => if Nat.eqb j k then P1 else P j), (fun j => if Nat.eqb j k then b_mem b else ms j). split.
    + intros j Hj. destruct (Nat.eqb_spec j k) as [->|Nj].
      * split; [exact Tg|]. split; [exact Tp'|apply same_refl].
      * destruct (HA j ltac:(lia)) as (Q1 & Q2 & Q3). split; [exact Q1|]. split; [exact Q2|]. cbn [remember b_mem] in Q3.
        apply (same_trans _ _ _ Q3). exact (same_trans _ _ _ Sm1 Sm).
    + intros i. cbn [sumn]. rewrite Nat.eqb_refl, HT. rewrite Rplus_comm. f_equal; [|now rewrite Ad].
      apply sumn_ext. intros j Hj. destruct (Nat.eqb_spec j k); [lia|reflexivity].
Qed.

Lemma param_moves t u m1 m2 P : length u = n -> same_material m1 m2 -> param_tangent f n w cw t others m1 u P -> param_tangent f n w cw t others m2 u P.
Proof.
  intros V2 Sm (L2 & m3 & V & X1 & X2 & X3).
  destruct (evaluate_quiet f n c tsize R0 t (Some (S w)) others u m2 m2 Fo V2 (same_refl _)) as (L4 & m4 & Y1 & Y2 & _ & _ & Y5).
  destruct (evaluate_quiet f n c tsize R0 t (Some (S w)) others u m1 m1 Fo V2 (same_refl _)) as (L5 & m5 & Z1 & Z2 & _ & _ & Z5).
  rewrite Z1 in X1. injection X1 as _ <-. exists L4, m4, V. split; [exact Y1|]. split; [|exact X3]. rewrite <- X2.
  assert (S4 := mem_sum_stored f (S w) t false (inputs others u) m2). rewrite <- Y5 in S4.
  assert (S5 := mem_sum_stored f (S w) t false (inputs others u) m1). rewrite <- Z5 in S5.
  exact (assemble_same_for f (S w) cw _ _ _ _ _ _ S4 S5 (same_sym _ _ Sm)).
Qed.
Lemma tangent_moves t u m1 m2 A : length u = n -> same_material m1 m2 -> tangent f n c t others m1 u A -> tangent f n c t others m2 u A.
Proof.
  intros V2 Sm (L2 & m3 & V & X1 & X2 & X3).
  destruct (evaluate_quiet f n c tsize R0 t (Some 0%nat) others u m2 m2 Fo V2 (same_refl _)) as (L4 & m4 & Y1 & Y2 & _ & _ & Y5).
  destruct (evaluate_quiet f n c tsize R0 t (Some 0%nat) others u m1 m1 Fo V2 (same_refl _)) as (L5 & m5 & Z1 & Z2 & _ & _ & Z5).
  rewrite Z1 in X1. injection X1 as _ <-. exists L4, m4, V. split; [exact Y1|]. split; [|exact X3]. rewrite <- X2.
  assert (S4 := mem_sum_stored f 0 t false (inputs others u) m2). rewrite <- Y5 in S4.
  assert (S5 := mem_sum_stored f 0 t false (inputs others u) m1). rewrite <- Z5 in S5.
  exact (assemble_same_for f 0 c _ _ _ _ _ _ S4 S5 (same_sym _ _ Sm)).
Qed.

(** one turn of the loop over reactions: the load is made with the displacement at hand, the rest with that of the step *)
Lemma reaction_turn d b k dt u : b_cycle b = S k -> nth_error dts k = Some dt -> nth_error saved (S k) = Some u -> length u = n -> length (b_u b) = n ->
  exists b0 b1 g h B A P,
    reaction_adjoint_load f n c others d b = Ok b0 /\ reverse_step b0 = Ok b1 /\ timestep_sensitivity b1 = Ok g /\
    dual_sensitivity f n w cw others d (remember (snd g) b1) = Ok h /\
    tangent f n c (b_t b) others (b_mem b) (b_u b) B /\ tangent f n c (b_t b) others (b_mem b) u A /\ param_tangent f n w cw (b_t b) others (b_mem b) u P /\
    fst g = sensitivity n P (static_adjoint n bcs lin A (reaction_load n B d)) /\ fst h = sensitivity n P d /\
    b_u b1 = u /\ b_t b1 = b_t b - dt /\ b_cycle b1 = k /\ same_material (snd h) (b_mem b).
Proof.
  intros Hc D1 V1 V2 Vb. unfold reaction_adjoint_load. destruct (jacobian_quiet (b_t b) (b_u b) (b_mem b) Vb) as (B & m0 & E0 & TB & S0). rewrite E0. cbn [bindO fst snd].
  set (b0 := set_load _ _).
  destruct (reverse_step_ok b0 k dt u Hc D1 V1 V2) as (b1 & A & E1 & U1 & T1 & T1' & C1 & Tg & Ad & Sm).
  change (b_t b0) with (b_t b) in *. change (b_mem b0) with m0 in *.
  destruct (d_residual_quiet b1) as (P & m1 & E2 & Tp & Sm1); [now rewrite U1|].
  assert (Ed : dual_sensitivity f n w cw others d (remember m1 b1) = bindO (d_residual (remember m1 b1)) (fun p => Ok (sensitivity n (fst p) d, snd p))) by reflexivity.
  destruct (d_residual_quiet (remember m1 b1)) as (P' & m2 & E3 & Tp' & Sm2); [cbn [remember b_u]; now rewrite U1|]. cbn [remember b_end b_mem b_u] in Tp', Sm2.
  rewrite E3 in Ed. cbn [bindO fst snd] in Ed.
  rewrite T1, U1 in Tp, Tp'.
  assert (Q : P' = P).
  { assert (X := param_moves _ _ _ _ _ V2 Sm1 Tp'). destruct X as (L & m3 & V & X1 & X2 & X3). destruct Tp as (L' & m3' & V' & Y1 & Y2 & Y3). rewrite Y1 in X1. injection X1 as _ <-. congruence. }
  subst P'. exists b0, b1, (sensitivity n P (b_adj b1), m1), (sensitivity n P d, m2), B, A, P. split; [reflexivity|]. split; [exact E1|].
  split; [unfold QuasiAdjoint.timestep_sensitivity; rewrite E2; reflexivity|]. split; [exact Ed|]. split; [exact TB|].
  split; [exact (tangent_moves _ _ _ _ _ V2 S0 Tg)|]. split; [exact (param_moves _ _ _ _ _ V2 (same_trans _ _ _ Sm S0) Tp)|].
  split; [cbn [fst]; rewrite Ad; reflexivity|]. split; [reflexivity|]. split; [exact U1|]. split; [exact T1'|]. split; [exact C1|].
  cbn [snd]. exact (same_trans _ _ _ Sm2 (same_trans _ _ _ Sm1 (same_trans _ _ _ Sm S0))).
Qed.
Theorem reaction_sum d : forall k b, (k <= N)%nat -> b_cycle b = k -> (forall j, (S j = k)%nat -> b_t b = times j) -> length (b_u b) = n ->
  exists total, reaction_pass f n c bcs w cw lin dts saved others d k b = Ok total /\
    exists B A P, (forall j, (j < k)%nat -> tangent f n c (times j) others (b_mem b) (if Nat.eqb (S j) k then b_u b else us (S j)) (B j) /\
      tangent f n c (times j) others (b_mem b) (us j) (A j) /\ param_tangent f n w cw (times j) others (b_mem b) (us j) (P j)) /\
    forall i, total i = sumn k (fun j => sensitivity n (P j) (static_adjoint n bcs lin (A j) (reaction_load n (B j) (d j))) i + sensitivity n (P j) (d j) i).
Proof.
  induction k as [|k IH]; intros b Hk Hc Ht Vb.
  - exists (fun _ => 0). split; [reflexivity|]. exists (fun _ _ _ => 0), (fun _ _ _ => 0), (fun _ _ _ => 0). split; [intros; lia|reflexivity].
  - destruct (Hdt k ltac:(lia)) as (dt & D1 & D2). destruct (Hsv k ltac:(lia)) as [V1 V2]. cbn [reaction_pass].
    destruct (reaction_turn (d k) b k dt (us k) Hc D1 V1 V2 Vb) as (b0 & b1 & g & h & B1 & A1 & P1 & E0 & E1 & E2 & E3 & TB & TA & TP & G & H & U1 & T1 & C1 & Sm).
    rewrite E0. cbn [bindO]. rewrite E1. cbn [bindO]. rewrite E2. cbn [bindO]. rewrite E3. cbn [bindO].
    destruct (IH (remember (snd h) b1)) as (rest & E4 & B & A & P & HA & HT); [lia|exact C1| |cbn [remember b_u]; now rewrite U1|].
    { intros j Hj. cbn [remember b_t]. rewrite T1, (Ht k eq_refl). symmetry. now apply D2. }
    rewrite E4. cbn [bindO]. eexists. split; [reflexivity|]. rewrite (Ht k eq_refl) in *.
    exists (fun j => if Nat.eqb j k then B1 else B j), (fun j => if Nat.eqb j k then A1 else A j), (fun j => if Nat.eqb j k then P1 else P j). split.
    + intros j Hj. cbn [Nat.eqb]. destruct (Nat.eqb_spec j k) as [->|Nj]; [auto|].
      destruct (HA j ltac:(lia)) as (Q1 & Q2 & Q3). cbn [remember b_mem b_u] in Q1, Q2, Q3. destruct (Hsv (S j) ltac:(lia)) as [_ V3]. destruct (Hsv j ltac:(lia)) as [_ V4].
      split; [|split; [exact (tangent_moves _ _ _ _ _ V4 Sm Q2)|exact (param_moves _ _ _ _ _ V4 Sm Q3)]].
      apply (tangent_moves _ _ (snd h)); [exact V3|exact Sm|]. destruct (Nat.eqb_spec (S j) k) as [<-|]; [rewrite U1 in Q1|]; exact Q1.
    + intros i. cbn [sumn]. rewrite Nat.eqb_refl, HT, G, H. rewrite Rplus_comm. f_equal.
      apply sumn_ext. intros j Hj. destruct (Nat.eqb_spec j k); [lia|reflexivity].
Qed.
End Gradient.

(** ** a family of runs *)
Section Family.
Context {St : Type}.
Variable f : functional St.
Variable n : nat.
Variable c : csr.
Variable bcs : list dofset.
Variable target : R -> vec.
Variable tsize : nat -> nat.
Hypothesis R0 : ready f n c tsize.
Variable w np : nat.
Variable cw : csr.
Hypothesis Rw : ready_for f n tsize w np cw.
Variable others : nat -> list R.
Hypothesis Fo : fitting tsize others.

(** the states after each step; [final] at the end *)
Definition at_step (s0 : state (St := St)) (l : list state) (k : nat) : state := nth k l s0.

Lemma final_cons (s s' : state (St := St)) l : final s (s' :: l) = final s' l.
Proof. unfold final. revert s s'. induction l as [|a l IH]; intros s s'; [reflexivity|]. change (last (a :: l) s = last (a :: l) s'). rewrite (IH s a), (IH s' a). reflexivity. Qed.
Lemma chain_facts loads : forall s l, chain f n c (any bcs) target loads s l -> List.Forall (fun ld => fitting tsize (l_others ld)) loads -> length l = length loads /\
  s_cycle (final s l) = (s_cycle s + length loads)%nat /\ s_saved (final s l) = s_saved s ++ map s_u l /\
  (forall k ld, nth_error loads k = Some ld -> exists m,
     force f n (s_t (at_step s l k)) (l_others ld) m (s_u (at_step s l k)) (s_react (at_step s l k)) /\ length (s_u (at_step s l k)) = n /\
     s_t (at_step s l k) = s_t (match k with O => s | S j => at_step s l j end) + l_dt ld).
Proof.
  induction loads as [|ld loads IH]; intros s [|s' l] Ch Ff; cbn [chain] in Ch; try contradiction.
  - cbn. rewrite Nat.add_0_r, app_nil_r. repeat split; auto. intros [|k] ld H; discriminate.
  - destruct Ch as [(ok & Ad) Ch]. apply Forall_cons_iff in Ff as [F1 F2]. destruct (IH s' l Ch F2) as (L1 & L2 & L3 & L4).
    rewrite final_cons. split; [cbn; congruence|]. split; [rewrite L2, (adv_cycle _ _ _ _ _ _ _ _ _ Ad); cbn [length]; lia|].
    split; [rewrite L3, (adv_saved _ _ _ _ _ _ _ _ _ Ad), <- app_assoc; reflexivity|].
    intros [|k] ld' Hk; cbn [nth_error] in Hk.
    + injection Hk as <-. exists (s_mem s). unfold at_step. cbn [nth]. split; [exact (adv_react _ _ _ _ _ _ _ _ _ Ad)|]. split; [|exact (adv_time _ _ _ _ _ _ _ _ _ Ad)].
      destruct (material_exists f n c (any bcs) tsize R0 (s_t s') (l_others ld) (s_mem s) F1) as (F & J & H).
      destruct (adv_solve _ _ _ _ _ _ _ _ _ Ad F J H) as (x0 & x & _ & _ & E). rewrite E. apply tab_length.
    + assert (Hl : (k < length l)%nat) by (rewrite L1; apply nth_error_Some; congruence).
      destruct (L4 k ld' Hk) as (m & A & B & C). exists m.
      assert (Eq : at_step s (s' :: l) (S k) = at_step s' l k) by (unfold at_step; cbn [nth]; now apply nth_indep). rewrite Eq. split; [exact A|]. split; [exact B|].
      rewrite C. f_equal. f_equal. unfold at_step. destruct k as [|k]; cbn [nth]; [reflexivity|]. apply nth_indep. lia.
Qed.

(** what the reverse pass returns is the derivative of the objective with respect to the parameter, for materials without memory *)
Theorem run_gradient lin dts (p : R -> list R) dp (loads : R -> list load) (runs : R -> list (state (St := St))) s0 (Q : nat -> vec -> vec -> R) qu qp du :
  memoryless f -> sound n tsize s0 -> s_cycle s0 = 0%nat -> s_saved s0 = [s_u s0] ->
  (forall eps, length (p eps) = np) -> curve np (fun eps => entries (p eps)) dp ->
  (forall eps, map l_dt (loads eps) = dts /\ List.Forall (fun ld => l_others ld = with_param others w (p eps)) (loads eps)) ->
  (forall eps, run_steps f n c (any bcs) target (loads eps) s0 = Ok (runs eps)) ->
  let N := length dts in let u := fun eps k => s_u (at_step s0 (runs eps) k) in let t := fun k => s_t (at_step s0 (runs 0) k) in
  (forall k, (k < N)%nat -> curve n (fun eps => entries (u eps k)) (du k)) ->
  (forall k i, (k < N)%nat -> (i < n)%nat -> any bcs i = false -> locally 0 (fun eps => nth i (s_react (at_step s0 (runs eps) k)) 0 = 0)) ->
  (forall k i, (k < N)%nat -> (i < n)%nat -> any bcs i = true -> locally 0 (fun eps => nth i (u eps k) 0 = target (t k) i)) ->
  (forall k m, (k < N)%nat -> ad_joint f (t k) (inputs (with_param others w (p 0)) (u 0 k)) m) ->
  (forall k m A, (k < N)%nat -> tangent f n c (t k) (with_param others w (p 0)) m (u 0 k) A -> lin_ok n bcs lin A) ->
  (forall k, (k < N)%nat -> gradient3 n np (fun u _ p => Q k u p) (entries (u 0 k)) vz (entries (p 0)) (qu k) vz (qp k)) ->
  exists total, reverse_pass f n c bcs w cw lin dts (s_saved (final s0 (runs 0))) (with_param others w (p 0)) qu N (turn (final s0 (runs 0))) = Ok total /\
    is_derive (fun eps => sumn N (fun k => Q k (entries (u eps k)) (entries (p eps)))) 0 (vdot np (fun i => total i + sumn N (fun k => qp k i)) dp).
Proof.
  intros M Sd Z0 Sv0 Lp Cp Hl Hr N u t Cu Eq Pr Had Hlin HQ.
  assert (Ffit : forall eps, List.Forall (fun ld => fitting tsize (l_others ld)) (loads eps)).
  { intros eps. destruct (Hl eps) as [_ H]. revert H. apply List.Forall_impl. intros ld E. rewrite E. apply (param_fits f n tsize w np cw); auto. }
  assert (Len : forall eps, length (loads eps) = N) by (intros eps; destruct (Hl eps) as [E _]; unfold N; rewrite <- E; symmetry; apply map_length).
  assert (Ch := fun eps => chain_facts (loads eps) s0 (runs eps) (run_chain f n c (any bcs) target tsize R0 _ _ _ Sd (Ffit eps) (Hr eps)) (Ffit eps)).
  assert (Step : forall eps k, (k < N)%nat -> exists ld, nth_error (loads eps) k = Some ld /\ l_others ld = with_param others w (p eps) /\ nth_error dts k = Some (l_dt ld)).
  { intros eps k Hk. destruct (nth_error (loads eps) k) as [ld|] eqn:E; [|apply nth_error_None in E; rewrite Len in E; lia]. exists ld. split; [reflexivity|].
    destruct (Hl eps) as [D H]. split; [exact (proj1 (List.Forall_forall _ _) H ld (nth_error_In _ _ E))|]. rewrite <- D, nth_error_map, E. reflexivity. }
  assert (Tm : forall eps k, (k < N)%nat -> s_t (at_step s0 (runs eps) k) = t k).
  { intros eps. assert (X : forall k, (k < N)%nat -> s_t (at_step s0 (runs eps) k) = s_t (at_step s0 (runs 0) k)); [|intros k Hk; now apply X].
    induction k as [|k IH]; intros Hk.
    - destruct (Step eps 0%nat Hk) as (ld & A & _ & B). destruct (Step 0 0%nat Hk) as (ld' & A' & _ & B').
      destruct (Ch eps) as (_ & _ & _ & C). destruct (C _ _ A) as (m & _ & _ & D). destruct (Ch 0) as (_ & _ & _ & C'). destruct (C' _ _ A') as (m' & _ & _ & D').
      rewrite D, D'. congruence.
    - destruct (Step eps (S k) Hk) as (ld & A & _ & B). destruct (Step 0 (S k) Hk) as (ld' & A' & _ & B').
      destruct (Ch eps) as (_ & _ & _ & C). destruct (C _ _ A) as (m & _ & _ & D). destruct (Ch 0) as (_ & _ & _ & C'). destruct (C' _ _ A') as (m' & _ & _ & D').
      rewrite D, D', IH by lia. congruence. }
  destruct (Ch 0) as (L1 & L2 & L3 & L4).
  assert (Fp : fitting tsize (with_param others w (p 0))) by (apply (param_fits f n tsize w np cw); auto).
  destruct (pass_sum f n c bcs tsize R0 w np cw Rw lin dts (s_saved (final s0 (runs 0))) (with_param others w (p 0)) Fp t (u 0) N) with (loads := qu) (k := N) (b := turn (final s0 (runs 0)))
    as (total & E & A & P & ms & HA & HT).
  - intros k Hk. destruct (Step 0 k Hk) as (ld & X & _ & Y). exists (l_dt ld). split; [exact Y|]. intros j Hj. destruct (L4 k ld X) as (m & _ & _ & D).
    unfold t. rewrite D, <- Hj. lra.
  - intros k Hk. destruct (Step 0 k Hk) as (ld & X & _ & Y). destruct (L4 k ld X) as (m & _ & B & D). split; [|exact B]. rewrite L3, Sv0. cbn [app nth_error]. rewrite nth_error_map.
    unfold u, at_step. rewrite (nth_error_nth' (runs 0) s0) by (rewrite L1, Len; exact Hk). reflexivity.
  - lia.
  - cbn [turn b_cycle]. rewrite L2, Z0, Len. reflexivity.
  - intros j Hj. cbn [turn b_t]. unfold t, at_step, final. rewrite <- (Len 0), <- L1 in Hj. rewrite (last_nth_local (runs 0) s0 j Hj). reflexivity.
  - exists total. split; [exact E|].
    assert (D : forall k, (k < N)%nat -> is_derive (fun eps => Q k (entries (u eps k)) (entries (p eps))) 0
       (vdot np (fun i => qp k i + sensitivity n (P k) (static_adjoint n bcs lin (A k) (qu k)) i) dp)).
    { intros k Hk. destruct (HA k Hk) as (T1 & T2 & _). destruct (Step 0 k Hk) as (ld0 & X0 & _ & _). destruct (L4 k ld0 X0) as (_ & _ & Hu & _).
      apply (static_gradient n np bcs lin (nodal f n w np (t k) others (ms k)) (Q k) (fun eps => entries (u eps k)) (fun eps => entries (p eps)) (A k) (P k) (qu k) (qp k) (du k) dp).
      - now apply Cu.
      - exact Cp.
      - apply (joint_derivative f n c tsize R0 w np cw Rw (t k) others (ms k) (u 0 k) (p 0) (A k) (P k) Fo Hu (Lp 0)); auto.
      - now apply HQ.
      - intros i Hi Bi. destruct (Eq k i Hk Hi Bi) as (d & Hd). exists d. intros eps He. specialize (Hd eps He).
        destruct (Step eps k Hk) as (ld & X & Y & _). destruct (Ch eps) as (_ & _ & _ & C). destruct (C _ _ X) as (m & F1 & F2 & _).
        rewrite Y, (Tm eps k Hk) in F1.
        assert (F3 := force_memoryless f n c tsize R0 (t k) (with_param others w (p eps)) m (ms k) _ _ M (param_fits f n tsize w np cw Rw others (p eps) Fo (Lp eps)) F2 F1).
        destruct F3 as (m' & F3). destruct (evaluate_quiet f n c tsize R0 (t k) None (with_param others w (p eps)) (u eps k) (ms k) (ms k)
          (param_fits f n tsize w np cw Rw others (p eps) Fo (Lp eps)) F2 (same_refl _)) as (L & m2 & E2 & _ & _ & V2 & _).
        change (evaluate f (t k) None false (inputs (with_param others w (p eps)) (u eps k)) n (ms k) = Ok (s_react (at_step s0 (runs eps) k), m')) in F3. rewrite E2 in F3. injection F3 as F3 _. unfold nodal. rewrite (tab_of n (u eps k) F2), (tab_of np _ (Lp eps)).
        rewrite <- V2 by exact Hi. rewrite F3. exact Hd.
      - intros i Hi Bi. destruct (Pr k i Hk Hi Bi) as (d & Hd). exists d. intros eps He. unfold entries. rewrite (Hd eps He), (Hd 0 (ball_center 0 d)). reflexivity.
      - now apply (Hlin k (ms k)). }
    replace (vdot np (fun i => total i + sumn N (fun k => qp k i)) dp) with
      (sumn N (fun k => vdot np (fun i => qp k i + sensitivity n (P k) (static_adjoint n bcs lin (A k) (qu k)) i) dp)).
    + apply (is_derive_sumn N (fun k eps => Q k (entries (u eps k)) (entries (p eps)))). exact D.
    + unfold vdot. rewrite sumn_swap. apply sumn_ext. intros i Hi. rewrite sumn_scal_r. f_equal. rewrite sumn_plus, HT. ring.
Qed.

(** the reactions of the last step: their adjoint load, one step back and the two sensitivities give the derivative *)
Theorem last_reaction lin dts (p : R -> list R) dp (loads : R -> list load) (runs : R -> list (state (St := St))) s0 d du l :
  memoryless f -> sound n tsize s0 -> s_cycle s0 = 0%nat -> s_saved s0 = [s_u s0] ->
  (forall eps, length (p eps) = np) -> curve np (fun eps => entries (p eps)) dp ->
  (forall eps, map l_dt (loads eps) = dts /\ List.Forall (fun ld => l_others ld = with_param others w (p eps)) (loads eps)) ->
  (forall eps, run_steps f n c (any bcs) target (loads eps) s0 = Ok (runs eps)) ->
  let N := length dts in let u := fun eps k => s_u (at_step s0 (runs eps) k) in let t := fun k => s_t (at_step s0 (runs 0) k) in
  N = S l ->
  curve n (fun eps => entries (u eps l)) du ->
  (forall i, (i < n)%nat -> any bcs i = false -> locally 0 (fun eps => nth i (s_react (at_step s0 (runs eps) l)) 0 = 0)) ->
  (forall i, (i < n)%nat -> any bcs i = true -> locally 0 (fun eps => nth i (u eps l) 0 = target (t l) i)) ->
  (forall m, ad_joint f (t l) (inputs (with_param others w (p 0)) (u 0 l)) m) ->
  (forall m A, tangent f n c (t l) (with_param others w (p 0)) m (u 0 l) A -> lin_ok n bcs lin A) ->
  exists b0 b1 g h, reaction_adjoint_load f n c (with_param others w (p 0)) d (turn (final s0 (runs 0))) = Ok b0 /\
    reverse_step f n c bcs lin dts (s_saved (final s0 (runs 0))) (with_param others w (p 0)) b0 = Ok b1 /\
    timestep_sensitivity f n w cw (with_param others w (p 0)) b1 = Ok g /\
    dual_sensitivity f n w cw (with_param others w (p 0)) d (remember (snd g) b1) = Ok h /\
    is_derive (fun eps => vdot n d (entries (s_react (at_step s0 (runs eps) l)))) 0 (vdot np (fun i => fst g i + fst h i) dp).
Proof.
  intros M Sd Z0 Sv0 Lp Cp Hl Hr N u t HN Cu Eq Pr Had Hlin.
  assert (Ffit : forall eps, List.Forall (fun ld => fitting tsize (l_others ld)) (loads eps)).
  { intros eps. destruct (Hl eps) as [_ H]. revert H. apply List.Forall_impl. intros ld E. rewrite E. apply (param_fits f n tsize w np cw); auto. }
  assert (Len : forall eps, length (loads eps) = N) by (intros eps; destruct (Hl eps) as [E _]; unfold N; rewrite <- E; symmetry; apply map_length).
  assert (Ch := fun eps => chain_facts (loads eps) s0 (runs eps) (run_chain f n c (any bcs) target tsize R0 _ _ _ Sd (Ffit eps) (Hr eps)) (Ffit eps)).
  assert (Step : forall eps k, (k < N)%nat -> exists ld, nth_error (loads eps) k = Some ld /\ l_others ld = with_param others w (p eps) /\ nth_error dts k = Some (l_dt ld)).
  { intros eps k Hk. destruct (nth_error (loads eps) k) as [ld|] eqn:E; [|apply nth_error_None in E; rewrite Len in E; lia]. exists ld. split; [reflexivity|].
    destruct (Hl eps) as [D H]. split; [exact (proj1 (List.Forall_forall _ _) H ld (nth_error_In _ _ E))|]. rewrite <- D, nth_error_map, E. reflexivity. }
  assert (Tm : forall eps k, (k < N)%nat -> s_t (at_step s0 (runs eps) k) = t k).
  { intros eps. assert (X : forall k, (k < N)%nat -> s_t (at_step s0 (runs eps) k) = s_t (at_step s0 (runs 0) k)); [|intros k Hk; now apply X].
    induction k as [|k IH]; intros Hk.
    - destruct (Step eps 0%nat Hk) as (ld & A & _ & B). destruct (Step 0 0%nat Hk) as (ld' & A' & _ & B').
      destruct (Ch eps) as (_ & _ & _ & C). destruct (C _ _ A) as (m & _ & _ & D). destruct (Ch 0) as (_ & _ & _ & C'). destruct (C' _ _ A') as (m' & _ & _ & D').
      rewrite D, D'. congruence.
    - destruct (Step eps (S k) Hk) as (ld & A & _ & B). destruct (Step 0 (S k) Hk) as (ld' & A' & _ & B').
      destruct (Ch eps) as (_ & _ & _ & C). destruct (C _ _ A) as (m & _ & _ & D). destruct (Ch 0) as (_ & _ & _ & C'). destruct (C' _ _ A') as (m' & _ & _ & D').
      rewrite D, D', IH by lia. congruence. }
  destruct (Ch 0) as (L1 & L2 & L3 & L4).
  assert (Fp : fitting tsize (with_param others w (p 0))) by (apply (param_fits f n tsize w np cw); auto).
  assert (HlN : (l < N)%nat) by lia. destruct (Step 0 l HlN) as (ld0 & X0 & _ & D0). destruct (L4 l ld0 X0) as (_ & _ & Hu & _).
  assert (Fin : final s0 (runs 0) = at_step s0 (runs 0) l) by (unfold at_step, final; apply last_nth_local; rewrite L1, Len; congruence).
  destruct (reaction_turn f n c bcs tsize R0 w np cw Rw lin dts (s_saved (final s0 (runs 0))) (with_param others w (p 0)) Fp d (turn (final s0 (runs 0))) l (l_dt ld0) (u 0 l))
    as (b0 & b1 & g & h & B & A & P & E0 & E1 & E2 & E3 & TB & TA & TP & G & H & _).
  - cbn [turn b_cycle]. rewrite L2, Z0, Len, HN. reflexivity.
  - exact D0.
  - rewrite L3, Sv0. cbn [app nth_error]. rewrite nth_error_map. unfold u, at_step. rewrite (nth_error_nth' (runs 0) s0) by (rewrite L1, Len; exact HlN). reflexivity.
  - exact Hu.
  - cbn [turn b_u]. rewrite Fin. exact Hu.
  - exists b0, b1, g, h. split; [exact E0|]. split; [exact E1|]. split; [exact E2|]. split; [exact E3|].
    cbn [turn b_t b_u b_mem] in TB, TA, TP. rewrite Fin in TB, TA, TP. set (m := s_mem (at_step s0 (runs 0) l)) in *.
    assert (Q : B = A).
    { destruct TB as (La & ma & Va & Y1 & Y2 & Y3). destruct TA as (Lb & mb & Vb & Z1 & Z2 & Z3). change (s_u (at_step s0 (runs 0) l)) with (u 0 l) in Y1.
      rewrite Y1 in Z1. injection Z1 as _ <-. congruence. }
    subst B. rewrite G, H.
    assert (Fr : forall eps i, (i < n)%nat -> nth i (s_react (at_step s0 (runs eps) l)) 0 = nodal f n w np (t l) others m (entries (u eps l)) (entries (p eps)) i).
    { intros eps i Hi. destruct (Step eps l HlN) as (ld & X & Y & _). destruct (Ch eps) as (_ & _ & _ & C). destruct (C _ _ X) as (m0 & F1 & F2 & _). rewrite Y, (Tm eps l HlN) in F1.
      assert (Fe := param_fits f n tsize w np cw Rw others (p eps) Fo (Lp eps)).
      destruct (force_memoryless f n c tsize R0 (t l) (with_param others w (p eps)) m0 m _ _ M Fe F2 F1) as (m' & F3).
      destruct (evaluate_quiet f n c tsize R0 (t l) None (with_param others w (p eps)) (u eps l) m m Fe F2 (same_refl _)) as (L & m2 & E4 & _ & _ & V2 & _).
      change (evaluate f (t l) None false (inputs (with_param others w (p eps)) (u eps l)) n m = Ok (s_react (at_step s0 (runs eps) l), m')) in F3. rewrite E4 in F3. injection F3 as F3 _.
      unfold nodal. rewrite (tab_of n (u eps l) F2), (tab_of np _ (Lp eps)), <- V2 by exact Hi. now rewrite F3. }
    apply (is_derive_ext (fun eps => vdot n d (nodal f n w np (t l) others m (entries (u eps l)) (entries (p eps))))).
    { intros eps. apply sumn_ext. intros i Hi. unfold entries at 3. now rewrite Fr. }
    apply (reaction_gradient n np bcs lin (nodal f n w np (t l) others m) (fun eps => entries (u eps l)) (fun eps => entries (p eps)) A P d du dp).
    + exact Cu.
    + exact Cp.
    + apply (joint_derivative f n c tsize R0 w np cw Rw (t l) others m (u 0 l) (p 0) A P Fo Hu (Lp 0)); auto.
    + intros i Hi Bi. destruct (Eq i Hi Bi) as (r & Hd). exists r. intros eps He. rewrite <- Fr by exact Hi. now apply Hd.
    + intros i Hi Bi. destruct (Pr i Hi Bi) as (r & Hd). exists r. intros eps He. unfold entries. rewrite (Hd eps He), (Hd 0 (ball_center 0 r)). reflexivity.
    + now apply (Hlin m).
Qed.
End Family.
