(** * The reverse pass of a dynamic run of a solid (C78)

    setAdjointLoad, the dynamic branch of reverseAdjointTimestep with adjoint_integrate, computeTimestepSensitivity and
    computeInitialConditionSensitivity of SolidMechanics, after a run of Transient.v with [dynamic_step]. *)
From Coq Require Import NArith ZArith Reals List Lia Lra Bool FunctionalExtensionality.
From Coquelicot Require Import Coquelicot.
From Verif Require Import Prelude DofCodec Sums Restriction Csr Kernels FunctionalModel FunctionalGrad FunctionalTotal Assembly Tensor MatAlg BoundaryElim Adjoint AdjointDeriv Ode
  QuasiStatic QuasiAdjoint QuasiGradient Transient TransientFacts JointRate HeatBack.
Import ListNotations.
Local Open Scope R_scope.

(** base_physics.cpp:380-387 getCheckpointedTimestep *)
Definition checkpointed_dt (dts : list R) (k : nat) : outcome R := if Nat.ltb (length dts) k then Refused else Ok (nth k dts 0).

Section Back.
Context {St : Type}.
Notation mem := (mem St).
Variable f : functional St.
Variable n : nat.
(** patterns of the gradients with respect to displacement, acceleration and the parameter, which is argument [S (S w)] *)
Variable c cm : csr.
Variable bcs : list dofset.
Variable w : nat.
Variable cw : csr.
Variable lin : mat -> vec -> vec.
(** timesteps_ and the checkpointed displacements, velocities and accelerations, by cycle (C02), and the parameters in force during the
    reverse pass *)
Variable dts : list R.
Variable saved : list (list R * list R * list R).
Variable params : nat -> list R.

(** displacement_, velocity_, acceleration_, time_, time_end_step_, cycle_, the three adjoint loads,
    implicit_sensitivity_displacement_start_of_step_, implicit_sensitivity_velocity_start_of_step_, adjoint_displacement_ and the buffers *)
Record receding := { z_u : list R; z_v : list R; z_a : list R; z_t : R; z_end : R; z_cycle : nat; z_ul : vec; z_vl : vec; z_al : vec;
                     z_U : vec; z_V : vec; z_adj : vec; z_mem : mem }.
(** the forward run ends; the adjoint vectors are still those of solid_mechanics.hpp:369-392 initializeSolidMechanicsStates *)
Definition motion_turn (s : motion (St := St)) : receding :=
  {| z_u := d_u s; z_v := d_v s; z_a := d_a s; z_t := d_t s; z_end := 0; z_cycle := d_cycle s; z_ul := vz; z_vl := vz; z_al := vz;
     z_U := vz; z_V := vz; z_adj := vz; z_mem := d_mem s |}.
(** solid_mechanics.hpp:1311-1338 setAdjointLoad *)
Definition motion_load (qu : vec) (qv qa : option vec) (b : receding) : receding :=
  {| z_u := z_u b; z_v := z_v b; z_a := z_a b; z_t := z_t b; z_end := z_end b; z_cycle := z_cycle b; z_ul := fun i => - qu i;
     z_vl := match qv with Some q => fun i => - q i | None => z_vl b end; z_al := match qa with Some q => fun i => - q i | None => z_al b end;
     z_U := z_U b; z_V := z_V b; z_adj := z_adj b; z_mem := z_mem b |}.
(** solid_mechanics.hpp:1340-1360, 1376-1405 reverseAdjointTimestep, dynamic branch with the Newmark integrator, for a run which began at
    cycle 0, and solid_mechanics.cpp:15-66 adjoint_integrate *)
Definition motion_back (b : receding) : outcome receding :=
  match z_cycle b with
  | O => Refused
  | S k =>
      bindO (checkpointed_dt dts (S k)) (fun dt' => bindO (checkpointed_dt dts k) (fun dt =>
      match nth_error saved (S k) with
      | Some (u, v, a) =>
          bindO (jacobian f n c (z_t b) (inputs params a) (entries u) (z_mem b)) (fun K =>
          bindO (mass f n cm (z_t b) params (entries u) (entries a) (snd K)) (fun M =>
          let fac1 := 0.5 - nb in let fac2 := 1.0 - ng in let fac3 := nb in let fac4 := ng in
          let J : mat := fun i j => fst M i j + fac3 * dt * dt * fst K i j in
          let rhs : vec := fun i =>
            z_al b i + fac4 * dt * z_vl b i + fac3 * dt * dt * z_ul b i + (- dt' * fac2 - dt * fac4) * z_V b i +
            (- dt' * dt' * fac1 - dt * dt * fac3 - dt * dt' * fac4) * z_U b i in
          let lam := adjoint_solve n bcs lin J rhs in
          Ok {| z_u := u; z_v := v; z_a := a; z_t := z_t b - dt; z_end := z_t b; z_cycle := k; z_ul := z_ul b; z_vl := z_vl b; z_al := z_al b;
                z_V := fun i => z_V b i + dt' * z_U b i; z_U := fun i => z_U b i + mvec n (transpose (fst K)) lam i + - 1 * z_ul b i;
                z_adj := lam; z_mem := snd M |}))
      | None => Refused
      end))
  end.
(** solid_mechanics.hpp:1407-1433 computeTimestepSensitivity, computeTimestepShapeSensitivity *)
Definition motion_sensitivity (b : receding) : outcome (vec * mem) :=
  bindO (evaluate f (z_end b) (Some (S (S w))) false (inputs (inputs params (z_a b)) (z_u b)) n (z_mem b)) (fun p =>
  bindO (assemble f (S (S w)) (snd p) cw) (fun V => Ok (sensitivity n (csr_entry cw V) (z_adj b), snd p))).
Definition motion_remember (m : mem) (b : receding) : receding :=
  {| z_u := z_u b; z_v := z_v b; z_a := z_a b; z_t := z_t b; z_end := z_end b; z_cycle := z_cycle b; z_ul := z_ul b; z_vl := z_vl b; z_al := z_al b;
     z_U := z_U b; z_V := z_V b; z_adj := z_adj b; z_mem := m |}.
(** the user's loop over the cycles from the last to the first; the sum of the sensitivities, and the module at the end, whose [z_U] and
    [z_V] are what computeInitialConditionSensitivity returns (solid_mechanics.hpp:1435-1440) *)
Fixpoint motion_pass (qu : nat -> vec) (qv qa : nat -> option vec) (k : nat) (b : receding) : outcome (vec * receding) :=
  match k with
  | O => Ok (vz, b)
  | S k' =>
      bindO (motion_back (motion_load (qu k') (qv k') (qa k') b)) (fun b1 =>
      bindO (motion_sensitivity b1) (fun g =>
      bindO (motion_pass qu qv qa k' (motion_remember (snd g) b1)) (fun rest => Ok ((fun i => fst g i + fst rest i) : vec, snd rest))))
  end.
End Back.
Arguments receding : clear implicits.

(** ** the steps of Adjoint.v which the pass goes through; [dt'] is the size of the step after the last of them *)
Fixpoint recede (n : nat) (bcs : list dofset) (lin : mat -> vec -> vec) (dt' : R) (a : newmark_adjoint) (steps : list Adjoint.newmark_step) : newmark_adjoint :=
  match steps with
  | [] => a
  | s :: rest => newmark_reverse_step n bcs lin s (match rest with [] => dt' | s' :: _ => s_dt s' end) (recede n bcs lin dt' a rest)
  end.
Definition at_end : newmark_adjoint := {| na_U := vz; na_V := vz; na_vload := vz; na_aload := vz; na_lambdas := [] |}.
Lemma recede_all n bcs lin steps : recede n bcs lin 0 at_end steps = newmark_reverse n bcs lin steps.
Proof. induction steps as [|s rest IH]; [reflexivity|]. cbn [recede newmark_reverse]. rewrite IH. now destruct rest. Qed.
Lemma recede_last n bcs lin dt' a s steps : recede n bcs lin dt' a (steps ++ [s]) = recede n bcs lin (s_dt s) (newmark_reverse_step n bcs lin s dt' a) steps.
Proof.
  induction steps as [|s1 rest IH]; [reflexivity|]. cbn [app recede]. rewrite IH. destruct rest; reflexivity.
Qed.
Lemma recede_lambdas n bcs lin dt' a steps : exists l, length l = length steps /\ na_lambdas (recede n bcs lin dt' a steps) = l ++ na_lambdas a.
Proof.
  induction steps as [|s rest (l & H1 & H2)]; [exists []; auto|]. eexists (_ :: l). split; [cbn; now rewrite H1|].
  cbn [recede newmark_reverse_step na_lambdas app]. rewrite H2. reflexivity.
Qed.
Lemma recede_total n bcs lin dt' a steps s k :
  total_sensitivity n s_P (steps ++ [s]) (na_lambdas (recede n bcs lin (s_dt s) (newmark_reverse_step n bcs lin s dt' a) steps)) k =
  total_sensitivity n s_P steps (na_lambdas (recede n bcs lin (s_dt s) (newmark_reverse_step n bcs lin s dt' a) steps)) k +
  sensitivity n (s_P s) (hd vz (na_lambdas (newmark_reverse_step n bcs lin s dt' a))) k.
Proof.
  destruct (recede_lambdas n bcs lin (s_dt s) (newmark_reverse_step n bcs lin s dt' a) steps) as (l & H1 & H2). rewrite H2, total_app, total_longer by exact H1.
  cbn [newmark_reverse_step na_lambdas hd total_sensitivity]. unfold vz. f_equal. destruct (na_lambdas a); cbn [total_sensitivity]; unfold vz; ring.
Qed.

Section Facts.
Context {St : Type}.
Notation mem := (mem St).
Variable f : functional St.
Variable n : nat.
Variable c cm : csr.
Variable bcs : list dofset.
Variable tsize : nat -> nat.
Hypothesis R0 : ready f n c tsize.
Hypothesis Rm : ready_for f n tsize 0 n cm.
Variable w np : nat.
Variable cw : csr.
Hypothesis Rw : ready_for f n tsize (S w) np cw.
Variable lin : mat -> vec -> vec.

(** what the reverse pass should use for a step which ended at time [t] with displacement [u] and acceleration [a] *)
Definition linearises_motion (t : R) (params : nat -> list R) (m : mem) (u a : list R) (s : Adjoint.newmark_step) : Prop :=
  tangent f n c t (inputs params a) m u (s_K s) /\ param_tangent f n 0 cm t (inputs params a) m u (s_M s) /\
  param_tangent f n (S w) cw t (inputs params a) m u (s_P s).

Section Pass.
Variable dts : list R.
Variable saved : list (list R * list R * list R).
Variable params : nat -> list R.
Hypothesis Fp : params_fit tsize params.
Notation motion_back := (motion_back f n c cm bcs lin dts saved params).
Notation motion_sensitivity := (motion_sensitivity f n w cw params).
Notation motion_pass := (motion_pass f n c cm bcs w cw lin dts saved params).

(** one turn of the loop is one step of the abstract reverse pass *)
Lemma motion_turn_ok qu qv qa (b : receding St) a k u v ac : z_cycle b = S k -> (k < length dts)%nat -> nth_error saved (S k) = Some (u, v, ac) -> length u = n -> length ac = n ->
  z_U b = na_U a -> z_V b = na_V a -> z_vl b = na_vload a -> z_al b = na_aload a ->
  exists s b1 g, motion_back (motion_load qu qv qa b) = Ok b1 /\ motion_sensitivity b1 = Ok g /\
    s_dt s = nth k dts 0 /\ s_qu s = qu /\ s_qv s = qv /\ s_qa s = qa /\ linearises_motion (z_t b) params (z_mem b) u ac s /\
    let a1 := newmark_reverse_step n bcs lin s (nth (S k) dts 0) a in
    z_U b1 = na_U a1 /\ z_V b1 = na_V a1 /\ z_vl b1 = na_vload a1 /\ z_al b1 = na_aload a1 /\
    fst g = sensitivity n (s_P s) (hd vz (na_lambdas a1)) /\
    z_cycle b1 = k /\ z_t b1 = z_t b - nth k dts 0 /\ same_material (snd g) (z_mem b).
Proof.
  intros Hc Hk Hsv Hu Hr EU EV Evl Eal. assert (Fr := rate_fits f n cm tsize Rm params ac Fp Hr).
  destruct (jacobian_quiet f n c tsize R0 (inputs params ac) Fr (z_t b) u (z_mem b) Hu) as (K & m1 & E1 & T1 & S1).
  destruct (derivative_found f n c tsize R0 0 n cm (z_t b) (inputs params ac) u m1 Rm Fr Hu) as (L2 & m2 & V2 & E2 & B2 & T2 & S2).
  destruct (derivative_found f n c tsize R0 (S w) np cw (z_t b) (inputs params ac) u m2 Rw Fr Hu) as (L3 & m3 & V3 & E3 & B3 & T3 & S3).
  set (dt := nth k dts 0). set (dt' := nth (S k) dts 0).
  set (s := {| s_dt := dt; s_K := K; s_M := csr_entry cm V2; s_P := csr_entry cw V3; s_qu := qu; s_qv := qv; s_qa := qa |}).
  set (a1 := newmark_reverse_step n bcs lin s dt' a). set (lam := hd vz (na_lambdas a1)).
  exists s, {| z_u := u; z_v := v; z_a := ac; z_t := z_t b - dt; z_end := z_t b; z_cycle := k; z_ul := fun i => - qu i; z_vl := na_vload a1; z_al := na_aload a1;
               z_U := na_U a1; z_V := na_V a1; z_adj := lam; z_mem := m2 |}, (sensitivity n (csr_entry cw V3) lam, m3).
  split; [|split].
  - unfold MotionBack.motion_back. cbn [motion_load z_cycle]. rewrite Hc. unfold checkpointed_dt.
    replace (length dts <? S k)%nat with false by (symmetry; apply Nat.ltb_ge; lia). replace (length dts <? k)%nat with false by (symmetry; apply Nat.ltb_ge; lia).
    cbn [bindO]. fold dt dt'. rewrite Hsv. change (z_t (motion_load qu qv qa b)) with (z_t b). change (z_mem (motion_load qu qv qa b)) with (z_mem b).
    rewrite E1. cbn [bindO fst snd]. unfold mass. rewrite (tab_of n u Hu), (tab_of n ac Hr), E2. cbn [bindO snd]. rewrite B2. cbn [bindO fst snd].
    unfold lam, a1, s. cbn [motion_load z_ul z_vl z_al z_U z_V newmark_reverse_step na_U na_V na_vload na_aload na_lambdas hd s_dt s_K s_M s_P s_qu s_qv s_qa].
    rewrite EU, EV, Evl, Eal. unfold newmark_J, rate_load. cbn [s_dt s_K s_M]. reflexivity.
  - unfold MotionBack.motion_sensitivity. cbn [z_end z_a z_u z_mem z_adj]. rewrite E3. cbn [bindO snd]. rewrite B3. reflexivity.
  - cbn [s s_dt s_qu s_qv s_qa]. repeat (split; [reflexivity|]). split.
    + split; [exact T1|]. split; [exact (derivative_moves f n c tsize R0 0 cm _ _ _ _ _ _ Fr Hu S1 T2)|].
      exact (derivative_moves f n c tsize R0 (S w) cw _ _ _ _ _ _ Fr Hu (same_trans _ _ _ S2 S1) T3).
    + cbv zeta. cbn [z_U z_V z_vl z_al z_cycle z_t fst snd]. repeat (split; [reflexivity|]). exact (same_trans _ _ _ S3 (same_trans _ _ _ S2 S1)).
Qed.

Variable times : nat -> R.
Variable us vs acs : nat -> list R.
Hypothesis Htm : forall k, (S k < length dts)%nat -> times k = times (S k) - nth (S k) dts 0.
Hypothesis Hsv : forall k, (k < length dts)%nat -> nth_error saved (S k) = Some (us k, vs k, acs k) /\ length (us k) = n /\ length (acs k) = n.

(** the pass is that of Adjoint.v on the linearised steps *)
Theorem motion_pass_ok qu qv qa : forall k (b : receding St) a, (k <= length dts)%nat -> z_cycle b = k -> (forall j, (S j = k)%nat -> z_t b = times j) ->
  z_U b = na_U a -> z_V b = na_V a -> z_vl b = na_vload a -> z_al b = na_aload a ->
  exists steps total b', motion_pass qu qv qa k b = Ok (total, b') /\ length steps = k /\
    (forall j s, nth_error steps j = Some s -> nth_error dts j = Some (s_dt s) /\ s_qu s = qu j /\ s_qv s = qv j /\ s_qa s = qa j /\
       linearises_motion (times j) params (z_mem b) (us j) (acs j) s) /\
    let a' := recede n bcs lin (nth k dts 0) a steps in
    z_U b' = na_U a' /\ z_V b' = na_V a' /\
    forall i, total i = total_sensitivity n s_P steps (na_lambdas a') i.
Proof.
  induction k as [|k IH]; intros b a Hk Hc Ht EU EV Evl Eal.
  - exists [], vz, b. repeat (split; [reflexivity|]). split; [intros [|j] s; discriminate|]. cbn [recede]. split; [exact EU|]. split; [exact EV|]. intros i. cbn. now destruct (na_lambdas a).
  - destruct (Hsv k ltac:(lia)) as (V1 & V2 & V3).
    destruct (motion_turn_ok (qu k) (qv k) (qa k) b a k (us k) (vs k) (acs k) Hc ltac:(lia) V1 V2 V3 EU EV Evl Eal)
      as (s & b1 & g & E1 & E2 & G1 & G2 & G3 & G4 & Ln & EU1 & EV1 & Evl1 & Eal1 & Gs & C1 & T1 & Sm).
    cbn [MotionBack.motion_pass]. rewrite E1. cbn [bindO]. rewrite E2. cbn [bindO].
    destruct (IH (motion_remember (snd g) b1) (newmark_reverse_step n bcs lin s (nth (S k) dts 0) a)) as (steps & total & b' & E3 & Ls & Hs & EU' & EV' & HT);
      [lia|exact C1| |exact EU1|exact EV1|exact Evl1|exact Eal1|].
    { intros j Hj. cbn [motion_remember z_t]. rewrite T1, (Ht k eq_refl). rewrite <- Hj. symmetry. apply Htm. lia. }
    rewrite E3. cbn [bindO fst snd]. exists (steps ++ [s]). eexists _, b'. split; [reflexivity|]. split; [rewrite app_length; cbn; lia|].
    rewrite recede_last, G1. split; [|split; [exact EU'|split; [exact EV'|]]].
    + intros j s' Hj. destruct (Nat.lt_ge_cases j k) as [X|X].
      * rewrite nth_error_app1 in Hj by lia. destruct (Hs j s' Hj) as (Q1 & Q2 & Q3 & Q4 & Q5). repeat (split; [assumption|]).
        cbn [motion_remember z_mem] in Q5. destruct Q5 as (Q5 & Q6 & Q7). destruct (Hsv j ltac:(lia)) as (_ & W2 & W3). assert (Fr := rate_fits f n cm tsize Rm params _ Fp W3).
        split; [exact (tangent_shifts f n c tsize R0 _ _ _ _ _ _ Fr W2 Sm Q5)|]. split; [exact (derivative_moves f n c tsize R0 0 cm _ _ _ _ _ _ Fr W2 Sm Q6)|].
        exact (derivative_moves f n c tsize R0 (S w) cw _ _ _ _ _ _ Fr W2 Sm Q7).
      * rewrite nth_error_app2 in Hj by lia. destruct (j - length steps)%nat as [|d] eqn:Ed; [|destruct d; discriminate]. injection Hj as <-.
        assert (j = k) by lia. subst j. rewrite G1, G2, G3, G4. split; [apply nth_error_nth'; lia|]. repeat (split; [reflexivity|]). rewrite <- (Ht k eq_refl). exact Ln.
    + intros i. rewrite <- G1. rewrite recede_total, G1, HT, Gs. ring.
Qed.
End Pass.
End Facts.
