(** * The reverse pass of a transient heat conduction run (C77)

    setAdjointLoad, reverseAdjointTimestep, computeTimestepSensitivity and computeInitialConditionSensitivity of HeatTransfer, after a
    run of Transient.v with [heat_step]. *)
From Coq Require Import NArith ZArith Reals List Lia Lra Bool FunctionalExtensionality.
From Coquelicot Require Import Coquelicot.
From Verif Require Import Prelude DofCodec Sums Restriction Csr Kernels FunctionalModel FunctionalGrad FunctionalTotal Assembly Tensor MatAlg BoundaryElim Adjoint AdjointDeriv Ode
  QuasiStatic QuasiAdjoint QuasiGradient Transient TransientFacts JointRate.
Import ListNotations.
Local Open Scope R_scope.

Section Back.
Context {St : Type}.
Notation mem := (mem St).
Variable f : functional St.
Variable n : nat.
(** patterns of the gradients with respect to temperature, temperature rate and the parameter, which is argument [S (S w)] *)
Variable c cm : csr.
Variable bcs : list dofset.
Variable w : nat.
Variable cw : csr.
Variable lin : mat -> vec -> vec.
(** timesteps_ and the checkpointed temperatures and rates, by cycle (C02), and the parameters in force during the reverse pass *)
Variable dts : list R.
Variable saved : list (list R * list R).
Variable params : nat -> list R.

(** temperature_, temperature_rate_, time_, time_end_step_, cycle_, temperature_adjoint_load_, temperature_rate_adjoint_load_,
    implicit_sensitivity_temperature_start_of_step_, adjoint_temperature_ and the buffers *)
Record cooling := { q_u : list R; q_rate : list R; q_t : R; q_end : R; q_cycle : nat; q_tl : vec; q_rl : vec; q_mu : vec; q_adj : vec; q_mem : mem }.
(** the forward run ends; the adjoint vectors are still those of heat_transfer.hpp:276-288 initializeThermalStates *)
Definition heat_turn (s : warmth (St := St)) : cooling :=
  {| q_u := w_u s; q_rate := w_rate s; q_t := w_t s; q_end := 0; q_cycle := w_cycle s; q_tl := vz; q_rl := vz; q_mu := vz; q_adj := vz; q_mem := w_mem s |}.
(** heat_transfer.hpp:792-810 setAdjointLoad *)
Definition heat_load (qu : vec) (qv : option vec) (b : cooling) : cooling :=
  {| q_u := q_u b; q_rate := q_rate b; q_t := q_t b; q_end := q_end b; q_cycle := q_cycle b; q_tl := fun i => - qu i;
     q_rl := match qv with Some q => fun i => - q i | None => q_rl b end; q_mu := q_mu b; q_adj := q_adj b; q_mem := q_mem b |}.
(** heat_transfer.hpp:846-917 reverseAdjointTimestep, transient branch, for a run which began at cycle 0;
    division by a zero step size is [UB] *)
Definition heat_back (b : cooling) : outcome cooling :=
  match q_cycle b with
  | O => Refused
  | S k =>
      match nth_error dts k, nth_error saved (S k) with
      | Some dt, Some (u, r) =>
          bindO (jacobian f n c (q_t b) (inputs params r) (entries u) (q_mem b)) (fun K =>
          bindO (mass f n cm (q_t b) params (entries u) (entries r) (snd K)) (fun M =>
          if Req_EM_T dt 0 then UB else
          let J : mat := fun i j => fst M i j + dt * fst K i j in
          let rhs : vec := fun i => dt * q_tl b i + 1 * q_rl b i + - dt * q_mu b i in
          let lam := adjoint_solve n bcs lin J rhs in
          Ok {| q_u := u; q_rate := r; q_t := q_t b - dt; q_end := q_t b; q_cycle := k; q_tl := q_tl b; q_rl := q_rl b;
                q_mu := fun i => mvec n (fst M) lam i * (- 1 / dt) + 1 / dt * q_rl b i; q_adj := lam; q_mem := snd M |}))
      | _, _ => Refused
      end
  end.
(** heat_transfer.hpp:928-939 computeTimestepSensitivity, 949-965 computeTimestepShapeSensitivity *)
Definition heat_sensitivity (b : cooling) : outcome (vec * mem) :=
  bindO (evaluate f (q_end b) (Some (S (S w))) false (inputs (inputs params (q_rate b)) (q_u b)) n (q_mem b)) (fun p =>
  bindO (assemble f (S (S w)) (snd p) cw) (fun V => Ok (sensitivity n (csr_entry cw V) (q_adj b), snd p))).
Definition heat_remember (m : mem) (b : cooling) : cooling :=
  {| q_u := q_u b; q_rate := q_rate b; q_t := q_t b; q_end := q_end b; q_cycle := q_cycle b; q_tl := q_tl b; q_rl := q_rl b; q_mu := q_mu b;
     q_adj := q_adj b; q_mem := m |}.
(** the user's loop over the cycles from the last to the first; the sum of the sensitivities, and the module at the end, whose [q_mu] is what
    computeInitialConditionSensitivity returns (heat_transfer.hpp:967-977) *)
Fixpoint heat_pass (qu : nat -> vec) (qv : nat -> option vec) (k : nat) (b : cooling) : outcome (vec * cooling) :=
  match k with
  | O => Ok (vz, b)
  | S k' =>
      bindO (heat_back (heat_load (qu k') (qv k') b)) (fun b1 =>
      bindO (heat_sensitivity b1) (fun g =>
      bindO (heat_pass qu qv k' (heat_remember (snd g) b1)) (fun rest => Ok ((fun i => fst g i + fst rest i) : vec, snd rest))))
  end.
End Back.
Arguments cooling : clear implicits.
Arguments cooling St.

(** ** the steps of Adjoint.v which the pass goes through *)
Definition back_from (n : nat) (bcs : list dofset) (lin : mat -> vec -> vec) (a : heat_adjoint) (steps : list Adjoint.heat_step) : heat_adjoint :=
  fold_right (heat_reverse_step n bcs lin) a steps.
Lemma back_from_start n bcs lin steps : back_from n bcs lin {| ha_mu := vz; ha_rate_load := vz; ha_lambdas := [] |} steps = heat_reverse n bcs lin steps.
Proof. induction steps as [|s rest IH]; [reflexivity|]. cbn [back_from fold_right heat_reverse]. unfold back_from in IH. now rewrite IH. Qed.
Lemma back_lambdas n bcs lin a steps : exists l, length l = length steps /\ ha_lambdas (back_from n bcs lin a steps) = l ++ ha_lambdas a.
Proof.
  induction steps as [|s rest (l & H1 & H2)]; [exists []; auto|]. cbn [back_from fold_right]. unfold back_from in H2. eexists (_ :: l). split; [cbn; now rewrite H1|].
  cbn [heat_reverse_step ha_lambdas app]. rewrite H2. reflexivity.
Qed.
Lemma total_app {A} n (P : A -> mat) l1 l2 : forall lams1 lams2 k, length lams1 = length l1 ->
  total_sensitivity n P (l1 ++ l2) (lams1 ++ lams2) k = total_sensitivity n P l1 lams1 k + total_sensitivity n P l2 lams2 k.
Proof.
  induction l1 as [|s l1 IH]; intros [|x lams1] lams2 k H; try discriminate; [cbn [app total_sensitivity]; unfold vz; ring|].
  cbn [app total_sensitivity]. rewrite IH by (cbn in H; lia). ring.
Qed.
Lemma total_longer {A} n (P : A -> mat) l1 : forall lams1 lams2 k, length lams1 = length l1 ->
  total_sensitivity n P l1 (lams1 ++ lams2) k = total_sensitivity n P l1 lams1 k.
Proof.
  induction l1 as [|s l1 IH]; intros [|x lams1] lams2 k H; try discriminate; [destruct lams2; reflexivity|].
  cbn [app total_sensitivity]. rewrite IH by (cbn in H; lia). ring.
Qed.
Lemma total_back n bcs lin a steps s k :
  total_sensitivity n h_P (steps ++ [s]) (ha_lambdas (back_from n bcs lin (heat_reverse_step n bcs lin s a) steps)) k =
  total_sensitivity n h_P steps (ha_lambdas (back_from n bcs lin (heat_reverse_step n bcs lin s a) steps)) k +
  sensitivity n (h_P s) (hd vz (ha_lambdas (heat_reverse_step n bcs lin s a))) k.
Proof.
  destruct (back_lambdas n bcs lin (heat_reverse_step n bcs lin s a) steps) as (l & H1 & H2). rewrite H2, total_app, total_longer by exact H1.
  cbn [heat_reverse_step ha_lambdas hd total_sensitivity]. unfold vz. f_equal. destruct (ha_lambdas a); cbn [total_sensitivity]; unfold vz; ring.
Qed.

Section Facts.
Context {St : Type}.
Notation mem := (mem St).
Variable f : functional St.
Variable n : nat.
Variable c cm : csr.
Variable bcs : list dofset.
Variable tsize : nat -> nat.
Hypothesis R0 : ready f n c tsize.
Hypothesis Rm : ready_for f n tsize 0 n cm.
Variable w np : nat.
Variable cw : csr.
Hypothesis Rw : ready_for f n tsize (S w) np cw.
Variable lin : mat -> vec -> vec.

(** what the reverse pass should use for a step which ended at time [t] with temperature [u] and rate [r] *)
Definition linearises (t : R) (params : nat -> list R) (m : mem) (u r : list R) (s : Adjoint.heat_step) : Prop :=
  tangent f n c t (inputs params r) m u (h_K s) /\ param_tangent f n 0 cm t (inputs params r) m u (h_M s) /\
  param_tangent f n (S w) cw t (inputs params r) m u (h_P s).

Section Pass.
Variable dts : list R.
Variable saved : list (list R * list R).
Variable params : nat -> list R.
Hypothesis Fp : params_fit tsize params.
Notation heat_back := (heat_back f n c cm bcs lin dts saved params).
Notation heat_sensitivity := (heat_sensitivity f n w cw params).
Notation heat_pass := (heat_pass f n c cm bcs w cw lin dts saved params).

(** one turn of the loop is one step of the abstract reverse pass *)
Lemma turn_ok qu qv (b : cooling St) a k dt u r : q_cycle b = S k -> nth_error dts k = Some dt -> nth_error saved (S k) = Some (u, r) -> dt <> 0 -> length u = n -> length r = n ->
  q_mu b = ha_mu a -> q_rl b = ha_rate_load a ->
  exists s b1 g, heat_back (heat_load qu qv b) = Ok b1 /\ heat_sensitivity b1 = Ok g /\
    h_dt s = dt /\ h_qu s = qu /\ h_qv s = qv /\ linearises (q_t b) params (q_mem b) u r s /\
    q_mu b1 = ha_mu (heat_reverse_step n bcs lin s a) /\ q_rl b1 = ha_rate_load (heat_reverse_step n bcs lin s a) /\
    fst g = sensitivity n (h_P s) (hd vz (ha_lambdas (heat_reverse_step n bcs lin s a))) /\
    q_cycle b1 = k /\ q_t b1 = q_t b - dt /\ same_material (snd g) (q_mem b).
Proof.
  intros Hc Hdt Hsv N Hu Hr Emu Erl. assert (Fr := rate_fits f n cm tsize Rm params r Fp Hr).
  destruct (jacobian_quiet f n c tsize R0 (inputs params r) Fr (q_t b) u (q_mem b) Hu) as (K & m1 & E1 & T1 & S1).
  destruct (derivative_found f n c tsize R0 0 n cm (q_t b) (inputs params r) u m1 Rm Fr Hu) as (L2 & m2 & V2 & E2 & B2 & T2 & S2).
  destruct (derivative_found f n c tsize R0 (S w) np cw (q_t b) (inputs params r) u m2 Rw Fr Hu) as (L3 & m3 & V3 & E3 & B3 & T3 & S3).
  set (s := {| h_dt := dt; h_K := K; h_M := csr_entry cm V2; h_P := csr_entry cw V3; h_qu := qu; h_qv := qv |}).
  set (lam := hd vz (ha_lambdas (heat_reverse_step n bcs lin s a))).
  exists s, {| q_u := u; q_rate := r; q_t := q_t b - dt; q_end := q_t b; q_cycle := k; q_tl := fun i => - qu i; q_rl := ha_rate_load (heat_reverse_step n bcs lin s a);
               q_mu := ha_mu (heat_reverse_step n bcs lin s a); q_adj := lam; q_mem := m2 |}, (sensitivity n (csr_entry cw V3) lam, m3).
  split; [|split].
  - unfold HeatBack.heat_back. cbn [heat_load q_cycle]. rewrite Hc, Hdt, Hsv. change (q_t (heat_load qu qv b)) with (q_t b). change (q_mem (heat_load qu qv b)) with (q_mem b).
    rewrite E1. cbn [bindO fst snd]. unfold mass. rewrite (tab_of n u Hu), (tab_of n r Hr), E2. cbn [bindO snd]. rewrite B2. cbn [bindO fst snd].
    destruct (Req_EM_T dt 0) as [Z|_]; [contradiction|]. unfold lam, s. cbn [heat_load q_tl q_rl q_mu heat_reverse_step ha_mu ha_rate_load ha_lambdas hd h_dt h_K h_M h_P h_qu h_qv heat_J].
    rewrite Emu, Erl. unfold heat_J, rate_load. cbn [h_dt h_K h_M]. reflexivity.
  - unfold HeatBack.heat_sensitivity. cbn [q_end q_rate q_u q_mem q_adj]. rewrite E3. cbn [bindO snd]. rewrite B3. reflexivity.
  - cbn [q_mu q_rl q_cycle q_t fst snd]. repeat (split; [reflexivity|]). split.
    + split; [exact T1|]. split; [exact (derivative_moves f n c tsize R0 0 cm _ _ _ _ _ _ Fr Hu S1 T2)|].
      exact (derivative_moves f n c tsize R0 (S w) cw _ _ _ _ _ _ Fr Hu (same_trans _ _ _ S2 S1) T3).
    + repeat (split; [reflexivity|]). exact (same_trans _ _ _ S3 (same_trans _ _ _ S2 S1)).
Qed.

Variable times : nat -> R.
Variable us rs : nat -> list R.
Variable N : nat.
Hypothesis Hdt : forall k, (k < N)%nat -> exists dt, nth_error dts k = Some dt /\ dt <> 0 /\ forall j, (S j = k)%nat -> times j = times k - dt.
Hypothesis Hsv : forall k, (k < N)%nat -> nth_error saved (S k) = Some (us k, rs k) /\ length (us k) = n /\ length (rs k) = n.

(** the pass is that of Adjoint.v on the linearised steps *)
Theorem heat_pass_ok qu qv : forall k (b : cooling St) a, (k <= N)%nat -> q_cycle b = k -> (forall j, (S j = k)%nat -> q_t b = times j) ->
  q_mu b = ha_mu a -> q_rl b = ha_rate_load a ->
  exists steps total b', heat_pass qu qv k b = Ok (total, b') /\ length steps = k /\
    (forall j s, nth_error steps j = Some s -> nth_error dts j = Some (h_dt s) /\ h_qu s = qu j /\ h_qv s = qv j /\ linearises (times j) params (q_mem b) (us j) (rs j) s) /\
    q_mu b' = ha_mu (back_from n bcs lin a steps) /\
    forall i, total i = total_sensitivity n h_P steps (ha_lambdas (back_from n bcs lin a steps)) i.
Proof.
  induction k as [|k IH]; intros b a Hk Hc Ht Emu Erl.
  - exists [], vz, b. repeat (split; [reflexivity|]). split; [intros [|j] s; discriminate|]. split; [exact Emu|]. intros i. cbn. now destruct (ha_lambdas a).
  - destruct (Hdt k ltac:(lia)) as (dt & D1 & D2 & D3). destruct (Hsv k ltac:(lia)) as (V1 & V2 & V3).
    destruct (turn_ok (qu k) (qv k) b a k dt (us k) (rs k) Hc D1 V1 D2 V2 V3 Emu Erl) as (s & b1 & g & E1 & E2 & G1 & G2 & G3 & Ln & Mu & Rl & Gs & C1 & T1 & Sm).
    cbn [HeatBack.heat_pass]. rewrite E1. cbn [bindO]. rewrite E2. cbn [bindO].
    destruct (IH (heat_remember (snd g) b1) (heat_reverse_step n bcs lin s a)) as (steps & total & b' & E3 & Ls & Hs & Mu' & HT); [lia|exact C1| |exact Mu|exact Rl|].
    { intros j Hj. cbn [heat_remember q_t]. rewrite T1, (Ht k eq_refl). symmetry. now apply D3. }
    rewrite E3. cbn [bindO fst snd]. exists (steps ++ [s]). eexists _, b'. split; [reflexivity|]. split; [rewrite app_length; cbn; lia|].
    assert (Bk : back_from n bcs lin a (steps ++ [s]) = back_from n bcs lin (heat_reverse_step n bcs lin s a) steps) by (unfold back_from; now rewrite fold_right_app).
    rewrite Bk. split; [|split; [exact Mu'|]].
    + intros j s' Hj. destruct (Nat.lt_ge_cases j k) as [X|X].
      * rewrite nth_error_app1 in Hj by lia. destruct (Hs j s' Hj) as (Q1 & Q2 & Q3 & Q4). repeat (split; [assumption|]).
        cbn [heat_remember q_mem] in Q4. destruct Q4 as (Q4 & Q5 & Q6). destruct (Hsv j ltac:(lia)) as (_ & W2 & W3). assert (Fr := rate_fits f n cm tsize Rm params _ Fp W3).
        split; [exact (tangent_shifts f n c tsize R0 _ _ _ _ _ _ Fr W2 Sm Q4)|]. split; [exact (derivative_moves f n c tsize R0 0 cm _ _ _ _ _ _ Fr W2 Sm Q5)|].
        exact (derivative_moves f n c tsize R0 (S w) cw _ _ _ _ _ _ Fr W2 Sm Q6).
      * rewrite nth_error_app2 in Hj by lia. destruct (j - length steps)%nat as [|d] eqn:Ed; [|destruct d; discriminate]. injection Hj as <-.
        assert (j = k) by lia. subst j. rewrite G1, G2, G3. repeat (split; [first [assumption|reflexivity]|]). rewrite <- (Ht k eq_refl). exact Ln.
    + intros i. rewrite total_back, HT, Gs. ring.
Qed.
End Pass.
End Facts.
