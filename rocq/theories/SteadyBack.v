(** * The reverse pass of a run of steady heat conduction (C77) *)
From Coq Require Import NArith ZArith Reals List Lia Lra Bool FunctionalExtensionality.
From Coquelicot Require Import Coquelicot.
From Verif Require Import Prelude DofCodec Sums Restriction Csr Kernels FunctionalModel FunctionalGrad FunctionalTotal Assembly Tensor MatAlg BoundaryElim Adjoint AdjointDeriv Ode
  QuasiStatic QuasiAdjoint QuasiGradient Transient TransientFacts JointRate HeatBack HeatGradient Implicit ImplicitRuns.
Import ListNotations.
Local Open Scope R_scope.

Section Back.
Context {St : Type}.
Notation mem := (mem St).
Variable f : functional St.
Variable n : nat.
Variable c : csr.
Variable bcs : list dofset.
Variable w : nat.
Variable cw : csr.
Variable lin : mat -> vec -> vec.
Variable dts : list R.
Variable saved : list (list R * list R).
Variable params : nat -> list R.

(** heat_transfer.hpp:846-879 and 914-916 reverseAdjointTimestep, quasi-static branch, for a run which began at cycle 0.  temperature_rate_ is not
    taken from the checkpoint; the elimination of the conditions changes temperature_adjoint_load_; the sensitivity to the start of the step
    is left alone *)
Definition steady_back (b : cooling St) : outcome (cooling St) :=
  match q_cycle b with
  | O => Refused
  | S k =>
      match nth_error dts k, nth_error saved (S k) with
      | Some dt, Some (u, _) =>
          bindO (jacobian f n c (q_t b) (inputs params (q_rate b)) (entries u) (q_mem b)) (fun K =>
          let sys := adjoint_system n bcs (fst K) (q_tl b) in
          Ok {| q_u := u; q_rate := q_rate b; q_t := q_t b - dt; q_end := q_t b; q_cycle := k; q_tl := snd sys; q_rl := q_rl b;
                q_mu := q_mu b; q_adj := lin (fst sys) (snd sys); q_mem := snd K |})
      | _, _ => Refused
      end
  end.
(** the user's loop, as in HeatBack.v *)
Fixpoint steady_pass (qu : nat -> vec) (qv : nat -> option vec) (k : nat) (b : cooling St) : outcome (vec * cooling St) :=
  match k with
  | O => Ok (vz, b)
  | S k' =>
      bindO (steady_back (heat_load (qu k') (qv k') b)) (fun b1 =>
      bindO (heat_sensitivity f n w cw params b1) (fun g =>
      bindO (steady_pass qu qv k' (heat_remember (snd g) b1)) (fun rest => Ok ((fun i => fst g i + fst rest i) : vec, snd rest))))
  end.

(** ** the same pass as that of a quasi-static solid whose other arguments are the rate and the parameters *)
Definition as_static (b : cooling St) : backward (St := St) :=
  {| b_u := q_u b; b_t := q_t b; b_end := q_end b; b_cycle := q_cycle b; b_load := q_tl b; b_adj := q_adj b; b_mem := q_mem b |}.
Lemma steady_back_static b b1 : reverse_step f n c bcs lin dts (map fst saved) (inputs params (q_rate b)) (as_static b) = Ok b1 ->
  exists b', steady_back b = Ok b' /\ as_static b' = b1 /\ q_rate b' = q_rate b /\ q_mu b' = q_mu b.
Proof.
  unfold reverse_step, steady_back. cbn [as_static b_cycle b_t b_mem b_load]. destruct (q_cycle b) as [|k]; [discriminate|]. destruct (nth_error dts k) as [dt|]; [|discriminate].
  rewrite nth_error_map. destruct (nth_error saved (S k)) as [[u r]|]; cbn [option_map fst]; [|discriminate].
  destruct (jacobian f n c (q_t b) (inputs params (q_rate b)) (entries u) (q_mem b)) as [K| |]; cbn [bindO]; try discriminate.
  intros E. injection E as <-. eexists. split; [reflexivity|]. repeat split.
Qed.
Lemma steady_sensitivity_static b g : timestep_sensitivity f n (S w) cw (inputs params (q_rate b)) (as_static b) = Ok g -> heat_sensitivity f n w cw params b = Ok g.
Proof.
  unfold timestep_sensitivity, d_residual, heat_sensitivity. cbn [as_static b_end b_u b_mem b_adj].
  destruct (evaluate f (q_end b) (Some (S (S w))) false (inputs (inputs params (q_rate b)) (q_u b)) n (q_mem b)) as [p| |]; cbn [bindO]; try discriminate.
  destruct (assemble f (S (S w)) (snd p) cw) as [V| |]; cbn [bindO fst snd]; auto; discriminate.
Qed.
Lemma steady_pass_static qu qv : forall k b total,
  reverse_pass f n c bcs (S w) cw lin dts (map fst saved) (inputs params (q_rate b)) qu k (as_static b) = Ok total ->
  exists total' b', steady_pass qu qv k b = Ok (total', b') /\ (forall i, total' i = total i) /\ q_mu b' = q_mu b /\ q_rate b' = q_rate b.
Proof.
  induction k as [|k IH]; intros b total E; cbn [reverse_pass] in E.
  - injection E as <-. exists vz, b. repeat split.
  - cbn [steady_pass]. change (set_load (qu k) (as_static b)) with (as_static (heat_load (qu k) (qv k) b)) in E.
    change (q_rate b) with (q_rate (heat_load (qu k) (qv k) b)) in E.
    destruct (reverse_step f n c bcs lin dts (map fst saved) (inputs params (q_rate (heat_load (qu k) (qv k) b))) (as_static (heat_load (qu k) (qv k) b))) as [b1| |] eqn:E1; try discriminate.
    destruct (steady_back_static _ _ E1) as (b1' & F1 & <- & Fr & Fm). rewrite F1. cbn [bindO] in E |- *. rewrite <- Fr in E.
    destruct (timestep_sensitivity f n (S w) cw (inputs params (q_rate b1')) (as_static b1')) as [g| |] eqn:E2; try discriminate.
    rewrite (steady_sensitivity_static _ _ E2). cbn [bindO] in E |- *.
    change (remember (snd g) (as_static b1')) with (as_static (heat_remember (snd g) b1')) in E. change (q_rate b1') with (q_rate (heat_remember (snd g) b1')) in E.
    destruct (reverse_pass f n c bcs (S w) cw lin dts (map fst saved) (inputs params (q_rate (heat_remember (snd g) b1'))) qu k (as_static (heat_remember (snd g) b1'))) as [rest| |] eqn:E3; try discriminate.
    destruct (IH _ _ E3) as (t' & b' & G & Gt & Gm & Gr). rewrite G. cbn [bindO fst snd]. injection E as <-. eexists _, b'. split; [reflexivity|].
    split; [intros i; cbn [fst]; now rewrite Gt|]. split; [rewrite Gm; exact Fm|rewrite Gr; exact Fr].
Qed.
End Back.

Section Facts.
Context {St : Type}.
Variable f : functional St.
Variable n : nat.
Variable c cm : csr.
Variable bcs : list dofset.
Variable target : R -> vec.
Variable tsize : nat -> nat.
Hypothesis R0 : ready f n c tsize.
Hypothesis Rm : ready_for f n tsize 0 n cm.
Variable w np : nat.
Variable cw : csr.
Hypothesis Rw : ready_for f n tsize (S w) np cw.
Variable lin : mat -> vec -> vec.

(** one reverse step for every step of the run succeeds, and the total adds up the sensitivities of single steady problems *)
Theorem steady_pass_sum dts saved params times us N qu qv : params_fit tsize params ->
  (forall k, (k < N)%nat -> exists dt, nth_error dts k = Some dt /\ forall j, (S j = k)%nat -> times j = times k - dt) ->
  (forall k, (k < N)%nat -> exists r, nth_error saved (S k) = Some (us k, r) /\ length (us k) = n) ->
  forall k (b : cooling St), (k <= N)%nat -> q_cycle b = k -> (forall j, (S j = k)%nat -> q_t b = times j) -> length (q_rate b) = n ->
  exists total b', steady_pass f n c bcs w cw lin dts saved params qu qv k b = Ok (total, b') /\ q_mu b' = q_mu b /\ q_rate b' = q_rate b /\
    exists A P, (forall j, (j < k)%nat -> tangent f n c (times j) (inputs params (q_rate b)) (q_mem b) (us j) (A j) /\
        param_tangent f n (S w) cw (times j) (inputs params (q_rate b)) (q_mem b) (us j) (P j)) /\
      forall i, total i = sumn k (fun j => sensitivity n (P j) (static_adjoint n bcs lin (A j) (qu j)) i).
Proof.
  intros Fp Hdt Hsv k b Hk Hc Ht Hr. assert (Fo := rate_fits f n cm tsize Rm _ _ Fp Hr).
  assert (Hs : forall k, (k < N)%nat -> nth_error (map fst saved) (S k) = Some (us k) /\ length (us k) = n).
  { intros j Hj. destruct (Hsv j Hj) as (r & E & L). rewrite nth_error_map, E. auto. }
  destruct (pass_sum f n c bcs tsize R0 (S w) np cw Rw lin dts (map fst saved) (inputs params (q_rate b)) Fo times us N Hdt Hs qu k (as_static b) Hk Hc Ht) as (total & E & A & P & ms & HA & HT).
  destruct (steady_pass_static f n c bcs w cw lin dts saved params qu qv k b total E) as (total' & b' & E' & Tt & Mu & Ra).
  exists total', b'. repeat (split; [assumption|]). exists A, P. split; [|intros i; now rewrite Tt, HT].
  intros j Hj. destruct (HA j Hj) as (T1 & T2 & Sm). destruct (Hs j ltac:(lia)) as [_ Lj]. cbn [as_static b_mem] in Sm. split.
  - exact (tangent_moves f n c tsize R0 (inputs params (q_rate b)) Fo _ _ _ _ _ Lj Sm T1).
  - exact (param_moves f n c tsize R0 (S w) cw (inputs params (q_rate b)) Fo _ _ _ _ _ Lj Sm T2).
Qed.

Notation step1 := (steady_step f n c (any bcs) target).
Lemma steady_run_facts loads : forall s l, List.Forall (fun ld => params_fit tsize (k_params ld)) loads -> length (w_rate s) = n -> heat_run step1 loads s = Ok l ->
  length l = length loads /\ w_cycle (hot_end s l) = (w_cycle s + length loads)%nat /\ w_rate (hot_end s l) = w_rate s /\
  w_saved (hot_end s l) = w_saved s ++ map (fun x => (w_u (fst x), w_rate s)) l /\ same_material (w_mem (hot_end s l)) (w_mem s) /\
  forall k ld, nth_error loads k = Some ld -> length (w_u (hot s l k)) = n /\ w_rate (hot s l k) = w_rate s /\ w_t (hot s l k) = w_t (hot_before s l k) + k_dt ld /\
    same_material (w_mem (hot s l k)) (w_mem s).
Proof.
  induction loads as [|ld loads IH]; intros s l Ff Hr E; cbn [heat_run] in E.
  - injection E as <-. cbn. rewrite Nat.add_0_r, app_nil_r. repeat (split; [first [reflexivity|apply same_refl]|]). intros [|k] ld H; discriminate.
  - apply Forall_cons_iff in Ff as [F1 F2].
    destruct (steady_step_ok f n c cm (any bcs) target tsize R0 Rm ld s F1 Hr) as (s' & ok & E1 & T & C & Sm & Sv & Sr & x & _ & Hu). rewrite E1 in E. cbn [bindO fst] in E.
    destruct (heat_run step1 loads s') as [l'| |] eqn:E2; try discriminate. injection E as <-. rewrite <- Sr in Hr. destruct (IH s' l' F2 Hr E2) as (L1 & L2 & L2' & L3 & L4 & L5).
    rewrite hot_end_cons. split; [cbn; congruence|]. split; [rewrite L2, C; cbn [length]; lia|]. split; [congruence|].
    split; [rewrite L3, Sv, <- app_assoc, Sr; reflexivity|]. split; [exact (same_trans _ _ _ L4 Sm)|].
    intros [|k] ld' Hk; cbn [nth_error] in Hk.
    + injection Hk as <-. unfold hot, hot_before. cbn [nth fst]. rewrite Hu, !tab_length. repeat (split; [first [reflexivity|assumption]|]). exact Sm.
    + assert (Hl : (k < length l')%nat) by (rewrite L1; apply nth_error_Some; congruence).
      destruct (L5 k ld' Hk) as (A & B & D & G).
      assert (Eq : hot s ((s', ok) :: l') (S k) = hot s' l' k) by (unfold hot; cbn [nth]; f_equal; now apply nth_indep).
      assert (Eb : hot_before s ((s', ok) :: l') (S k) = hot_before s' l' k) by (unfold hot_before, hot; destruct k as [|k]; cbn [nth]; [reflexivity|]; f_equal; apply nth_indep; lia).
      rewrite Eq, Eb. split; [exact A|]. split; [congruence|]. split; [exact D|exact (same_trans _ _ _ G Sm)].
Qed.
Lemma rate_with_param params r p : inputs (with_param params w p) r = with_param (inputs params r) (S w) p.
Proof. apply functional_extensionality. intros [|v]; reflexivity. Qed.

(** the reverse pass gives the derivative of the objective along a family of runs *)
Theorem steady_run_gradient params dts (p : R -> list R) dp rate (s0 : R -> warmth (St := St)) (loads : R -> list push) (runs : R -> list (warmth (St := St) * bool))
  (Q : nat -> vec -> vec -> R) qu qv qp :
  params_fit tsize params -> length rate = n ->
  (* where the runs start: the initial temperatures may vary in any way *)
  (forall eps, w_cycle (s0 eps) = 0%nat /\ w_saved (s0 eps) = [(w_u (s0 eps), w_rate (s0 eps))] /\ w_t (s0 eps) = w_t (s0 0) /\ w_rate (s0 eps) = rate) ->
  (* what they are run with *)
  (forall eps, length (p eps) = np) -> curve np (fun eps => entries (p eps)) dp ->
  (forall eps, map k_dt (loads eps) = dts /\ List.Forall (fun ld => k_params ld = with_param params w (p eps)) (loads eps)) ->
  (forall eps, heat_run step1 (loads eps) (s0 eps) = Ok (runs eps)) ->
  let N := length dts in let u := fun eps k => w_u (hot (s0 eps) (runs eps) k) in
  let t := fun k => w_t (hot (s0 0) (runs 0) k) in let m := w_mem (hot_end (s0 0) (runs 0)) in
  (forall k, (k < N)%nat -> continuous_near n (fun eps => entries (u eps k)) \/ exists du, curve n (fun eps => entries (u eps k)) du) ->
  (* they satisfy the heat balance and the boundary conditions *)
  (forall k i, (k < N)%nat -> (i < n)%nat -> any bcs i = false ->
     locally 0 (fun eps => exists L, force f n (t k) (inputs (with_param params w (p eps)) rate) m (u eps k) L /\ nth i L 0 = 0)) ->
  (forall k i, (k < N)%nat -> (i < n)%nat -> any bcs i = true -> locally 0 (fun eps => nth i (u eps k) 0 = target (t k) i)) ->
  (* the material and the linear solver *)
  (forall k, (k < N)%nat -> ad_joint f (t k) (inputs (inputs (with_param params w (p 0)) rate) (u 0 k)) m) ->
  (forall k A, (k < N)%nat -> tangent f n c (t k) (inputs (with_param params w (p 0)) rate) m (u 0 k) A -> lin_ok n bcs lin A) ->
  (* the loads are the derivatives of the objective *)
  (forall k, (k < N)%nat -> gradient3 n np (fun u _ p => Q k u p) (entries (u 0 k)) vz (entries (p 0)) (qu k) vz (qp k)) ->
  exists total b, steady_pass f n c bcs w cw lin dts (w_saved (hot_end (s0 0) (runs 0))) (with_param params w (p 0)) qu qv N (heat_turn (hot_end (s0 0) (runs 0))) = Ok (total, b) /\
    (forall i, q_mu b i = 0) /\
    is_derive (fun eps => sumn N (fun k => Q k (entries (u eps k)) (entries (p eps)))) 0 (vdot np (fun i => total i + sumn N (fun k => qp k i)) dp).
Proof.
  intros Fo Hrate Hs0 Lp Cp Hl Hr N u t m Near Bal Held Had Hlin HQ.
  assert (Fp : forall eps, params_fit tsize (with_param params w (p eps))) by (intros eps; apply (with_param_fits f n tsize w np cw); auto).
  assert (Ffit : forall eps, List.Forall (fun ld => params_fit tsize (k_params ld)) (loads eps)).
  { intros eps. destruct (Hl eps) as [_ H]. revert H. apply List.Forall_impl. intros ld E. rewrite E. apply Fp. }
  assert (Len : forall eps, length (loads eps) = N) by (intros eps; destruct (Hl eps) as [E _]; unfold N; rewrite <- E; symmetry; apply map_length).
  assert (Lr : forall eps, length (w_rate (s0 eps)) = n) by (intros eps; destruct (Hs0 eps) as (_ & _ & _ & E); congruence).
  assert (Ch := fun eps => steady_run_facts (loads eps) (s0 eps) (runs eps) (Ffit eps) (Lr eps) (Hr eps)).
  assert (Step : forall eps k, (k < N)%nat -> exists ld, nth_error (loads eps) k = Some ld /\ nth_error dts k = Some (k_dt ld)).
  { intros eps k Hk. destruct (nth_error (loads eps) k) as [ld|] eqn:E; [|apply nth_error_None in E; rewrite Len in E; lia]. exists ld. split; [reflexivity|].
    destruct (Hl eps) as [D _]. rewrite <- D, nth_error_map, E. reflexivity. }
  assert (Lu : forall eps k, (k < N)%nat -> length (u eps k) = n).
  { intros eps k Hk. destruct (Step eps k Hk) as (ld & X & _). destruct (Ch eps) as (_ & _ & _ & _ & _ & C). now destruct (C k ld X). }
  destruct (Ch 0) as (L1 & L2 & L2' & L3 & _ & L4). destruct (Hs0 0) as (Z0 & Sv0 & _ & Ra0).
  destruct (steady_pass_sum dts (w_saved (hot_end (s0 0) (runs 0))) (with_param params w (p 0)) t (u 0) N qu qv (Fp 0)) with (k := N) (b := heat_turn (hot_end (s0 0) (runs 0)))
    as (total & b & E & Mu & _ & A & P & HA & HT).
  - intros k Hk. destruct (Step 0 k Hk) as (ld & X & Y). exists (k_dt ld). split; [exact Y|]. intros j Hj. destruct (L4 k ld X) as (_ & _ & D & _). unfold t. rewrite D. rewrite <- Hj. cbn [hot_before]. ring.
  - intros k Hk. destruct (Step 0 k Hk) as (ld & X & Y). exists rate. split; [|now apply Lu]. rewrite L3, Sv0. cbn [app nth_error]. rewrite nth_error_map.
    assert (K : (k < length (runs 0%R))%nat) by (rewrite L1, Len; exact Hk). rewrite (nth_error_nth' (runs 0) (s0 0, true) K). cbn [option_map]. rewrite Ra0. reflexivity.
  - lia.
  - cbn [heat_turn q_cycle]. rewrite L2, Z0, Len. reflexivity.
  - intros j Hj. cbn [heat_turn q_t]. unfold t, hot, hot_end. rewrite <- (Len 0), <- L1 in Hj. rewrite (last_nth_local (runs 0) (s0 0, true) j Hj). reflexivity.
  - cbn [heat_turn q_rate]. rewrite L2'. apply Lr.
  - exists total, b. split; [exact E|]. split; [intros i; rewrite Mu; reflexivity|].
    cbn [heat_turn q_rate q_mem] in HA. rewrite L2', Ra0 in HA. fold m in HA.
    set (O := inputs params rate). assert (FO : fitting tsize O) by (apply (rate_fits f n cm tsize Rm); auto).
    assert (FOp : forall eps, fitting tsize (with_param O (S w) (p eps))) by (intros eps; apply (param_fits f n tsize (S w) np cw Rw); auto).
    assert (Eq : forall k i, (k < N)%nat -> (i < n)%nat -> any bcs i = false -> locally 0 (fun s => nodal f n (S w) np (t k) O m (entries (u s k)) (entries (p s)) i = 0)).
    { intros k i Hk Hi Bi. generalize (Bal k i Hk Hi Bi). apply filter_imp. intros eps (L & (m' & F) & Z). rewrite rate_with_param in F. fold O in F.
      destruct (evaluate_quiet f n c tsize R0 (t k) None (with_param O (S w) (p eps)) (u eps k) m m (FOp eps) (Lu eps k Hk) (same_refl _)) as (L' & m2 & E2 & _ & _ & V2 & _).
      rewrite E2 in F. injection F as -> _. unfold nodal. rewrite (tab_of n _ (Lu eps k Hk)), (tab_of np _ (Lp eps)), <- V2 by exact Hi. exact Z. }
    assert (Hd : forall k i, (k < N)%nat -> (i < n)%nat -> any bcs i = true -> locally 0 (fun s => entries (u s k) i = entries (u 0 k) i)).
    { intros k i Hk Hi Bi. destruct (Held k i Hk Hi Bi) as (d & H). exists d. intros eps He. unfold entries. rewrite (H eps He), (H 0 (ball_center 0 d)). reflexivity. }
    assert (Jac : forall k, (k < N)%nat -> jacobian3 n np (fun u _ p => nodal f n (S w) np (t k) O m u p) (entries (u 0 k)) vz (entries (p 0)) (A k) (fun _ _ => 0) (P k)).
    { intros k Hk. destruct (HA k Hk) as [T1 T2]. rewrite rate_with_param in T1, T2. fold O in T1, T2.
      apply (joint_derivative f n c tsize R0 (S w) np cw Rw (t k) O m (u 0 k) (p 0) (A k) (P k) FO (Lu 0 k Hk) (Lp 0)); auto.
      unfold O. rewrite <- rate_with_param. now apply Had. }
    assert (D : forall k, (k < N)%nat -> is_derive (fun eps => Q k (entries (u eps k)) (entries (p eps))) 0
       (vdot np (fun i => qp k i + sensitivity n (P k) (static_adjoint n bcs lin (A k) (qu k)) i) dp)).
    { intros k Hk. assert (LA : lin_ok n bcs lin (A k)) by (apply (Hlin k _ Hk); apply (HA k Hk)).
      assert (Cu : exists du, curve n (fun eps => entries (u eps k)) du).
      { destruct (Near k Hk) as [Nk|Y]; [|exact Y].
        apply (static_step_smooth n np bcs lin (fun u _ p => nodal f n (S w) np (t k) O m u p)) with (p := fun s => entries (p s)) (dp := dp) (J := A k) (M := fun _ _ => 0) (P := P k); auto.
        intros x x' v v' q i Hx _. unfold nodal. now rewrite (tab_same n x x' Hx). }
      destruct Cu as (du & Cu).
      apply (static_gradient n np bcs lin (nodal f n (S w) np (t k) O m) (Q k) (fun eps => entries (u eps k)) (fun eps => entries (p eps)) (A k) (P k) (qu k) (qp k) du dp); auto. }
    replace (vdot np (fun i => total i + sumn N (fun k => qp k i)) dp) with
      (sumn N (fun k => vdot np (fun i => qp k i + sensitivity n (P k) (static_adjoint n bcs lin (A k) (qu k)) i) dp)).
    + apply (is_derive_sumn N (fun k eps => Q k (entries (u eps k)) (entries (p eps)))). exact D.
    + unfold vdot. rewrite sumn_swap. apply sumn_ext. intros i Hi. rewrite sumn_scal_r. f_equal. rewrite sumn_plus, HT. ring.
Qed.
End Facts.
