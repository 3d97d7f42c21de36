(** * Sensitivities of dynamic runs (C78) *)
From Coq Require Import NArith ZArith Reals List Lia Lra Bool FunctionalExtensionality.
From Coquelicot Require Import Coquelicot.
From Verif Require Import Prelude DofCodec Sums Restriction Csr Kernels FunctionalModel FunctionalGrad FunctionalTotal Assembly Tensor MatAlg BoundaryElim Adjoint AdjointDeriv Ode
  QuasiStatic QuasiAdjoint QuasiGradient Transient TransientFacts JointRate HeatBack HeatGradient MotionBack.
Import ListNotations.
Local Open Scope R_scope.

(** the module after step [k], before it, and at the end of the run *)
Definition walked {St} (s0 : motion (St := St)) (l : list (motion (St := St))) (k : nat) : motion := nth k l s0.
Definition walked_before {St} (s0 : motion (St := St)) (l : list (motion (St := St))) (k : nat) : motion := match k with O => s0 | S j => walked s0 l j end.
Definition walked_end {St} (s0 : motion (St := St)) (l : list (motion (St := St))) : motion := last l s0.
(** MFEM's NewmarkSolver as odes.cpp:27-29 makes it *)
Definition mean_newmark : integrator := Newmark (1 / 4) (1 / 2).
Lemma mean_defined en dt : step_defined mean_newmark en dt.
Proof.
  destruct (Req_EM_T dt 0) as [E|N]; [right; exact E|left].
  assert (A : 1 / 4 * dt * dt <> 0) by (repeat apply Rmult_integral_contrapositive_currified; lra).
  assert (B : 1 / 2 * dt <> 0) by (apply Rmult_integral_contrapositive_currified; lra). destruct en; assumption.
Qed.

Section Family.
Context {St : Type}.
Variable f : functional St.
Variable n : nat.
Variable c cm : csr.
Variable bcs : list dofset.
Variable target : R -> vec.
Variable tsize : nat -> nat.
Hypothesis R0 : ready f n c tsize.
Hypothesis Rm : ready_for f n tsize 0 n cm.
Variable w np : nat.
Variable cw : csr.
Hypothesis Rw : ready_for f n tsize (S w) np cw.
Variable en : enforcement.
Hypothesis NF : en <> FullControl.
Notation step1 := (dynamic_step f n c cm (any bcs) target mean_newmark en).
Notation run1 := (dynamic_run f n c cm (any bcs) target mean_newmark en).

Lemma walked_end_cons (s s' : motion (St := St)) l : walked_end s (s' :: l) = walked_end s' l.
Proof. unfold walked_end. destruct l as [|a l]; [reflexivity|]. rewrite last_cons. revert a. induction l as [|x l IH]; intros a; [reflexivity|]. rewrite !last_cons. apply IH. Qed.

(** one step of the mean acceleration method *)
Lemma mean_step ld (s s' : motion (St := St)) ok : params_fit tsize (k_params ld) -> step1 ld s = Ok (s', ok) ->
  moves f n c cm (any bcs) target mean_newmark en ld s s' ok /\ length (d_u s') = n /\ length (d_v s') = n /\ length (d_a s') = n /\
  (exists a, d_old s' = Some a /\ d_a s' = tab n a) /\
  exists a0, (forall a, d_old s = Some a -> a0 = a) /\ kinematics n mean_newmark (k_dt ld) (d_u s) (d_v s) a0 (d_u s') (d_v s') (d_a s').
Proof.
  intros P E. assert (Mv := dynamic_step_moves f n c cm (any bcs) target tsize R0 Rm mean_newmark en ld s s' ok P (mean_defined en (k_dt ld)) E). split; [exact Mv|].
  destruct (mv_goes _ _ _ _ _ _ _ _ _ _ _ _ Mv) as (x & v & a & G & Ux & Uv & Ua & Uo). rewrite Ux, Uv, Ua, !tab_length. repeat (split; [reflexivity|]).
  split; [exists a; auto|]. destruct G as (a0 & ok0 & ok1 & F0 & _ & _ & Ep). exists a0. split.
  { intros a' Ha. unfold first_acceleration in F0. rewrite Ha in F0. exact (proj1 F0). }
  set (dt := k_dt ld) in *.
  assert (Ep' : (x, v) = (vadd (1 / 4 * dt * dt) (vadd ((0.5 - 1 / 4) * dt * dt) (vadd dt (entries (d_u s)) (entries (d_v s))) a0) a,
     vadd (1 / 2 * dt) (vadd ((1 - 1 / 2) * dt) (entries (d_v s)) a0) a)) by (destruct en; [exact Ep|exact Ep|congruence]).
  injection Ep' as Ex Ev. intros i Hi. rewrite !nth_tab by exact Hi. cbn [mean_newmark]. rewrite Ex, Ev. unfold vadd, entries. split; lra.
Qed.
Lemma motion_run_facts loads : forall s l, List.Forall (fun ld => params_fit tsize (k_params ld)) loads -> run1 loads s = Ok l ->
  length l = length loads /\ d_cycle (walked_end s l) = (d_cycle s + length loads)%nat /\
  d_saved (walked_end s l) = d_saved s ++ map (fun x => (d_u x, d_v x, d_a x)) l /\
  forall k ld, nth_error loads k = Some ld -> let x := walked s l k in let x0 := walked_before s l k in
    length (d_u x) = n /\ length (d_v x) = n /\ length (d_a x) = n /\ d_t x = d_t x0 + k_dt ld /\
    force f n (d_t x) (inputs (k_params ld) (d_a x)) (d_mem x0) (d_u x) (d_react x) /\
    (exists a, d_old x = Some a /\ d_a x = tab n a) /\
    exists a0, (forall a, d_old x0 = Some a -> a0 = a) /\ kinematics n mean_newmark (k_dt ld) (d_u x0) (d_v x0) a0 (d_u x) (d_v x) (d_a x).
Proof.
  induction loads as [|ld loads IH]; intros s l Ff E; cbn [dynamic_run] in E.
  - injection E as <-. cbn. rewrite Nat.add_0_r, app_nil_r. repeat (split; [reflexivity|]). intros [|k] ld H; discriminate.
  - apply Forall_cons_iff in Ff as [F1 F2]. destruct (step1 ld s) as [[s' ok]| |] eqn:E1; try discriminate. cbn [bindO fst] in E.
    destruct (run1 loads s') as [l'| |] eqn:E2; try discriminate. injection E as <-. destruct (IH s' l' F2 E2) as (L1 & L2 & L3 & L5).
    destruct (mean_step ld s s' ok F1 E1) as (Mv & A1 & A2 & A3 & A4 & A5).
    rewrite walked_end_cons. split; [cbn; congruence|]. split; [rewrite L2, (mv_cycle _ _ _ _ _ _ _ _ _ _ _ _ Mv); cbn [length]; lia|].
    split; [rewrite L3, (mv_saved _ _ _ _ _ _ _ _ _ _ _ _ Mv), <- app_assoc; reflexivity|].
    intros [|k] ld' Hk; cbn [nth_error] in Hk.
    + injection Hk as <-. unfold walked, walked_before. cbn [nth]. repeat (split; [assumption|]). split; [exact (mv_time _ _ _ _ _ _ _ _ _ _ _ _ Mv)|].
      split; [exact (mv_react _ _ _ _ _ _ _ _ _ _ _ _ Mv)|]. split; assumption.
    + assert (Hl : (k < length l')%nat) by (rewrite L1; apply nth_error_Some; congruence).
      assert (Eq : walked s (s' :: l') (S k) = walked s' l' k) by (unfold walked; cbn [nth]; now apply nth_indep).
      assert (Eb : walked_before s (s' :: l') (S k) = walked_before s' l' k) by (unfold walked_before, walked; destruct k as [|k]; cbn [nth]; [reflexivity|]; apply nth_indep; lia).
      cbv zeta. rewrite Eq, Eb. exact (L5 k ld' Hk).
Qed.

(** ** the abstract family of AdjointDeriv.v which a family of runs gives *)
Lemma nfamily_of p (pu pv pa : nat -> R -> vec) (mk : nat -> newmark_family_step) direct : forall cnt a,
  (forall k, (a <= k < a + cnt)%nat -> let g := mk k in let dt := s_dt (nf_step g) in
      curve n (nf_u g) (nf_du g) /\ curve n (nf_v g) (nf_dv g) /\ curve n (nf_a g) (nf_da g) /\
      jacobian3 n np (nf_res g) (nf_u g 0) (nf_a g 0) (p 0) (s_K (nf_step g)) (s_M (nf_step g)) (s_P (nf_step g)) /\
      gradient4 n np (nf_obj g) (nf_u g 0) (nf_v g 0) (nf_a g 0) (p 0) (s_qu (nf_step g)) (rate_part (s_qv (nf_step g))) (rate_part (s_qa (nf_step g))) (nf_qp g) /\
      (forall i, (i < n)%nat -> locally 0 (fun s =>
         nf_u g s i = pu k s i + dt * pv k s i + dt * dt * ((1 / 4) * pa k s i + (1 / 4) * nf_a g s i) /\
         nf_v g s i = pv k s i + dt * ((1 / 2) * pa k s i + (1 / 2) * nf_a g s i))) /\
      (forall i, (i < n)%nat -> any bcs i = false -> locally 0 (fun s => nf_res g (nf_u g s) (nf_a g s) (p s) i = 0)) /\
      (forall i, (i < n)%nat -> any bcs i = true -> locally 0 (fun s =>
         if Req_EM_T dt 0 then nf_a g s i = nf_a g 0 i else if direct : bool then nf_u g s i = nf_u g 0 i else nf_v g s i = nf_v g 0 i)) /\
      pu (S k) = nf_u g /\ pv (S k) = nf_v g /\ pa (S k) = nf_a g) ->
  newmark_family n np (any bcs) direct p (pu a) (pv a) (pa a) (map mk (seq a cnt)).
Proof.
  induction cnt as [|cnt IH]; intros a H; [exact Logic.I|]. cbn [seq map newmark_family]. destruct (H a ltac:(lia)) as (H1 & H2 & H3 & H4 & H5 & H6 & H7 & H8 & H9 & H10 & H11).
  cbv zeta. do 8 (split; [assumption|]). rewrite <- H9, <- H10, <- H11. apply IH. intros k Hk. apply H. lia.
Qed.
Lemma ntotal_of p (mk : nat -> newmark_family_step) s : forall cnt a, newmark_total p (map mk (seq a cnt)) s =
  sumn cnt (fun j => let g := mk (a + j)%nat in nf_obj g (nf_u g s) (nf_v g s) (nf_a g s) (p s)).
Proof.
  induction cnt as [|cnt IH]; intros a; [reflexivity|]. cbn [seq map newmark_total]. rewrite IH, sumn_S_l, Nat.add_0_r. f_equal. apply sumn_ext. intros j _. now rewrite Nat.add_succ_comm.
Qed.
Lemma nexplicit_of (mk : nat -> newmark_family_step) i : forall cnt a, newmark_explicit (map mk (seq a cnt)) i = sumn cnt (fun j => nf_qp (mk (a + j)%nat) i).
Proof.
  induction cnt as [|cnt IH]; intros a; [reflexivity|]. cbn [seq map newmark_explicit]. rewrite IH, sumn_S_l, Nat.add_0_r. f_equal. apply sumn_ext. intros j _. now rewrite Nat.add_succ_comm.
Qed.

(** the reverse pass gives the derivative of the objective along the family of runs *)
Theorem motion_run_gradient params lin dts dts' (p : R -> list R) dp (s0 : R -> motion (St := St)) du0 dv0 (loads : R -> list push) (runs : R -> list (motion (St := St)))
  (Q : nat -> vec -> vec -> vec -> vec -> R) qu qa qp du dv da :
  params_fit tsize params -> memoryless f ->
  (* where the runs start *)
  (forall eps, d_cycle (s0 eps) = 0%nat /\ d_saved (s0 eps) = [(d_u (s0 eps), d_v (s0 eps), d_a (s0 eps))] /\ d_t (s0 eps) = d_t (s0 0)) ->
  curve n (fun eps => entries (d_u (s0 eps))) du0 -> curve n (fun eps => entries (d_v (s0 eps))) dv0 ->
  (forall i, (i < n)%nat -> any bcs i = true -> du0 i = 0 /\ dv0 i = 0) ->
  (* what they are run with: a first step of length zero *)
  (forall eps, length (p eps) = np) -> curve np (fun eps => entries (p eps)) dp -> dts = 0 :: dts' ->
  (forall eps, map k_dt (loads eps) = dts /\ List.Forall (fun ld => k_params ld = with_param params w (p eps)) (loads eps)) ->
  (forall eps, run1 (loads eps) (s0 eps) = Ok (runs eps)) ->
  let N := length dts in let x := fun eps k => walked (s0 eps) (runs eps) k in
  let t := fun k => d_t (x 0 k) in let z := walked_end (s0 0) (runs 0) in
  (* they satisfy the equation of motion and the boundary conditions *)
  (forall k, (k < N)%nat -> curve n (fun eps => entries (d_u (x eps k))) (du k) /\ curve n (fun eps => entries (d_v (x eps k))) (dv k) /\
     curve n (fun eps => entries (d_a (x eps k))) (da k)) ->
  (forall k i, (k < N)%nat -> (i < n)%nat -> any bcs i = false -> locally 0 (fun eps => nth i (d_react (x eps k)) 0 = 0)) ->
  (forall k dt i, nth_error dts k = Some dt -> (i < n)%nat -> any bcs i = true -> locally 0 (fun eps =>
     (dt = 0 -> nth i (d_a (x eps k)) 0 = curvature target eps2 (t k) i) /\ (dt <> 0 -> obeys en target (t k) (d_u (x eps k)) (d_v (x eps k)) i))) ->
  (* the material and the linear solver *)
  (forall k, (k < N)%nat -> ad_joint f (t k) (inputs (inputs (with_param params w (p 0)) (d_a (x 0 k))) (d_u (x 0 k))) (d_mem z)) ->
  (forall k dt K M, nth_error dts k = Some dt -> tangent f n c (t k) (inputs (with_param params w (p 0)) (d_a (x 0 k))) (d_mem z) (d_u (x 0 k)) K ->
     param_tangent f n 0 cm (t k) (inputs (with_param params w (p 0)) (d_a (x 0 k))) (d_mem z) (d_u (x 0 k)) M ->
     lin_ok n bcs lin (fun i j => M i j + 1 / 4 * dt * dt * K i j)) ->
  (* the loads are the derivatives of the objective *)
  (forall k, (k < N)%nat -> gradient4 n np (Q k) (entries (d_u (x 0 k))) (entries (d_v (x 0 k))) (entries (d_a (x 0 k))) (entries (p 0)) (qu k) vz (rate_part (qa k)) (qp k)) ->
  ((forall k, (k < N)%nat -> qa k <> None) \/ (forall k, (k < N)%nat -> qa k = None)) ->
  exists total b, motion_pass f n c cm bcs w cw lin dts (d_saved z) (with_param params w (p 0)) qu (fun _ => None) qa N (motion_turn z) = Ok (total, b) /\
    is_derive (fun eps => sumn N (fun k => Q k (entries (d_u (x eps k))) (entries (d_v (x eps k))) (entries (d_a (x eps k))) (entries (p eps)))) 0
      (vdot n (z_U b) du0 + vdot n (z_V b) dv0 + vdot np (fun i => total i + sumn N (fun k => qp k i)) dp).
Proof.
  intros Fo ML Hs0 Cu0 Cv0 Fix0 Lp Cp Dz Hl Hr N x t z Cur Bal Held Had Hlin HQ Uni.
  assert (Fp : forall eps, params_fit tsize (with_param params w (p eps))) by (intros eps; apply (with_param_fits f n tsize w np cw); auto).
  assert (Ffit : forall eps, List.Forall (fun ld => params_fit tsize (k_params ld)) (loads eps)).
  { intros eps. destruct (Hl eps) as [_ H]. revert H. apply List.Forall_impl. intros ld E. rewrite E. apply Fp. }
  assert (Len : forall eps, length (loads eps) = N) by (intros eps; destruct (Hl eps) as [E _]; unfold N; rewrite <- E; symmetry; apply map_length).
  assert (Ch := fun eps => motion_run_facts (loads eps) (s0 eps) (runs eps) (Ffit eps) (Hr eps)).
  assert (Step : forall eps k, (k < N)%nat -> exists ld, nth_error (loads eps) k = Some ld /\ k_params ld = with_param params w (p eps) /\ nth_error dts k = Some (k_dt ld)).
  { intros eps k Hk. destruct (nth_error (loads eps) k) as [ld|] eqn:E; [|apply nth_error_None in E; rewrite Len in E; lia]. exists ld. split; [reflexivity|].
    destruct (Hl eps) as [D H]. split; [exact (proj1 (List.Forall_forall _ _) H ld (nth_error_In _ _ E))|]. rewrite <- D, nth_error_map, E. reflexivity. }
  assert (Tm : forall eps k, (k < N)%nat -> d_t (x eps k) = t k).
  { intros eps. induction k as [|k IH]; intros Hk; destruct (Step eps _ Hk) as (ld & X & _ & Y); destruct (Step 0 _ Hk) as (ld0 & X0 & _ & Y0);
      destruct (Ch eps) as (_ & _ & _ & C5); destruct (Ch 0) as (_ & _ & _ & C50);
      destruct (C5 _ ld X) as (_ & _ & _ & T1 & _); destruct (C50 _ ld0 X0) as (_ & _ & _ & T0 & _); cbn [walked_before] in T1, T0;
      rewrite Y in Y0; injection Y0 as Y0; unfold t, x; rewrite T1, T0, Y0.
    - destruct (Hs0 eps) as (_ & _ & ->). reflexivity.
    - f_equal. apply IH. lia. }
  destruct (Ch 0) as (L1 & L2 & L3 & L5).
  destruct (motion_pass_ok f n c cm bcs tsize R0 Rm w np cw Rw lin dts (d_saved z) (with_param params w (p 0)) (Fp 0) t (fun k => d_u (x 0 k)) (fun k => d_v (x 0 k)) (fun k => d_a (x 0 k)))
    with (qu := qu) (qv := fun _ : nat => @None vec) (qa := qa) (k := N) (b := motion_turn z) (a := at_end)
    as (steps & total & b & E & Ls & Hst & EU & EV & HT).
  - intros k Hk. destruct (Step 0 (S k) Hk) as (ld & X & _ & Y). destruct (L5 (S k) ld X) as (_ & _ & _ & D & _). unfold t, x.
    rewrite D, (nth_error_nth _ _ _ Y). cbn [walked_before]. lra.
  - intros k Hk. destruct (Step 0 k Hk) as (ld & X & _ & Y). destruct (L5 k ld X) as (A & B & C & _). split; [|split; [exact A|exact C]].
    destruct (Hs0 0) as (_ & Sv & _). unfold z. rewrite L3, Sv. cbn [app nth_error]. rewrite nth_error_map. unfold x, walked.
    rewrite (nth_error_nth' (runs 0) (s0 0)) by (rewrite L1, Len; exact Hk). reflexivity.
  - unfold N. lia.
  - cbn [motion_turn z_cycle]. destruct (Hs0 0) as (Z0 & _). unfold z. rewrite L2, Z0, Len. reflexivity.
  - intros j Hj. cbn [motion_turn z_t]. unfold t, x, z, walked, walked_end. rewrite <- (Len 0), <- L1 in Hj. rewrite (last_nth_local (runs 0) (s0 0) j Hj). reflexivity.
  - reflexivity.
  - reflexivity.
  - reflexivity.
  - reflexivity.
  - exists total, b. split; [exact E|]. cbn [motion_turn z_mem] in Hst. set (m := d_mem z) in *.
    set (d := {| s_dt := 0; s_K := fun _ _ => 0; s_M := fun _ _ => 0; s_P := fun _ _ => 0; s_qu := vz; s_qv := None; s_qa := None |}).
    set (mk := fun k => {| nf_step := nth k steps d; nf_res := forces_of f n w np (t k) params m; nf_obj := Q k; nf_qp := qp k;
                           nf_u := fun eps => entries (d_u (x eps k)); nf_v := fun eps => entries (d_v (x eps k)); nf_a := fun eps => entries (d_a (x eps k));
                           nf_du := du k; nf_dv := dv k; nf_da := da k |}).
    assert (Hstep : forall k, (k < N)%nat -> nth_error steps k = Some (nth k steps d)) by (intros k Hk; apply nth_error_nth'; lia).
    assert (Ms : map nf_step (map mk (seq 0 N)) = steps) by (rewrite map_map; cbn [mk nf_step]; rewrite <- Ls; apply map_nth_seq).
    set (pu := fun k eps => entries (d_u (walked_before (s0 eps) (runs eps) k))). set (pv := fun k eps => entries (d_v (walked_before (s0 eps) (runs eps) k))).
    set (pa := fun k (eps : R) => match k with O => vz | S j => entries (d_a (x eps j)) end).
    assert (Fam : newmark_family n np (any bcs) (directly en) (fun eps => entries (p eps)) (pu 0%nat) (pv 0%nat) (pa 0%nat) (map mk (seq 0 N))).
    { apply nfamily_of. intros k Hk. cbn [mk nf_step nf_res nf_obj nf_qp nf_u nf_v nf_a nf_du nf_dv nf_da]. assert (Hk' : (k < N)%nat) by lia. cbv zeta.
      destruct (Cur k Hk') as (Cu & Cv & Ca). destruct (Hst k _ (Hstep k Hk')) as (D1 & D2 & D3 & D4 & Lin). destruct (Step 0 k Hk') as (ld0 & X0 & _ & Y0).
      destruct (L5 k ld0 X0) as (Hu & _ & Ha & _).
      split; [exact Cu|]. split; [exact Cv|]. split; [exact Ca|]. split; [|split; [|split; [|split; [|split]]]].
      - destruct Lin as (T1 & T2 & T3). apply (joint_rate f n c cm tsize R0 Rm w np cw Rw); auto.
      - rewrite D2, D3, D4. now apply HQ.
      - intros i Hi. exists (mkposreal 1 Rlt_0_1). intros eps _. destruct (Step eps k Hk') as (ld & X & _ & Y). destruct (Ch eps) as (_ & _ & _ & C5).
        destruct (C5 k ld X) as (_ & _ & _ & _ & _ & _ & a0 & A0 & Ki). rewrite D1 in Y. injection Y as Y. destruct (Ki i Hi) as [K1 K2]. rewrite <- Y in K1, K2.
        unfold pu, pv, pa, entries, x. destruct k as [|k].
        + assert (Z : s_dt (nth 0 steps d) = 0) by (rewrite Dz in D1; cbn [nth_error] in D1; congruence). rewrite Z in *. split; lra.
        + assert (Hk1 : (k < N)%nat) by lia. destruct (Step eps k Hk1) as (ld1 & X1 & _ & _). destruct (C5 k ld1 X1) as (_ & _ & _ & _ & _ & (a & O1 & O2) & _).
          cbn [walked_before] in A0. rewrite (A0 a O1) in K1, K2. rewrite O2, !nth_tab by exact Hi. split; lra.
      - intros i Hi Bi. destruct (Bal k i Hk' Hi Bi) as (e & He). exists e. intros eps Ee. assert (Z := He eps Ee).
        destruct (Step eps k Hk') as (ld & X & Pr & _). destruct (Ch eps) as (_ & _ & _ & C5). destruct (C5 k ld X) as (Q1 & _ & Q2 & _ & Fr & _).
        fold (x eps k) in Q1, Q2, Fr. rewrite Pr, (Tm eps k Hk') in Fr. assert (Fe0 := rate_fits f n cm tsize Rm _ _ (Fp eps) Q2).
        assert (F2 := force_memoryless f n c tsize R0 _ _ _ m _ _ ML Fe0 Q1 Fr).
        unfold forces_of. rewrite (tab_of n (d_u (x eps k)) Q1), (tab_of n (d_a (x eps k)) Q2), (tab_of np _ (Lp eps)).
        assert (Fe := force_entries f n c tsize R0 _ _ _ _ _ _ Fe0 Q1 Hi F2). rewrite Z in Fe. symmetry. exact Fe.
      - intros i Hi Bi. destruct (Held k _ i D1 Hi Bi) as (e & He). exists e. intros eps Ee. destruct (He eps Ee) as [H1 H1']. destruct (He 0 (ball_center 0 e)) as [H2 H2'].
        unfold entries. destruct (Req_EM_T (s_dt (nth k steps d)) 0) as [Z|Z]; [rewrite (H1 Z), (H2 Z); reflexivity|].
        specialize (H1' Z). specialize (H2' Z). unfold obeys in H1', H2'. unfold directly. destruct en; congruence.
      - split; [reflexivity|]. split; reflexivity. }
    assert (EN : map mk (seq 0 N) = mk 0%nat :: map mk (seq 1 (length dts'))) by (unfold N; rewrite Dz; reflexivity).
    assert (Gr := newmark_gradient n np bcs lin (directly en) (fun eps => entries (p eps)) dp (mk 0%nat) (map mk (seq 1 (length dts'))) (pu 0%nat) (pv 0%nat) du0 dv0).
    rewrite <- EN, Ms in Gr. cbv zeta in Gr.
    assert (ER : newmark_reverse n bcs lin steps = recede n bcs lin (nth N dts 0) at_end steps) by (rewrite nth_overflow by (unfold N; lia); symmetry; apply recede_all).
    rewrite ER, <- EU, <- EV in Gr.
    apply (is_derive_ext (newmark_total (fun eps => entries (p eps)) (map mk (seq 0 N)))); [intros eps; exact (ntotal_of (fun eps => entries (p eps)) mk eps N 0)|].
    assert (N0 : (0 < N)%nat) by (unfold N; rewrite Dz; cbn; lia).
    match goal with |- is_derive _ _ ?v => match type of Gr with _ -> _ -> _ -> _ -> _ -> _ -> _ -> _ -> is_derive _ _ ?v' => replace v with v' end end.
    + apply Gr.
      * cbn [mk nf_step]. destruct (Hst 0%nat _ (Hstep 0%nat N0)) as (D1 & _). rewrite Dz in D1. cbn [nth_error] in D1. congruence.
      * intros g Hg. apply in_map_iff in Hg as (k & <- & Hk). apply in_seq in Hk. cbn [mk nf_step]. assert (Hk' : (k < N)%nat) by lia.
        destruct (Hst k _ (Hstep k Hk')) as (D1 & _ & _ & _ & T1 & T2 & _). unfold newmark_step_ok, newmark_J.
        replace (fun i j => s_M (nth k steps d) i j + nb * s_dt (nth k steps d) * s_dt (nth k steps d) * s_K (nth k steps d) i j)
          with (fun i j => s_M (nth k steps d) i j + 1 / 4 * s_dt (nth k steps d) * s_dt (nth k steps d) * s_K (nth k steps d) i j).
        { exact (Hlin k _ _ _ D1 T1 T2). }
        apply functional_extensionality; intros i. apply functional_extensionality; intros j. unfold nb. lra.
      * split.
        -- intros s Hs. apply In_nth_error in Hs as (k & Hs). destruct (Hst k s Hs) as (_ & _ & -> & _). reflexivity.
        -- destruct Uni as [U|U]; [left|right]; intros s Hs; apply In_nth_error in Hs as (k & Hs); assert (k < N)%nat by (rewrite <- Ls; apply nth_error_Some; congruence);
             destruct (Hst k s Hs) as (_ & _ & _ & -> & _); now apply U.
      * exact Cp.
      * exact Cu0.
      * exact Cv0.
      * exact Fix0.
      * exact Fam.
    + f_equal. apply vdot_ext. intros i _. rewrite HT, nexplicit_of. reflexivity.
Qed.
End Family.
