(** * Sensitivities of transient heat conduction runs (C77) *)
From Coq Require Import NArith ZArith Reals List Lia Lra Bool FunctionalExtensionality.
From Coquelicot Require Import Coquelicot.
From Verif Require Import Prelude DofCodec Sums Restriction Csr Kernels FunctionalModel FunctionalGrad FunctionalTotal Assembly Tensor MatAlg BoundaryElim Adjoint AdjointDeriv Ode
  QuasiStatic QuasiAdjoint QuasiGradient Transient TransientFacts JointRate HeatBack.
Import ListNotations.
Local Open Scope R_scope.

(** the module after step [k], and at the end of the run *)
Definition hot {St} (s0 : warmth (St := St)) (l : list (warmth (St := St) * bool)) (k : nat) : warmth := fst (nth k l (s0, true)).
Definition hot_end {St} (s0 : warmth (St := St)) (l : list (warmth (St := St) * bool)) : warmth := fst (last l (s0, true)).
Definition hot_before {St} (s0 : warmth (St := St)) (l : list (warmth (St := St) * bool)) (k : nat) : warmth := match k with O => s0 | S j => hot s0 l j end.

Section Family.
Context {St : Type}.
Variable f : functional St.
Variable n : nat.
Variable c cm : csr.
Variable bcs : list dofset.
Variable target : R -> vec.
Variable tsize : nat -> nat.
Hypothesis R0 : ready f n c tsize.
Hypothesis Rm : ready_for f n tsize 0 n cm.
Variable w np : nat.
Variable cw : csr.
Hypothesis Rw : ready_for f n tsize (S w) np cw.
Variable en : enforcement.
Notation step1 := (Transient.heat_step f n c cm (any bcs) target en).

Lemma last_cons {A} (x y d : A) l : last (x :: y :: l) d = last (y :: l) d.
Proof. reflexivity. Qed.
Lemma hot_end_cons (s s' : warmth (St := St)) b l : hot_end s ((s', b) :: l) = hot_end s' l.
Proof. unfold hot_end. destruct l as [|a l]; [reflexivity|]. rewrite last_cons. f_equal. apply last_indep || (revert a; induction l as [|x l IH]; intros a; [reflexivity|]; rewrite !last_cons; apply IH). Qed.
Lemma heat_run_facts loads : forall s l, List.Forall (fun ld => params_fit tsize (k_params ld)) loads -> heat_run step1 loads s = Ok l ->
  length l = length loads /\ w_cycle (hot_end s l) = (w_cycle s + length loads)%nat /\
  w_saved (hot_end s l) = w_saved s ++ map (fun x => (w_u (fst x), w_rate (fst x))) l /\ same_material (w_mem (hot_end s l)) (w_mem s) /\
  forall k ld, nth_error loads k = Some ld -> length (w_u (hot s l k)) = n /\ length (w_rate (hot s l k)) = n /\ w_t (hot s l k) = w_t (hot_before s l k) + k_dt ld /\
    same_material (w_mem (hot s l k)) (w_mem s) /\
    forall i, (i < n)%nat -> nth i (w_u (hot s l k)) 0 = nth i (w_u (hot_before s l k)) 0 + k_dt ld * nth i (w_rate (hot s l k)) 0.
Proof.
  induction loads as [|ld loads IH]; intros s l Ff E; cbn [heat_run] in E.
  - injection E as <-. cbn. rewrite Nat.add_0_r, app_nil_r. repeat (split; [first [reflexivity|apply same_refl]|]). intros [|k] ld H; discriminate.
  - apply Forall_cons_iff in Ff as [F1 F2].
    destruct (Transient.heat_step_ok f n c cm (any bcs) target tsize R0 Rm en ld s F1) as (s' & ok & E1 & T & C & Sm & Sv & x & _ & Hr & Hu). rewrite E1 in E. cbn [bindO fst] in E.
    destruct (heat_run step1 loads s') as [l'| |] eqn:E2; try discriminate. injection E as <-. destruct (IH s' l' F2 E2) as (L1 & L2 & L3 & L4 & L5).
    rewrite hot_end_cons. split; [cbn; congruence|]. split; [rewrite L2, C; cbn [length]; lia|]. split; [rewrite L3, Sv, <- app_assoc; reflexivity|].
    split; [exact (same_trans _ _ _ L4 Sm)|].
    intros [|k] ld' Hk; cbn [nth_error] in Hk.
    + injection Hk as <-. unfold hot, hot_before. cbn [nth fst]. rewrite Hu, Hr, !tab_length. repeat (split; [first [reflexivity|assumption]|]).
      intros i Hi. rewrite !nth_tab by exact Hi. reflexivity.
    + assert (Hl : (k < length l')%nat) by (rewrite L1; apply nth_error_Some; congruence).
      destruct (L5 k ld' Hk) as (A & B & D & G & H).
      assert (Eq : hot s ((s', ok) :: l') (S k) = hot s' l' k) by (unfold hot; cbn [nth]; f_equal; now apply nth_indep).
      assert (Eb : hot_before s ((s', ok) :: l') (S k) = hot_before s' l' k) by (unfold hot_before, hot; destruct k as [|k]; cbn [nth]; [reflexivity|]; f_equal; apply nth_indep; lia).
      rewrite Eq, Eb. repeat (split; [assumption|]). split; [exact (same_trans _ _ _ G Sm)|exact H].
Qed.

Definition directly (en : enforcement) : bool := match en with DirectControl => true | _ => false end.
(** ** the abstract family of Adjoint.v which a family of runs gives *)
Lemma family_of p prev (mk : nat -> heat_family_step) direct : forall cnt a,
  (forall k, (a <= k < a + cnt)%nat ->
      curve n (hf_u (mk k)) (hf_du (mk k)) /\ curve n (hf_v (mk k)) (hf_dv (mk k)) /\
      jacobian3 n np (hf_res (mk k)) (hf_u (mk k) 0) (hf_v (mk k) 0) (p 0) (h_K (hf_step (mk k))) (h_M (hf_step (mk k))) (h_P (hf_step (mk k))) /\
      gradient3 n np (hf_obj (mk k)) (hf_u (mk k) 0) (hf_v (mk k) 0) (p 0) (h_qu (hf_step (mk k))) (rate_part (h_qv (hf_step (mk k)))) (hf_qp (mk k)) /\
      (forall i, (i < n)%nat -> locally 0 (fun s => hf_u (mk k) s i = prev k s i + h_dt (hf_step (mk k)) * hf_v (mk k) s i)) /\
      (forall i, (i < n)%nat -> any bcs i = false -> locally 0 (fun s => hf_res (mk k) (hf_u (mk k) s) (hf_v (mk k) s) (p s) i = 0)) /\
      (forall i, (i < n)%nat -> any bcs i = true -> locally 0 (fun s => if direct : bool then hf_u (mk k) s i = hf_u (mk k) 0 i else hf_v (mk k) s i = hf_v (mk k) 0 i)) /\
      prev (S k) = hf_u (mk k)) ->
  heat_family n np (any bcs) direct p (prev a) (map mk (seq a cnt)).
Proof.
  induction cnt as [|cnt IH]; intros a H; [exact Logic.I|]. cbn [seq map heat_family]. destruct (H a ltac:(lia)) as (H1 & H2 & H3 & H4 & H5 & H6 & H7 & H8).
  repeat (split; [assumption|]). rewrite <- H8. apply IH. intros k Hk. apply H. lia.
Qed.
Lemma total_of p (mk : nat -> heat_family_step) s : forall cnt a, heat_total p (map mk (seq a cnt)) s = sumn cnt (fun j => hf_obj (mk (a + j)%nat) (hf_u (mk (a + j)%nat) s) (hf_v (mk (a + j)%nat) s) (p s)).
Proof.
  induction cnt as [|cnt IH]; intros a; [reflexivity|]. cbn [seq map heat_total]. rewrite IH, sumn_S_l, Nat.add_0_r. f_equal. apply sumn_ext. intros j _. now rewrite Nat.add_succ_comm.
Qed.
Lemma explicit_of (mk : nat -> heat_family_step) i : forall cnt a, explicit_part (map mk (seq a cnt)) i = sumn cnt (fun j => hf_qp (mk (a + j)%nat) i).
Proof.
  induction cnt as [|cnt IH]; intros a; [reflexivity|]. cbn [seq map explicit_part]. rewrite IH, sumn_S_l, Nat.add_0_r. f_equal. apply sumn_ext. intros j _. now rewrite Nat.add_succ_comm.
Qed.
Lemma map_nth_seq {A} (l : list A) d : map (fun k => nth k l d) (seq 0 (length l)) = l.
Proof.
  induction l as [|a l IH]; [reflexivity|]. cbn [length seq map nth]. f_equal. rewrite <- seq_shift, map_map. exact IH.
Qed.

(** the reverse pass gives the derivative of the objective along the family of runs *)
Theorem heat_run_gradient params lin dts (p : R -> list R) dp (s0 : R -> warmth (St := St)) du0 (loads : R -> list push) (runs : R -> list (warmth (St := St) * bool))
  (Q : nat -> vec -> vec -> vec -> R) qu qv qp du dv :
  params_fit tsize params -> en <> FullControl ->
  (* where the runs start *)
  (forall eps, w_cycle (s0 eps) = 0%nat /\ w_saved (s0 eps) = [(w_u (s0 eps), w_rate (s0 eps))] /\ w_t (s0 eps) = w_t (s0 0)) ->
  curve n (fun eps => entries (w_u (s0 eps))) du0 -> (en = RateControl -> forall i, (i < n)%nat -> any bcs i = true -> du0 i = 0) ->
  (* what they are run with *)
  (forall eps, length (p eps) = np) -> curve np (fun eps => entries (p eps)) dp -> (forall k dt, nth_error dts k = Some dt -> dt <> 0) ->
  (forall eps, map k_dt (loads eps) = dts /\ List.Forall (fun ld => k_params ld = with_param params w (p eps)) (loads eps)) ->
  (forall eps, heat_run step1 (loads eps) (s0 eps) = Ok (runs eps)) ->
  let N := length dts in let u := fun eps k => w_u (hot (s0 eps) (runs eps) k) in let r := fun eps k => w_rate (hot (s0 eps) (runs eps) k) in
  let t := fun k => w_t (hot (s0 0) (runs 0) k) in let m := w_mem (hot_end (s0 0) (runs 0)) in
  (* they satisfy the heat balance and the boundary conditions *)
  (forall k, (k < N)%nat -> curve n (fun eps => entries (u eps k)) (du k) /\ curve n (fun eps => entries (r eps k)) (dv k)) ->
  (forall k i, (k < N)%nat -> (i < n)%nat -> any bcs i = false ->
     locally 0 (fun eps => exists L, force f n (t k) (inputs (with_param params w (p eps)) (r eps k)) m (u eps k) L /\ nth i L 0 = 0)) ->
  (forall k i, (k < N)%nat -> (i < n)%nat -> any bcs i = true -> locally 0 (fun eps => heat_obeys target en (t k) (u eps k) (r eps k) i)) ->
  (* the material, the capacity matrix and the linear solver *)
  (forall k, (k < N)%nat -> ad_joint f (t k) (inputs (inputs (with_param params w (p 0)) (r 0 k)) (u 0 k)) m) ->
  (forall k dt K M, nth_error dts k = Some dt -> tangent f n c (t k) (inputs (with_param params w (p 0)) (r 0 k)) m (u 0 k) K ->
     param_tangent f n 0 cm (t k) (inputs (with_param params w (p 0)) (r 0 k)) m (u 0 k) M ->
     lin_ok n bcs lin (fun i j => M i j + dt * K i j) /\ forall i j, (i < n)%nat -> (j < n)%nat -> M i j = M j i) ->
  (* the loads are the derivatives of the objective *)
  (forall k, (k < N)%nat -> gradient3 n np (Q k) (entries (u 0 k)) (entries (r 0 k)) (entries (p 0)) (qu k) (rate_part (qv k)) (qp k)) ->
  ((forall k, (k < N)%nat -> qv k <> None) \/ (forall k, (k < N)%nat -> qv k = None)) ->
  exists total b, heat_pass f n c cm bcs w cw lin dts (w_saved (hot_end (s0 0) (runs 0))) (with_param params w (p 0)) qu qv N (heat_turn (hot_end (s0 0) (runs 0))) = Ok (total, b) /\
    is_derive (fun eps => sumn N (fun k => Q k (entries (u eps k)) (entries (r eps k)) (entries (p eps)))) 0
      (vdot n (q_mu b) du0 + vdot np (fun i => total i + sumn N (fun k => qp k i)) dp).
Proof.
  intros Fo NF Hs0 C0 Hrate Lp Cp Ndt Hl Hr N u r t m Cur Bal Held Had Hlin HQ Uni.
  assert (Fp : forall eps, params_fit tsize (with_param params w (p eps))) by (intros eps; apply (with_param_fits f n tsize w np cw); auto).
  assert (Ffit : forall eps, List.Forall (fun ld => params_fit tsize (k_params ld)) (loads eps)).
  { intros eps. destruct (Hl eps) as [_ H]. revert H. apply List.Forall_impl. intros ld E. rewrite E. apply Fp. }
  assert (Len : forall eps, length (loads eps) = N) by (intros eps; destruct (Hl eps) as [E _]; unfold N; rewrite <- E; symmetry; apply map_length).
  assert (Ch := fun eps => heat_run_facts (loads eps) (s0 eps) (runs eps) (Ffit eps) (Hr eps)).
  assert (Step : forall eps k, (k < N)%nat -> exists ld, nth_error (loads eps) k = Some ld /\ k_params ld = with_param params w (p eps) /\ nth_error dts k = Some (k_dt ld)).
  { intros eps k Hk. destruct (nth_error (loads eps) k) as [ld|] eqn:E; [|apply nth_error_None in E; rewrite Len in E; lia]. exists ld. split; [reflexivity|].
    destruct (Hl eps) as [D H]. split; [exact (proj1 (List.Forall_forall _ _) H ld (nth_error_In _ _ E))|]. rewrite <- D, nth_error_map, E. reflexivity. }
  destruct (Ch 0) as (L1 & L2 & L3 & L4 & L5).
  destruct (heat_pass_ok f n c cm bcs tsize R0 Rm w np cw Rw lin dts (w_saved (hot_end (s0 0) (runs 0))) (with_param params w (p 0)) (Fp 0) t (u 0) (r 0) N)
    with (qu := qu) (qv := qv) (k := N) (b := heat_turn (hot_end (s0 0) (runs 0))) (a := {| ha_mu := vz; ha_rate_load := vz; ha_lambdas := [] |})
    as (steps & total & b & E & Ls & Hst & Mu & HT).
  - intros k Hk. destruct (Step 0 k Hk) as (ld & X & _ & Y). exists (k_dt ld). split; [exact Y|]. split; [exact (Ndt _ _ Y)|].
    intros j Hj. destruct (L5 k ld X) as (_ & _ & D & _). unfold t. rewrite D, <- Hj. cbn [hot_before]. lra.
  - intros k Hk. destruct (Step 0 k Hk) as (ld & X & _ & Y). destruct (L5 k ld X) as (A & B & _). split; [|split; [exact A|exact B]].
    destruct (Hs0 0) as (_ & Sv & _). rewrite L3, Sv. cbn [app nth_error]. rewrite nth_error_map. unfold u, r, hot.
    rewrite (nth_error_nth' (runs 0) (s0 0, true)) by (rewrite L1, Len; exact Hk). reflexivity.
  - lia.
  - cbn [heat_turn q_cycle]. destruct (Hs0 0) as (Z0 & _). rewrite L2, Z0, Len. reflexivity.
  - intros j Hj. cbn [heat_turn q_t]. unfold t, hot, hot_end. rewrite <- (Len 0), <- L1 in Hj. rewrite (last_nth_local (runs 0) (s0 0, true) j Hj). reflexivity.
  - reflexivity.
  - reflexivity.
  - exists total, b. split; [exact E|]. cbn [heat_turn q_mem] in Hst. fold m in Hst.
    set (d := {| h_dt := 0; h_K := fun _ _ => 0; h_M := fun _ _ => 0; h_P := fun _ _ => 0; h_qu := vz; h_qv := None |}).
    set (mk := fun k => {| hf_step := nth k steps d; hf_res := forces_of f n w np (t k) params m; hf_obj := Q k; hf_qp := qp k;
                           hf_u := fun eps => entries (u eps k); hf_v := fun eps => entries (r eps k); hf_du := du k; hf_dv := dv k |}).
    assert (Hstep : forall k, (k < N)%nat -> nth_error steps k = Some (nth k steps d)) by (intros k Hk; apply nth_error_nth'; lia).
    assert (Ms : map hf_step (map mk (seq 0 N)) = steps) by (rewrite map_map; cbn [mk hf_step]; rewrite <- Ls; apply map_nth_seq).
    set (prev := fun k eps => entries (w_u (hot_before (s0 eps) (runs eps) k))).
    assert (Fam : heat_family n np (any bcs) (directly en) (fun eps => entries (p eps)) (prev 0%nat) (map mk (seq 0 N))).
    { apply family_of. intros k Hk. cbn [mk hf_step hf_res hf_obj hf_qp hf_u hf_v hf_du hf_dv]. assert (Hk' : (k < N)%nat) by lia.
      destruct (Cur k Hk') as [Cu Cv]. destruct (Hst k _ (Hstep k Hk')) as (D1 & D2 & D3 & Lin). destruct (Step 0 k Hk') as (ld0 & X0 & _ & Y0). destruct (L5 k ld0 X0) as (Hu & Hrr & _).
      split; [exact Cu|]. split; [exact Cv|]. split; [|split; [|split; [|split; [|split]]]].
      - destruct Lin as (T1 & T2 & T3). apply (joint_rate f n c cm tsize R0 Rm w np cw Rw); auto.
      - rewrite D2, D3. now apply HQ.
      - intros i Hi. exists (mkposreal 1 Rlt_0_1). intros eps _. destruct (Step eps k Hk') as (ld & X & _ & Y). destruct (Ch eps) as (_ & _ & _ & _ & C5).
        destruct (C5 k ld X) as (_ & _ & _ & _ & Ki). rewrite D1 in Y. injection Y as ->. unfold prev, entries, u, r. now apply Ki.
      - intros i Hi Bi. destruct (Bal k i Hk' Hi Bi) as (e & He). exists e. intros eps Ee. destruct (He eps Ee) as (L & F1 & F2).
        destruct (Step eps k Hk') as (ld & X & _ & _). destruct (Ch eps) as (_ & _ & _ & _ & C5). destruct (C5 k ld X) as (Q1 & Q2 & _).
        unfold forces_of. rewrite (tab_of n (u eps k) Q1), (tab_of n (r eps k) Q2), (tab_of np _ (Lp eps)).
        assert (Fe := force_entries f n c tsize R0 _ _ _ _ _ _ (rate_fits f n cm tsize Rm _ _ (Fp eps) Q2) Q1 Hi F1). rewrite F2 in Fe. symmetry. exact Fe.
      - intros i Hi Bi. destruct (Held k i Hk' Hi Bi) as (e & He). exists e. intros eps Ee. assert (H1 := He eps Ee). assert (H2 := He 0 (ball_center 0 e)).
        unfold heat_obeys in H1, H2. unfold directly, entries. destruct en; congruence.
      - reflexivity. }
    assert (Gr := heat_gradient n np bcs lin (directly en) (fun eps => entries (p eps)) dp (map mk (seq 0 N)) (prev 0%nat) du0).
    rewrite Ms in Gr. cbv zeta in Gr. rewrite <- back_from_start, <- Mu in Gr.
    apply (is_derive_ext (heat_total (fun eps => entries (p eps)) (map mk (seq 0 N)))); [intros eps; exact (total_of (fun eps => entries (p eps)) mk eps N 0)|].
    match goal with |- is_derive _ _ ?v => match type of Gr with _ -> _ -> _ -> _ -> _ -> _ -> is_derive _ _ ?v' => replace v with v' end end.
    + apply Gr.
      * intros g Hg. apply in_map_iff in Hg as (k & <- & Hk). apply in_seq in Hk. cbn [mk hf_step]. assert (Hk' : (k < N)%nat) by lia.
        destruct (Hst k _ (Hstep k Hk')) as (D1 & _ & _ & T1 & T2 & _). split; [exact (Ndt _ _ D1)|]. exact (Hlin k _ _ _ D1 T1 T2).
      * destruct Uni as [U|U]; [left|right]; intros s Hs; apply In_nth_error in Hs as (k & Hs); assert (k < N)%nat by (rewrite <- Ls; apply nth_error_Some; congruence);
          destruct (Hst k s Hs) as (_ & _ & -> & _); now apply U.
      * exact Cp.
      * exact C0.
      * intros Ed. apply Hrate. destruct en; [discriminate|reflexivity|congruence].
      * exact Fam.
    + f_equal. apply vdot_ext. intros i _. rewrite HT, explicit_of. reflexivity.
Qed.
End Family.
