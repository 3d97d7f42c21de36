(** * Reactions and tangents of quasi-static steps (C73) *)
From Coq Require Import NArith ZArith Reals List Lia Lra Bool.
From Coquelicot Require Import Coquelicot.
From Verif Require Import Prelude DofCodec Sums Restriction Csr Kernels FunctionalModel FunctionalGrad Assembly Tensor BoundaryElim Newton QuasiStatic QuasiNewton
  MatAlg Materials ShapeAware ShapeDefs WeakForm WeakFormFacts WeakFormPhysics.
Import ListNotations.
Local Open Scope R_scope.

(** ** the supports carry the loads *)
(** sum of the reactions in direction [i] over the nodes constrained in that direction *)
Definition support (o : ordering) (nn n : nat) (bc : nat -> bool) (L : list R) (i : nat) : R :=
  sumn nn (fun a => if bc (dof_number o nn n a i) then nth (dof_number o nn n a i) L 0 else 0).
Lemma dof_lt o nn n a i : (a < nn)%nat -> (i < n)%nat -> (dof_number o nn n a i < nn * n)%nat.
Proof. intros Ha Hi. unfold dof_number. destruct o; nia. Qed.
Lemma sumn_abs_le n (g : nat -> R) e : 0 <= e -> (forall i, (i < n)%nat -> Rabs (g i) <= e) -> Rabs (sumn n g) <= INR n * e.
Proof.
  intros He. induction n as [|n IH]; intros H; [cbn; rewrite Rabs_R0; lra|]. cbn [sumn]. rewrite S_INR.
  eapply Rle_trans; [apply Rabs_triang|]. assert (A := IH (fun i Hi => H i (Nat.lt_lt_succ_r _ _ Hi))). assert (B := H n ltac:(lia)). lra.
Qed.
Lemma support_total o nn n bc L i eps : (i < n)%nat -> 0 <= eps -> (forall k, (k < nn * n)%nat -> bc k = false -> Rabs (nth k L 0) <= eps) ->
  Rabs (support o nn n bc L i - total o nn n L i) <= INR nn * eps.
Proof.
  intros Hi He H. unfold support, total. rewrite <- sumn_minus. apply sumn_abs_le; [exact He|]. intros a Ha.
  destruct (bc (dof_number o nn n a i)) eqn:E.
  - replace (_ - _) with 0 by ring. now rewrite Rabs_R0.
  - rewrite Rminus_0_l, Rabs_Ropp. apply H; [now apply dof_lt|exact E].
Qed.
Section Supports.
Context {St : Type}.
Variable n : nat.
Variable D : dim23 n.
Variable f : functional St.
Variables (o : ordering) (nn : nat).
Variable c : csr.
Variable bc : nat -> bool.
Variable target : R -> vec.
Variable tsize : nat -> nat.
Hypothesis R0 : ready f (nn * n) c tsize.
Hypothesis HA : all_fit f.
Hypothesis HL : layout f o nn n.
Hypothesis HU : unity f.
Theorem supports ld s s' opt lin terms pos jac : sound (nn * n) tsize s -> fitting tsize (l_others ld) ->
  (l_warm ld = true -> keeps_unit_rows (nn * n) bc (l_lin ld)) -> keeps_unit_rows (nn * n) bc lin -> l_solver ld = newton_solver (nn * n) lin opt ->
  step f (nn * n) c bc target ld s = Ok (s', true) -> 0 <= o_abs opt ->
  solid_residual n f (s_t s') (inputs (l_others ld) (s_u s')) (s_mem s) terms pos jac ->
  exists x0 L0, begins f (nn * n) c bc target ld s x0 /\ force f (nn * n) (s_t s') (l_others ld) (s_mem s) (tab (nn * n) x0) L0 /\
  forall i, (i < n)%nat -> Rabs (support o nn n bc (s_react s') i - over_points f (fun k Ig g G r le q => match nth_error terms k with
    | Some T => solid_force n T (s_t s') (pos k g le q) (jac k g le q) (qf_inputs G g (Es_of f (inputs (l_others ld) (s_u s')) Ig) le q 0%nat)
        (qf_inputs G g (Es_of f (inputs (l_others ld) (s_u s')) Ig) le q 1%nat) i
    | None => 0 end)) <= INR nn * Rmax (o_rel opt * norm2 (nn * n) (zeroed bc (entries L0))) (o_abs opt).
Proof.
  intros Sd Fo LK LK' Es E Ha Hs. destruct (newton_equilibrium f (nn * n) c bc target tsize R0 ld s s' opt lin Sd Fo LK LK' Es E) as (_ & x0 & L0 & B & C & H).
  exists x0, L0. split; [exact B|]. split; [exact C|]. intros i Hi.
  destruct (step_advances f (nn * n) c bc target tsize R0 ld s s' true Sd Fo E) as [A Sd'].
  destruct (adv_react _ _ _ _ _ _ _ _ _ A) as (m' & Ev).
  rewrite <- (momentum n D f (s_t s') None false (inputs (l_others ld) (s_u s')) (s_mem s) m' (s_react s') o nn terms pos jac
    (wf_inputs f (nn * n) c tsize R0 _ _ Fo (proj1 Sd')) HA HL Ev Hs i Hi HU).
  apply support_total; [exact Hi| |exact H]. eapply Rle_trans; [exact Ha|apply Rmax_r].
Qed.
End Supports.

(** ** the parameters which the warm start differentiates at *)
Section Previous.
Context {St : Type}.
Variable f : functional St.
Variables (n : nat) (c : csr) (bc : nat -> bool) (target : R -> vec) (tsize : nat -> nat).
Lemma chain_cycle loads : forall (s : state (St := St)) l, chain f n c bc target loads s l -> (0 < s_cycle s)%nat -> forall s', In s' l -> s_prev s' = s_prev s.
Proof.
  induction loads as [|ld loads IH]; intros s l C H s' I'; destruct l as [|x l]; try contradiction.
  destruct C as [(ok & A) C]. assert (P : s_prev x = s_prev s).
  { rewrite (adv_prev _ _ _ _ _ _ _ _ _ A). unfold previous. destruct (Nat.eqb_spec (s_cycle s) 0); [lia|reflexivity]. }
  destruct I' as [<-|I']; [exact P|]. rewrite <- P. apply (IH x l C); [|exact I']. rewrite (adv_cycle _ _ _ _ _ _ _ _ _ A). lia.
Qed.
Theorem previous_is_first ld loads (s : state (St := St)) l : ready f n c tsize -> sound n tsize s -> List.Forall (fun x => fitting tsize (l_others x)) (ld :: loads) ->
  s_cycle s = 0%nat -> run_steps f n c bc target (ld :: loads) s = Ok l -> forall s' ld', In s' l -> previous ld' s' = l_others ld.
Proof.
  intros R0 Sd Fo Z E s' ld' I'. assert (C := run_chain f n c bc target tsize R0 _ _ _ Sd Fo E). destruct l as [|x l]; [contradiction|].
  destruct C as [(ok & A) C]. assert (P : s_prev x = l_others ld).
  { rewrite (adv_prev _ _ _ _ _ _ _ _ _ A). unfold previous. now rewrite Z. }
  assert (Q : (0 < s_cycle s')%nat /\ s_prev s' = l_others ld).
  { destruct I' as [<-|I'].
    - split; [rewrite (adv_cycle _ _ _ _ _ _ _ _ _ A); lia|exact P].
    - split; [|rewrite <- P; apply (chain_cycle loads x l C); [rewrite (adv_cycle _ _ _ _ _ _ _ _ _ A); lia|exact I']].
      assert (G : forall loads (y : state (St := St)) l, chain f n c bc target loads y l -> forall z, In z l -> (0 < s_cycle z)%nat).
      { clear. induction loads as [|a loads IH]; intros y l C z I'; destruct l as [|w l]; try contradiction. destruct C as [(ok & A) C].
        destruct I' as [<-|I']; [rewrite (adv_cycle _ _ _ _ _ _ _ _ _ A); lia|]. now apply (IH w l C). }
      now apply (G loads x l C). }
  destruct Q as [Q1 Q2]. unfold previous. destruct (Nat.eqb_spec (s_cycle s') 0); [lia|exact Q2].
Qed.
End Previous.

(** ** the tangent is the derivative of the nodal forces *)
Section Tangent.
Context {St : Type}.
Variable f : functional St.
Variables (n : nat) (c : csr) (tsize : nat -> nat).
Hypothesis R0 : ready f n c tsize.
Lemma shift_inputs others u dx eps : length u = n -> inputs others (tab n (fun i => nth i u 0 + eps * nth i dx 0)) = shiftL (inputs others u) 0 dx eps.
Proof. intros H. apply FunctionalExtensionality.functional_extensionality. intros [|w]; unfold shiftL; cbn [inputs Nat.eqb]; [now rewrite H|reflexivity]. Qed.
Theorem tangent_derivative t others m u dx A (L : R -> list R) i : fitting tsize others -> length u = n -> length dx = n ->
  ad_correct_at f 0 t (inputs others u) m -> tangent f n c t others m u A ->
  (forall eps, force f n t others m (tab n (fun j => nth j u 0 + eps * nth j dx 0)) (L eps)) -> (i < n)%nat ->
  is_derive (fun eps : R => nth i (L eps) 0) 0 (mvec n A (entries dx) i).
Proof.
  intros Fo Hu Hd Had (L0 & m' & V & E & B & ->) HL Hi.
  destruct (evaluate_quiet f n c tsize R0 t (Some 0%nat) others u m m Fo Hu (same_refl m)) as (L1 & m1 & E1 & _ & _ & _ & Em).
  rewrite E1 in E. injection E as _ Q. subst m1. assert (S := mem_sum_stored f 0 t false (inputs others u) m). rewrite <- Em in S.
  pose proof R0 as (W & Ts & WA & SE & VC & Z & Bd).
  assert (WR := stored_written f t (inputs others u) m m' S).
  destruct (assembled_agrees f 0 m' c n n WA SE WR VC Z Bd) as (V' & B' & Ag). rewrite B in B'. injection B' as <-.
  destruct (Ag dx Hd) as (act & A1 & A2 & A3). destruct (action_written f 0 m' dx n n WA WR Hd) as (act' & A1' & _ & A3').
  rewrite A1 in A1'. injection A1' as <-.
  assert (J : mvec n (csr_entry c V) (entries dx) i = jvp_sum f 0 m' dx 0 (f_integrals f) i).
  { rewrite <- A3', <- A3 by exact Hi. rewrite (spmv_entries c V dx i n Hd). reflexivity. }
  rewrite J. apply (is_derive_ext (fun eps : R => res_sum f t (shiftL (inputs others u) 0 dx eps) m 0 (f_integrals f) i)).
  - intros eps. destruct (HL eps) as (m2 & E2).
    destruct (evaluate_quiet f n c tsize R0 t None others _ m m Fo (tab_length n (fun j => nth j u 0 + eps * nth j dx 0)) (same_refl m)) as (L2 & m3 & E3 & _ & _ & E4 & _).
    rewrite E3 in E2. injection E2 as Q _. rewrite <- Q, E4 by exact Hi. now rewrite (shift_inputs others u dx eps Hu).
  - apply (is_derive_res_sum f 0 t (inputs others u) dx m m' n).
    + apply (wf_inputs f n c tsize R0 others u Fo Hu).
    + cbn [inputs]. congruence.
    + exact Had.
    + exact S.
Qed.
End Tangent.
