(** * Runs and reverse passes on a divided mesh (C79) *)
From Coq Require Import NArith ZArith Reals List Lia Lra Bool Permutation FunctionalExtensionality.
From Coquelicot Require Import Coquelicot.
From Verif Require Import Prelude DofCodec Sums Restriction Csr Kernels FunctionalModel FunctionalGrad FunctionalTotal Assembly Tensor MatAlg BoundaryElim Adjoint AdjointDeriv Ode
  ParallelModel ParallelMatrix QuasiStatic QuasiAdjoint Transient HeatBack MotionBack Programs ProgramRuns ProgramBack.
Import ListNotations.
Local Open Scope R_scope.

(** ** the programs differentiate with respect to the arguments they should, and their vectors have the right sizes *)
Section Then.
Variable nt : nat -> nat.
Variable W : nat -> Prop.
Fixpoint asks_then {A} (Q : A -> Prop) (p : program A) : Prop :=
  match p with
  | Done a => Q a
  | Stop _ => True
  | Evaluate t upd X k => (forall w, length (X w) = nt w) /\ forall L, asks_then Q (k L)
  | Differentiate t w upd X k => W w /\ (forall v, length (X v) = nt v) /\ forall L M, asks_then Q (k L M)
  end.
Lemma then_asks {A} Q (p : program A) : asks_then Q p -> asks nt W p.
Proof. induction p as [a|why|t upd X k IH|t w upd X k IH]; cbn [asks_then asks]; auto; [intros [H1 H2]|intros (H1 & H2 & H3)]; auto. Qed.
Lemma then_after {A B} (Q : A -> Prop) (Q' : B -> Prop) (p : program A) h : asks_then Q p -> (forall a, Q a -> asks_then Q' (h a)) -> asks_then Q' (after p h).
Proof.
  intros Hp Hh. induction p as [a|why|t upd X k IH|t w upd X k IH]; cbn [after asks_then] in *; auto; [destruct Hp as [H1 H2]|destruct Hp as (H1 & H2 & H3)]; auto.
Qed.
Definition any {A} (a : A) : Prop := True.
Lemma then_ask pres pjac : (forall x, asks_then any (pres x)) -> (forall x, asks_then any (pjac x)) -> forall s, asks_then any (p_ask pres pjac s).
Proof.
  intros Hr Hj. induction s as [x b|x k IH|x k IH]; cbn [p_ask]; [exact Logic.I| |]; (eapply then_after; [first [apply Hr|apply Hj]|]); auto.
Qed.
End Then.
Arguments any {A} a /.

Section Sizes.
Variable n : nat.
Variable tsize : nat -> nat.
Hypothesis T0 : tsize 0%nat = n.
Variable bc : nat -> bool.
Variable target : R -> vec.
Variable W : nat -> Prop.
Hypothesis W0 : W 0%nat.
Notation asks_then := (asks_then tsize W).

Lemma inputs_sized others u : fitting tsize others -> length u = n -> forall w, length (inputs others u w) = tsize w.
Proof. intros Fo Hu [|w]; cbn [inputs]; [congruence|apply Fo]. Qed.
Lemma inputs_tab others x : fitting tsize others -> forall w, length (inputs others (tab n x) w) = tsize w.
Proof. intros Fo. apply inputs_sized; [exact Fo|apply tab_length]. Qed.
Lemma jacobian_then t others x : fitting tsize others -> asks_then any (p_jacobian n t others x).
Proof. intros Fo. split; [exact W0|]. split; [now apply inputs_tab|]. intros; exact Logic.I. Qed.
Lemma residual_then t others x : fitting tsize others -> asks_then any (p_residual n bc t others x).
Proof. intros Fo. split; [now apply inputs_tab|]. intros; exact Logic.I. Qed.
Lemma solve_then t others s : fitting tsize others -> asks_then any (p_solve n bc t others s).
Proof.
  intros Fo. apply then_ask; intros x; [now apply residual_then|]. eapply then_after; [now apply jacobian_then|]. intros A _. exact Logic.I.
Qed.
Definition kept_sizes (s : module) : Prop := (0 < s_cycle s)%nat -> fitting tsize (s_prev s).
Lemma step_then ld s : kept_sizes s -> fitting tsize (l_others ld) -> asks_then (fun p => kept_sizes (fst p)) (p_step n bc target ld s).
Proof.
  intros Ks Fo. assert (Fp : fitting tsize (previous ld s)). { unfold previous. destruct (s_cycle s) eqn:E; cbn [Nat.eqb]; [exact Fo|apply Ks; lia]. }
  unfold p_step. eapply then_after.
  - unfold p_warm_up. destruct (l_warm ld); [|exact (Logic.I : any _)]. split; [now apply inputs_tab|]. intros L. eapply then_after; [now apply jacobian_then|]. intros A _. exact (Logic.I : any _).
  - intros x0 _. eapply then_after; [now apply solve_then|]. intros q _. split; [now apply inputs_tab|]. intros L. cbn [ProgramSizes.asks_then]. intros _. cbn [fst s_prev]. exact Fp.
Qed.
Lemma run_then loads : forall s, kept_sizes s -> List.Forall (fun ld => fitting tsize (l_others ld)) loads -> asks_then any (p_run n bc target loads s).
Proof.
  induction loads as [|ld loads IH]; intros s Ks Fo; [exact Logic.I|]. apply Forall_cons_iff in Fo as [F1 F2]. cbn [p_run].
  eapply then_after; [now apply step_then|]. intros p Kp. eapply then_after; [now apply IH|]. intros l _. exact Logic.I.
Qed.

(** transient problems: argument 1 is the rate *)
Hypothesis T1 : tsize 1%nat = n.
Hypothesis W1 : W 1%nat.
Lemma rate_sized params a : params_fit tsize params -> length a = n -> fitting tsize (inputs params a).
Proof. intros P H [|w]; cbn [inputs]; [congruence|apply P]. Qed.
Lemma rate_tab params x : params_fit tsize params -> fitting tsize (inputs params (tab n x)).
Proof. intros P. apply rate_sized; [exact P|apply tab_length]. Qed.
Lemma mass_then t params u a : params_fit tsize params -> asks_then any (p_mass n t params u a).
Proof. intros P. split; [exact W1|]. split; [apply inputs_tab; now apply rate_tab|]. intros; exact Logic.I. Qed.
Lemma solve_rate_then t params c0 w s : params_fit tsize params -> asks_then any (p_solve_rate n bc t params c0 w s).
Proof.
  intros P. apply then_ask; intros x; [apply residual_then; now apply rate_tab|]. unfold p_rate_jacobian.
  eapply then_after; [apply jacobian_then; now apply rate_tab|]. intros K _. eapply then_after; [now apply mass_then|]. intros M _. exact Logic.I.
Qed.
Lemma ode_solve_then en t c0 c1 u v params sv : params_fit tsize params -> asks_then any (p_ode_solve n bc target en t c0 c1 u v params sv).
Proof. intros P. unfold p_ode_solve. destruct (setup2 _ en t c0 c1 u v); [now apply solve_rate_then|exact Logic.I]. Qed.
Lemma dynamic_step_then it en ld s : params_fit tsize (k_params ld) -> asks_then any (p_dynamic_step n bc target it en ld s).
Proof.
  intros P. unfold p_dynamic_step. eapply (then_after _ _ any).
  - destruct it as [beta gamma|]; cbn [p_move]; unfold p_newmark_move, p_euler_move.
    + eapply (then_after _ _ any); [destruct (d_old s); [exact Logic.I|now apply ode_solve_then]|]. intros p0 _.
      eapply (then_after _ _ any); [now apply ode_solve_then|]. intros p1 _. exact Logic.I.
    + eapply (then_after _ _ any); [now apply ode_solve_then|]. intros p1 _. exact Logic.I.
  - intros [[[x v] a] ok] _. split; [apply inputs_tab; now apply rate_tab|]. intros L. exact Logic.I.
Qed.
Lemma dynamic_run_then it en loads : forall s, List.Forall (fun ld => params_fit tsize (k_params ld)) loads -> asks_then any (p_dynamic_run n bc target it en loads s).
Proof.
  induction loads as [|ld loads IH]; intros s Fo; [exact Logic.I|]. apply Forall_cons_iff in Fo as [F1 F2]. cbn [p_dynamic_run].
  eapply then_after; [now apply dynamic_step_then|]. intros p _. eapply then_after; [now apply IH|]. intros l _. exact Logic.I.
Qed.
Lemma heat_step_then en ld s : params_fit tsize (k_params ld) -> asks_then any (p_heat_step n bc target en ld s).
Proof. intros P. unfold p_heat_step. eapply then_after; [now apply solve_rate_then|]. intros p _. exact Logic.I. Qed.
Lemma heat_run_then en loads : forall s, List.Forall (fun ld => params_fit tsize (k_params ld)) loads -> asks_then any (p_heat_run (p_heat_step n bc target en) loads s).
Proof.
  induction loads as [|ld loads IH]; intros s Fo; [exact Logic.I|]. apply Forall_cons_iff in Fo as [F1 F2]. cbn [p_heat_run].
  eapply then_after; [now apply heat_step_then|]. intros p _. eapply then_after; [now apply IH|]. intros l _. exact Logic.I.
Qed.

(** reverse passes *)
Variable bcs : list dofset.
Variable lin : mat -> vec -> vec.
Variable dts : list R.
Variable w : nat.
Lemma reverse_pass_then saved others loads : W (S w) -> fitting tsize others -> (forall u, In u saved -> length u = n) ->
  forall k b, asks_then any (p_reverse_pass n bcs w lin dts saved others loads k b).
Proof.
  intros Hw Fo Hs. induction k as [|k IH]; intros b; [exact Logic.I|]. cbn [p_reverse_pass].
  apply (then_after _ _ (fun b1 : going_back => length (b_u b1) = n)).
  - unfold p_reverse_step. destruct (b_cycle _) as [|j]; [exact Logic.I|]. destruct (nth_error dts j); [|exact Logic.I].
    destruct (nth_error saved (S j)) as [u|] eqn:E; [|exact Logic.I]. eapply then_after; [now apply jacobian_then|]. intros A _. cbn [ProgramSizes.asks_then b_u].
    apply Hs. eapply nth_error_In; exact E.
  - intros b1 Hb. apply (then_after _ _ any); [split; [exact Hw|]; split; [now apply inputs_sized|]; intros; exact Logic.I|].
    intros g _. eapply then_after; [apply IH|]. intros rest _. exact Logic.I.
Qed.
Lemma heat_pass_then saved params qu qv : W (S (S w)) -> params_fit tsize params -> (forall u r, In (u, r) saved -> length u = n /\ length r = n) ->
  forall k b, asks_then any (p_heat_pass n bcs w lin dts saved params qu qv k b).
Proof.
  intros Hw P Hs. induction k as [|k IH]; intros b; [exact Logic.I|]. cbn [p_heat_pass].
  apply (then_after _ _ (fun b1 : cooling unit => length (q_u b1) = n /\ length (q_rate b1) = n)).
  - unfold p_heat_back. destruct (q_cycle _) as [|j]; [exact Logic.I|]. destruct (nth_error dts j) as [dt|]; [|exact Logic.I].
    destruct (nth_error saved (S j)) as [[u r]|] eqn:E; [|exact Logic.I]. assert (H := Hs u r (nth_error_In _ _ E)).
    eapply then_after; [apply jacobian_then; apply rate_sized; [exact P|apply H]|]. intros K _. eapply then_after; [now apply mass_then|]. intros M _.
    destruct (Req_EM_T dt 0); [exact Logic.I|]. exact H.
  - intros b1 [Hb1 Hb2]. apply (then_after _ _ any); [split; [exact Hw|]; split; [apply inputs_sized; [now apply rate_sized|exact Hb1]|]; intros; exact Logic.I|].
    intros g _. eapply then_after; [apply IH|]. intros rest _. exact Logic.I.
Qed.
Lemma motion_pass_then saved params qu qv qa : W (S (S w)) -> params_fit tsize params -> (forall u v a, In (u, v, a) saved -> length u = n /\ length a = n) ->
  forall k b, asks_then any (p_motion_pass n bcs w lin dts saved params qu qv qa k b).
Proof.
  intros Hw P Hs. induction k as [|k IH]; intros b; [exact Logic.I|]. cbn [p_motion_pass].
  apply (then_after _ _ (fun b1 : receding unit => length (z_u b1) = n /\ length (z_a b1) = n)).
  - unfold p_motion_back. destruct (z_cycle _) as [|j]; [exact Logic.I|]. destruct (_ || _)%bool; [exact Logic.I|].
    destruct (nth_error saved (S j)) as [[[u v] a]|] eqn:E; [|exact Logic.I]. assert (H := Hs u v a (nth_error_In _ _ E)).
    eapply then_after; [apply jacobian_then; apply rate_sized; [exact P|apply H]|]. intros K _. eapply then_after; [now apply mass_then|]. intros M _. exact H.
  - intros b1 [Hb1 Hb2]. apply (then_after _ _ any); [split; [exact Hw|]; split; [apply inputs_sized; [now apply rate_sized|exact Hb1]|]; intros; exact Logic.I|].
    intros g _. eapply then_after; [apply IH|]. intros rest _. exact Logic.I.
Qed.
End Sizes.

(** ** on a divided mesh *)
Section Divided.
Context {St : Type}.
Notation mem := (mem St). Notation rank := (rank St).
Variable S : rank.
Variable f : functional St.
Variable n : nat.
Variable tsize : nat -> nat.
Variable parts : list (rank * (nat -> nat -> list nat)).
Variable orders : nat -> list (list entry).
Variable cs : nat -> csr.
Variable W : nat -> Prop.
Hypothesis Sh : shared W S f n tsize parts orders cs.
Hypothesis T0 : tsize 0%nat = n.
Hypothesis W0 : W 0%nat.
Notation on_parts p := (together (map fst parts) n tsize orders p).

Lemma shared_ready : ready f n (cs 0%nat) tsize.
Proof.
  destruct Sh as [(U1 & U2 & U3 & _) (Hs & _) _ (orders1 & Pt)]. destruct (Pt 0%nat W0) as (o & _ & Tb & Et).
  destruct (table_there S 0 o Tb) as (c & E & Vc). rewrite Et in E. injection E as <-. destruct Tb as (Wa & Se & _ & _ & _ & Z & B & _).
  rewrite U1 in *. rewrite U2 in *. rewrite U3 in Wa. rewrite T0 in Wa. split; [|repeat (split; [assumption|]); assumption].
  destruct Hs as (Wf & _). rewrite U2, U3 in Wf. rewrite <- U1. intros Ig HI. apply ParallelFacts.local_in in HI. exact (Wf Ig HI).
Qed.
Theorem divided_quasi_static bc target loads (s : state (St := St)) ms : QuasiStatic.sound n tsize s ->
  List.Forall (fun ld => fitting tsize (l_others ld)) loads -> ParallelModel.remember S parts (s_mem s) ms ->
  exists l ms', run_steps f n (cs 0%nat) bc target loads s = Ok l /\ on_parts (p_run n bc target loads (bare s)) ms = Ok (map bare l, ms') /\
    ParallelModel.remember S parts (s_mem (final s l)) ms'.
Proof.
  intros Sd Fo Hm. destruct (run_ok f n (cs 0%nat) bc target tsize shared_ready loads s Sd Fo) as (l & E & _).
  assert (X := divided_run W S f n tsize parts orders cs _ Sh (then_asks _ _ _ _ (run_then n tsize T0 bc target W W0 loads (bare s) (proj2 Sd) Fo)) (s_mem s) ms Hm).
  rewrite (alone_run f n (cs 0%nat) bc target cs eq_refl), E in X. cbn [bindO agree] in X. destruct (on_parts _ ms) as [[l' ms']| |]; try contradiction.
  destruct X as [<- X]. eauto.
Qed.
Theorem divided_reverse bcs lin dts saved others w loads k (b : backward (St := St)) ms : W (Datatypes.S w) -> fitting tsize others ->
  (forall u, In u saved -> length u = n) -> ParallelModel.remember S parts (b_mem b) ms ->
  match reverse_pass f n (cs 0%nat) bcs w (cs (Datatypes.S w)) lin dts saved others loads k b, on_parts (p_reverse_pass n bcs w lin dts saved others loads k (bare_back b)) ms with
  | Ok g, Ok (g', _) => g = g'
  | Refused, Refused => True
  | UB, UB => True
  | _, _ => False
  end.
Proof.
  intros Hw Fo Hs Hm. rewrite <- (alone_reverse_pass f n (cs 0%nat) (cs (Datatypes.S w)) bcs w lin dts cs eq_refl saved others eq_refl).
  assert (X := divided_run W S f n tsize parts orders cs _ Sh (then_asks _ _ _ _ (reverse_pass_then n tsize T0 W W0 bcs lin dts w saved others loads Hw Fo Hs k (bare_back b))) (b_mem b) ms Hm).
  destruct (alone f n cs _ (b_mem b)) as [[g m]| |]; destruct (on_parts _ ms) as [[g' ms']| |]; cbn in X |- *; tauto.
Qed.
Hypothesis T1 : tsize 1%nat = n.
Hypothesis W1 : W 1%nat.
Theorem divided_motion bc target it en loads (s : motion (St := St)) ms : List.Forall (fun ld => params_fit tsize (k_params ld)) loads -> ParallelModel.remember S parts (d_mem s) ms ->
  agree S parts (bindO (dynamic_run f n (cs 0%nat) (cs 1%nat) bc target it en loads s) (fun l => Ok (map bare_motion l, d_mem (motion_end s l))))
    (on_parts (p_dynamic_run n bc target it en loads (bare_motion s)) ms).
Proof.
  intros Fo Hm. rewrite <- (alone_dynamic_run f n (cs 0%nat) (cs 1%nat) bc target cs eq_refl eq_refl). apply (divided_run W); [exact Sh| |exact Hm].
  eapply then_asks. apply (dynamic_run_then n tsize T0); auto.
Qed.
Theorem divided_heat bc target en loads (s : warmth (St := St)) ms : List.Forall (fun ld => params_fit tsize (k_params ld)) loads -> ParallelModel.remember S parts (w_mem s) ms ->
  agree S parts (bindO (heat_run (heat_step f n (cs 0%nat) (cs 1%nat) bc target en) loads s) (fun l => Ok (map bare_heat l, w_mem (heat_end s l))))
    (on_parts (p_heat_run (p_heat_step n bc target en) loads (bare_warmth s)) ms).
Proof.
  intros Fo Hm. rewrite <- (alone_heat_run f n cs (p_heat_step n bc target en)) by (intros; now apply alone_heat_step). apply (divided_run W); [exact Sh| |exact Hm].
  eapply then_asks. apply (heat_run_then n tsize T0); auto.
Qed.
Theorem divided_heat_pass bcs lin dts saved params w qu qv k (b : cooling St) ms : W (Datatypes.S (Datatypes.S w)) -> params_fit tsize params ->
  (forall u r, In (u, r) saved -> length u = n /\ length r = n) -> ParallelModel.remember S parts (q_mem b) ms ->
  agree S parts (bindO (heat_pass f n (cs 0%nat) (cs 1%nat) bcs w (cs (Datatypes.S (Datatypes.S w))) lin dts saved params qu qv k b) (fun r => Ok (fst r, bare_cooling (snd r), q_mem (snd r))))
    (on_parts (p_heat_pass n bcs w lin dts saved params qu qv k (bare_cooling b)) ms).
Proof.
  intros Hw P Hs Hm. rewrite <- (alone_heat_pass f n (cs 0%nat) (cs 1%nat) (cs (Datatypes.S (Datatypes.S w))) bcs w lin dts cs eq_refl eq_refl eq_refl). apply (divided_run W); [exact Sh| |exact Hm].
  eapply then_asks. eapply heat_pass_then; eassumption.
Qed.
Theorem divided_motion_pass bcs lin dts saved params w qu qv qa k (b : receding St) ms : W (Datatypes.S (Datatypes.S w)) -> params_fit tsize params ->
  (forall u v a, In (u, v, a) saved -> length u = n /\ length a = n) -> ParallelModel.remember S parts (z_mem b) ms ->
  agree S parts (bindO (motion_pass f n (cs 0%nat) (cs 1%nat) bcs w (cs (Datatypes.S (Datatypes.S w))) lin dts saved params qu qv qa k b) (fun r => Ok (fst r, bare_receding (snd r), z_mem (snd r))))
    (on_parts (p_motion_pass n bcs w lin dts saved params qu qv qa k (bare_receding b)) ms).
Proof.
  intros Hw P Hs Hm. rewrite <- (alone_motion_pass f n (cs 0%nat) (cs 1%nat) (cs (Datatypes.S (Datatypes.S w))) bcs w lin dts cs eq_refl eq_refl eq_refl). apply (divided_run W); [exact Sh| |exact Hm].
  eapply then_asks. eapply motion_pass_then; eassumption.
Qed.
End Divided.
