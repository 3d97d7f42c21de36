(** * Derivative of the nodal forces by state, rate and parameter together (C77) *)
From Coq Require Import NArith ZArith Reals List Lia Lra Bool FunctionalExtensionality.
From Coquelicot Require Import Coquelicot.
From Verif Require Import Prelude DofCodec Sums Restriction Csr Kernels FunctionalModel FunctionalGrad FunctionalTotal Assembly Tensor MatAlg BoundaryElim Adjoint AdjointDeriv QuasiStatic QuasiAdjoint Transient.
Import ListNotations.
Local Open Scope R_scope.

Lemma with_param_rate params w p a : inputs (with_param params w p) a = with_param (inputs params a) (S w) p.
Proof. apply functional_extensionality. intros [|v]; reflexivity. Qed.

Section Joint.
Context {St : Type}.
Notation mem := (mem St).
Variable f : functional St.
Variable n : nat.
Variable c cm : csr.
Variable tsize : nat -> nat.
Hypothesis R0 : ready f n c tsize.
Hypothesis Rm : ready_for f n tsize 0 n cm.
Variable w np : nat.
Variable cw : csr.
(** the parameter is argument [S (S w)] of the residual *)
Hypothesis Rw : ready_for f n tsize (S w) np cw.

Lemma with_param_fits params p : params_fit tsize params -> length p = np -> params_fit tsize (with_param params w p).
Proof. intros Fo Hp v. unfold with_param. destruct (Nat.eqb_spec v w) as [->|]; [|apply Fo]. destruct Rw as (E & _). congruence. Qed.

(** a derivative with respect to argument [S v], evaluated and assembled *)
Lemma derivative_found v tot cv t others u (m : mem) : ready_for f n tsize v tot cv -> fitting tsize others -> length u = n ->
  exists L m' V, evaluate f t (Some (S v)) false (inputs others u) n m = Ok (L, m') /\ assemble f (S v) m' cv = Ok V /\
    param_tangent f n v cv t others m u (csr_entry cv V) /\ same_material m' m.
Proof.
  intros (_ & WA & SE & VC & Bd) Fo Hu. destruct (evaluate_quiet f n c tsize R0 t (Some (S v)) others u m m Fo Hu (same_refl m)) as (L & m' & E & Sm & _ & _ & Em).
  assert (Sd := mem_sum_stored f (S v) t false (inputs others u) m). rewrite <- Em in Sd. pose proof R0 as (_ & _ & _ & _ & _ & Z & _).
  destruct (assembled_agrees f (S v) m' cv n tot WA SE (written_of f (S v) _ _ _ _ Sd) VC Z Bd) as (V & B & _).
  exists L, m', V. split; [exact E|]. split; [exact B|]. split; [|exact Sm]. exists L, m', V. auto.
Qed.
Lemma derivative_moves v cv t others u m1 m2 P : fitting tsize others -> length u = n -> same_material m1 m2 ->
  param_tangent f n v cv t others m1 u P -> param_tangent f n v cv t others m2 u P.
Proof.
  intros Fo V2 Sm (L2 & m3 & V & X1 & X2 & X3).
  destruct (evaluate_quiet f n c tsize R0 t (Some (S v)) others u m2 m2 Fo V2 (same_refl _)) as (L4 & m4 & Y1 & Y2 & _ & _ & Y5).
  destruct (evaluate_quiet f n c tsize R0 t (Some (S v)) others u m1 m1 Fo V2 (same_refl _)) as (L5 & m5 & Z1 & Z2 & _ & _ & Z5).
  rewrite Z1 in X1. injection X1 as _ <-. exists L4, m4, V. split; [exact Y1|]. split; [|exact X3]. rewrite <- X2.
  assert (S4 := mem_sum_stored f (S v) t false (inputs others u) m2). rewrite <- Y5 in S4.
  assert (S5 := mem_sum_stored f (S v) t false (inputs others u) m1). rewrite <- Z5 in S5.
  exact (assemble_same_for f (S v) cv _ _ _ _ _ _ S4 S5 (same_sym _ _ Sm)).
Qed.
Lemma tangent_shifts t others u m1 m2 A : fitting tsize others -> length u = n -> same_material m1 m2 ->
  tangent f n c t others m1 u A -> tangent f n c t others m2 u A.
Proof.
  intros Fo V2 Sm (L2 & m3 & V & X1 & X2 & X3).
  destruct (evaluate_quiet f n c tsize R0 t (Some 0%nat) others u m2 m2 Fo V2 (same_refl _)) as (L4 & m4 & Y1 & Y2 & _ & _ & Y5).
  destruct (evaluate_quiet f n c tsize R0 t (Some 0%nat) others u m1 m1 Fo V2 (same_refl _)) as (L5 & m5 & Z1 & Z2 & _ & _ & Z5).
  rewrite Z1 in X1. injection X1 as _ <-. exists L4, m4, V. split; [exact Y1|]. split; [|exact X3]. rewrite <- X2.
  assert (S4 := mem_sum_stored f 0 t false (inputs others u) m2). rewrite <- Y5 in S4.
  assert (S5 := mem_sum_stored f 0 t false (inputs others u) m1). rewrite <- Z5 in S5.
  exact (assemble_same_for f 0 c _ _ _ _ _ _ S4 S5 (same_sym _ _ Sm)).
Qed.

(** the nodal forces as a function of state, rate and parameter *)
Definition forces_of (t : R) (params : nat -> list R) (m : mem) (u r p : vec) : vec :=
  fun i => res_sum f t (inputs (inputs (with_param params w (tab np p)) (tab n r)) (tab n u)) m 0 (f_integrals f) i.
Lemma force_entries t others m u L i : fitting tsize others -> length u = n -> (i < n)%nat -> force f n t others m u L ->
  nth i L 0 = res_sum f t (inputs others u) m 0 (f_integrals f) i.
Proof.
  intros Fo Hu Hi (m1 & E). destruct (evaluate_quiet f n c tsize R0 t None others u m m Fo Hu (same_refl m)) as (L' & m2 & E2 & _ & _ & V & _).
  rewrite E2 in E. injection E as <- _. now apply V.
Qed.

Theorem joint_rate t params (m : mem) u r p K M P : params_fit tsize params -> length u = n -> length r = n -> length p = np ->
  ad_joint f t (inputs (inputs (with_param params w p) r) u) m ->
  tangent f n c t (inputs (with_param params w p) r) m u K -> param_tangent f n 0 cm t (inputs (with_param params w p) r) m u M ->
  param_tangent f n (S w) cw t (inputs (with_param params w p) r) m u P ->
  jacobian3 n np (forces_of t params m) (entries u) (entries r) (entries p) K M P.
Proof.
  intros Fo Hu Hr Hp Had (L0 & m0 & V0 & E0 & B0 & ->) (L1 & m1 & V1 & E1 & B1 & ->) (L2 & m2 & V2 & E2 & B2 & ->) cu du cv dv cp dp Cu Cv Cp Su Sv Sp i Hi.
  pose proof (rate_fits f n cm tsize Rm _ r (with_param_fits params p Fo Hp) Hr) as Fp. pose proof R0 as (Wf & Ts & WA & SE & VC & Z & Bd).
  pose proof Rm as (Tm & WAm & SEm & VCm & Bdm). pose proof Rw as (Tw & WAw & SEw & VCw & Bdw).
  set (Arg := inputs (inputs (with_param params w p) r) u) in *.
  assert (Sto : forall v L' m', evaluate f t (Some v) false Arg n m = Ok (L', m') -> stored_at f v t Arg m m').
  { intros v L' m' E. destruct (evaluate_quiet f n c tsize R0 t (Some v) _ u m m Fp Hu (same_refl m)) as (L'' & m'' & E' & _ & _ & _ & Em).
    unfold Arg in E. rewrite E' in E. injection E as _ <-. rewrite Em. apply mem_sum_stored. }
  assert (S0 := Sto _ _ _ E0). assert (S1 := Sto _ _ _ E1). assert (S2 := Sto _ _ _ E2). clear Sto.
  set (Lc := fun eps => inputs (inputs (with_param params w (tab np (cp eps))) (tab n (cv eps))) (tab n (cu eps))).
  assert (L00 : Lc 0 = Arg).
  { unfold Lc, Arg. rewrite (tab_same n (cu 0) (entries u)) by exact Su. rewrite (tab_same n (cv 0) (entries r)) by exact Sv. rewrite (tab_same np (cp 0) (entries p)) by exact Sp.
    now rewrite !tab_of. }
  set (dL := fun a => match a with O => tab n du | S O => tab n dv | S (S v) => if Nat.eqb v w then tab np dp else [] end).
  destruct (bound_active f n c tsize R0) as (W & HW).
  set (ms := fun a => if Nat.eqb a 0 then m0 else if Nat.eqb a 1 then m1 else if Nat.eqb a (S (S w)) then m2 else mem_sum f t (Some a) false (Lc 0) 0 (f_integrals f) m).
  assert (HdL : forall a j, is_derive (fun eps => nth j (Lc eps a) 0) 0 (nth j (dL a) 0)).
  { assert (T : forall N (cc : R -> vec) dd j, curve N cc dd -> is_derive (fun eps => nth j (tab N (cc eps)) 0) 0 (nth j (tab N dd) 0)).
    { intros N cc dd j H. destruct (Nat.lt_ge_cases j N) as [X|X].
      - rewrite nth_tab by exact X. apply (is_derive_ext (fun eps => cc eps j)); [intros eps; now rewrite nth_tab|now apply H].
      - rewrite nth_tab0 by exact X. apply (is_derive_ext (fun _ => 0)); [intros eps; now rewrite nth_tab0|apply (is_derive_const (K:=R_AbsRing) (V:=R_NormedModule))]. }
    intros [|[|v]] j; unfold Lc, dL; cbn [inputs]; [now apply T|now apply T|]. unfold with_param. destruct (Nat.eqb v w); [now apply T|].
    replace (nth j [] 0) with 0 by (now destruct j). apply (is_derive_const (K:=R_AbsRing) (V:=R_NormedModule)). }
  assert (X := total_derivative f t Lc dL m ms (Nat.max W (S (S (S w)))) i).
  assert (X' : is_derive (fun eps => res_sum f t (Lc eps) m 0 (f_integrals f) i) 0 (sumn (Nat.max W (S (S (S w)))) (fun a => jvp_sum f a (ms a) (dL a) 0 (f_integrals f) i))).
  { apply X; [|exact HdL|now rewrite L00|].
    - intros Ig HI. destruct (HW Ig HI) as [ND B]. split; [exact ND|]. intros v Hv. specialize (B v Hv). lia.
    - intros a _. unfold ms. destruct (Nat.eqb_spec a 0) as [->|]; [now rewrite L00|]. destruct (Nat.eqb_spec a 1) as [->|]; [now rewrite L00|].
      destruct (Nat.eqb_spec a (S (S w))) as [->|]; [now rewrite L00|apply mem_sum_stored]. }
  clear X. assert (Sum : sumn (Nat.max W (S (S (S w)))) (fun a => jvp_sum f a (ms a) (dL a) 0 (f_integrals f) i) =
    jvp_sum f 0 m0 (tab n du) 0 (f_integrals f) i + jvp_sum f 1 m1 (tab n dv) 0 (f_integrals f) i + jvp_sum f (S (S w)) m2 (tab np dp) 0 (f_integrals f) i).
  { rewrite <- (sumn_arguments (Nat.max W (S (S (S w)))) [0%nat; 1%nat; S (S w)] (fun a => jvp_sum f a (ms a) (dL a) 0 (f_integrals f) i)).
    - cbn [length sumn nth]. unfold ms, dL. cbn [Nat.eqb]. rewrite !Nat.eqb_refl. ring.
    - repeat constructor; cbn; intuition discriminate.
    - intros v [<-|[<-|[<-|[]]]]; lia.
    - intros v Hv. apply jvp_sum_zero. intros j. unfold dL. destruct v as [|[|v]]; [exfalso; apply Hv; cbn; tauto|exfalso; apply Hv; cbn; tauto|].
      destruct (Nat.eqb_spec v w) as [->|]; [|now destruct j]. exfalso. apply Hv. cbn. tauto. }
  rewrite Sum in X'.
  rewrite <- (assembled_rows f n c tsize R0 0 m0 c V0 n (tab n du) i WA SE (written_of f 0 _ _ _ _ S0) VC Bd B0 (tab_length n du) Hi) in X'.
  rewrite <- (assembled_rows f n c tsize R0 1 m1 cm V1 n (tab n dv) i WAm SEm (written_of f 1 _ _ _ _ S1) VCm Bdm B1 (tab_length n dv) Hi) in X'.
  rewrite <- (assembled_rows f n c tsize R0 (S (S w)) m2 cw V2 np (tab np dp) i WAw SEw (written_of f (S (S w)) _ _ _ _ S2) VCw Bdw B2 (tab_length np dp) Hi) in X'.
  unfold rows.
  rewrite (sumn_ext n (fun j => csr_entry c V0 i j * nth j (tab n du) 0) (fun j => csr_entry c V0 i j * du j)) in X' by (intros j Hj; now rewrite nth_tab).
  rewrite (sumn_ext n (fun j => csr_entry cm V1 i j * nth j (tab n dv) 0) (fun j => csr_entry cm V1 i j * dv j)) in X' by (intros j Hj; now rewrite nth_tab).
  rewrite (sumn_ext np (fun j => csr_entry cw V2 i j * nth j (tab np dp) 0) (fun j => csr_entry cw V2 i j * dp j)) in X' by (intros j Hj; now rewrite nth_tab). exact X'.
Qed.
End Joint.
