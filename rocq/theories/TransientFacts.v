(** * The equation of motion and the heat balance at the end of a step (C76) *)
From Coq Require Import NArith ZArith Reals List Lia Lra Bool FunctionalExtensionality.
From Coquelicot Require Import Coquelicot.
From Verif Require Import Prelude DofCodec Sums Restriction Csr Kernels FunctionalModel FunctionalGrad FunctionalTotal Assembly Tensor BoundaryElim Newton Adjoint AdjointDeriv Ode
  QuasiStatic QuasiNewton QuasiAdjoint Transient.
Import ListNotations.
Local Open Scope R_scope.

(** ** specification *)
(** the integrator's relation between the states at the two ends of a step; [a] is the acceleration at its beginning *)
Definition kinematics (n : nat) (it : integrator) (dt : R) (u v : list R) (a : vec) (u' v' a' : list R) : Prop := forall i, (i < n)%nat ->
  match it with
  | Newmark beta gamma =>
      nth i u' 0 = nth i u 0 + dt * nth i v 0 + dt * dt * ((1 / 2 - beta) * a i + beta * nth i a' 0) /\
      nth i v' 0 = nth i v 0 + dt * ((1 - gamma) * a i + gamma * nth i a' 0)
  | BackwardEuler => nth i u' 0 = nth i u 0 + dt * nth i v' 0 /\ nth i v' 0 = nth i v 0 + dt * nth i a' 0
  end.
(** how strongly the end displacement depends on the end acceleration *)
Definition lead (it : integrator) (dt : R) : R := match it with Newmark beta _ => beta * dt * dt | BackwardEuler => dt * dt end.
(** the centred difference quotient of a prescribed motion *)
Definition slope (target : R -> vec) (eps t : R) (i : nat) : R := (target (t + eps) i - target (t - eps) i) / (2 * eps).
Definition curvature (target : R -> vec) (eps t : R) (i : nat) : R := (target (t - eps) i - 2 * target t i + target (t + eps) i) / (eps * eps).
(** what is prescribed at a constrained dof *)
Definition obeys (en : enforcement) (target : R -> vec) (t : R) (u v : list R) (i : nat) : Prop :=
  match en with DirectControl => nth i u 0 = target t i | _ => nth i v 0 = slope target eps2 t i end.

Section Facts.
Context {St : Type}.
Notation mem := (mem St).
Variable f : functional St.
Variable n : nat.
Variable c cm : csr.
Variable bc : nat -> bool.
Variable target : R -> vec.
Variable tsize : nat -> nat.
Hypothesis R0 : ready f n c tsize.
Hypothesis Rm : ready_for f n tsize 0 n cm.
Notation held := (held_dofs n bc target).

Lemma rate_slope eps t i : bc i = true -> rate held eps t i = slope target eps t i.
Proof. intros E. unfold rate, slope, U. cbn [p_ess p_g held_dofs]. now rewrite E. Qed.
Lemma second_curvature eps t i : bc i = true -> second held eps t i = curvature target eps t i.
Proof. intros E. unfold second, curvature, U. cbn [p_ess p_g held_dofs]. now rewrite E. Qed.

(** what a trustworthy solver finds *)
Lemma pure_balance t params c0 w m accept sv g a : params_fit tsize params -> trustworthy n bc accept sv ->
  (forall F J, of_motion f n c cm bc m t params c0 w F J -> pure F J (sv g) = (a, true)) ->
  exists L0 L, force f n t (inputs params (tab n g)) m (tab n (vadd c0 w g)) L0 /\ force f n t (inputs params (tab n a)) m (tab n (vadd c0 w a)) L /\
    accept (zeroed bc (entries L0)) (zeroed bc (entries L)) /\ forall i, (i < n)%nat -> bc i = true -> a i = g i.
Proof.
  intros P TW H. destruct (motion_exists f n c cm bc tsize R0 Rm t params c0 w m P) as (F & J & HFJ). assert (E := H F J HFJ). destruct HFJ as [HF HJ].
  destruct (HF g) as (L0 & A0 & B0). destruct (HF a) as (L & A & B). destruct (TW F J g a) as [T1 T2].
  - intros y i Hi Eb. destruct (HF y) as (Ly & _ & ->). unfold zeroed. now rewrite Eb.
  - intros y. destruct (HJ y) as (K & M & _ & _ & ->). eexists. reflexivity.
  - exact E.
  - exists L0, L. rewrite B0, B in T1. auto.
Qed.
Lemma force_unique t others m u L L' : fitting tsize others -> length u = n -> force f n t others m u L -> force f n t others m u L' -> L = L'.
Proof. intros Fo Hu (m' & E) H. apply (force_value f n c tsize R0 t None others u m m L m' L' Fo Hu (same_refl m) E H). Qed.

Lemma setup_direct t c0 c1 u v : c0 <> 0 -> exists st, setup2 held DirectControl t c0 c1 u v = Some st /\ (forall i, su st i = u i) /\
  (forall i, sguess st i = if bc i then (target t i - u i) / c0 else 0).
Proof.
  intros N. unfold setup2. rewrite (is_zero_no _ N). cbn [negb orb andb]. eexists. split; [reflexivity|]. cbn [su sguess]. unfold merge. cbn [p_ess held_dofs]. split; intros i.
  - now destruct (bc i).
  - destruct (bc i) eqn:E; [|reflexivity]. unfold U. cbn [p_ess p_g held_dofs]. now rewrite E.
Qed.
Lemma setup_rate t c0 c1 u v : c1 <> 0 -> exists st, setup2 held RateControl t c0 c1 u v = Some st /\ (forall i, su st i = u i) /\
  (forall i, sguess st i = if bc i then (slope target eps2 t i - v i) / c1 else 0).
Proof.
  intros N. unfold setup2. rewrite (is_zero_no _ N). cbn [negb]. rewrite orb_true_r. cbn [andb]. eexists. split; [reflexivity|]. cbn [su sguess]. unfold merge. cbn [p_ess held_dofs]. split; intros i.
  - now destruct (bc i).
  - destruct (bc i) eqn:E; [|reflexivity]. now rewrite rate_slope.
Qed.

(** an implicit solve: the predicted displacement [u + c0 a] and the acceleration [a] balance, and the boundary conditions hold *)
Lemma implicit_balance en t c0 c1 u v params sv m accept a : en <> FullControl -> params_fit tsize params -> trustworthy n bc accept sv ->
  match en with DirectControl => c0 <> 0 | _ => c1 <> 0 end -> rate_found f n c cm bc target en t c0 c1 u v params sv m a true ->
  exists L0 L, force f n t (inputs params (tab n (fun i => if bc i then a i else 0))) m (tab n (fun i => u i + c0 * (if bc i then a i else 0))) L0 /\
    force f n t (inputs params (tab n a)) m (tab n (vadd c0 u a)) L /\ accept (zeroed bc (entries L0)) (zeroed bc (entries L)) /\
    forall i, (i < n)%nat -> bc i = true -> match en with DirectControl => u i + c0 * a i = target t i | _ => v i + c1 * a i = slope target eps2 t i end.
Proof.
  intros NF P TW N (st & Es & H).
  assert (X : exists g, (forall i, su st i = u i) /\ forall i, sguess st i = if bc i then g i else 0).
  { destruct en; [| |congruence].
    - destruct (setup_direct t c0 c1 u v N) as (st' & E' & A & B). rewrite Es in E'. injection E' as <-. now exists (fun i => (target t i - u i) / c0).
    - destruct (setup_rate t c0 c1 u v N) as (st' & E' & A & B). rewrite Es in E'. injection E' as <-. now exists (fun i => (slope target eps2 t i - v i) / c1). }
  destruct X as (g & Su & Sg).
  destruct (pure_balance t params c0 (su st) m accept sv (sguess st) a P TW H) as (L0 & L & A & B & C & D).
  assert (G : forall i, (i < n)%nat -> sguess st i = if bc i then a i else 0).
  { intros i Hi. rewrite Sg. destruct (bc i) eqn:E; [|reflexivity]. rewrite (D i Hi E), Sg. now rewrite E. }
  exists L0, L. split; [|split; [|split; [exact C|]]].
  - rewrite (tab_same n (sguess st) (fun i => if bc i then a i else 0)) in A by exact G.
    rewrite (tab_same n (vadd c0 (su st) (sguess st)) (fun i => u i + c0 * (if bc i then a i else 0))) in A; [exact A|].
    intros i Hi. unfold vadd. now rewrite Su, G.
  - rewrite (tab_same n (vadd c0 (su st) a) (vadd c0 u a)) in B; [exact B|]. intros i Hi. unfold vadd. now rewrite Su.
  - intros i Hi Eb. destruct en; [| |congruence].
    + destruct (setup_direct t c0 c1 u v N) as (st' & E' & _ & B'). rewrite Es in E'. injection E' as <-. rewrite (D i Hi Eb), B', Eb. field. exact N.
    + destruct (setup_rate t c0 c1 u v N) as (st' & E' & _ & B'). rewrite Es in E'. injection E' as <-. rewrite (D i Hi Eb), B', Eb. field. exact N.
Qed.

(** the acceleration at the start of the first Newmark step: forces balance at the given displacement, corrected at constrained dofs *)
Theorem initial_balance en t u v params sv m accept a : params_fit tsize params -> trustworthy n bc accept sv ->
  rate_found f n c cm bc target en t 0 0 u v params sv m a true ->
  exists L0 L, let x := tab n (fun i => if bc i then target t i else u i) in
    force f n t (inputs params (tab n (fun i => if bc i then a i else 0))) m x L0 /\ force f n t (inputs params (tab n a)) m x L /\
    accept (zeroed bc (entries L0)) (zeroed bc (entries L)) /\ forall i, (i < n)%nat -> bc i = true -> a i = curvature target eps2 t i.
Proof.
  intros P TW (st & Es & H). unfold setup2 in Es. rewrite is_zero_0 in Es. cbn [negb orb] in Es. injection Es as <-. cbn [su sguess] in H.
  destruct (pure_balance t params 0 _ m accept sv _ a P TW H) as (L0 & L & A & B & C & D).
  assert (X : forall y, tab n (vadd 0 (merge held (U held t) u) y) = tab n (fun i => if bc i then target t i else u i)).
  { intros y. apply tab_same. intros i Hi. unfold vadd, merge, U. cbn [p_ess p_g held_dofs]. destruct (bc i); ring. }
  assert (D' : forall i, (i < n)%nat -> bc i = true -> a i = curvature target eps2 t i).
  { intros i Hi E. rewrite (D i Hi E). unfold merge. cbn [p_ess held_dofs]. rewrite E. now apply second_curvature. }
  rewrite X in A, B. exists L0, L. cbv zeta. split; [|auto].
  rewrite (tab_same n _ (fun i => if bc i then a i else 0)) in A; [exact A|]. intros i Hi. unfold merge. cbn [p_ess held_dofs]. destruct (bc i) eqn:E; [|reflexivity].
  rewrite second_curvature by exact E. now rewrite D'.
Qed.

(** a Newmark step of length zero keeps displacement and velocity and finds the acceleration which balances the forces at the present
    time, with the constrained dofs where their conditions put them *)
Theorem still_balance beta gamma en ld s s' accept : en <> FullControl -> params_fit tsize (k_params ld) -> k_dt ld = 0 ->
  trustworthy n bc accept (k_solver ld) -> dynamic_step f n c cm bc target (Newmark beta gamma) en ld s = Ok (s', true) ->
  d_t s' = d_t s /\ (forall i, (i < n)%nat -> nth i (d_u s') 0 = nth i (d_u s) 0 /\ nth i (d_v s') 0 = nth i (d_v s) 0) /\
  exists L0 L, let x := tab n (fun i => if bc i then target (d_t s') i else nth i (d_u s') 0) in
    force f n (d_t s') (inputs (k_params ld) (tab n (fun i => if bc i then nth i (d_a s') 0 else 0))) (d_mem s) x L0 /\
    force f n (d_t s') (inputs (k_params ld) (d_a s')) (d_mem s) x L /\
    accept (zeroed bc (entries L0)) (zeroed bc (entries L)) /\ forall i, (i < n)%nat -> bc i = true -> nth i (d_a s') 0 = curvature target eps2 (d_t s') i.
Proof.
  intros NF P Z TW E. assert (Mv := dynamic_step_moves f n c cm bc target tsize R0 Rm (Newmark beta gamma) en ld s s' true P (or_intror Z) E).
  assert (T := mv_time _ _ _ _ _ _ _ _ _ _ _ _ Mv). rewrite Z, Rplus_0_r in T. split; [exact T|].
  destruct (mv_goes _ _ _ _ _ _ _ _ _ _ _ _ Mv) as (x & v & a & G & Ux & Uv & Ua & _).
  unfold goes in G. rewrite Z, !Rmult_0_r, Rplus_0_r, <- T in G. destruct G as (a0 & ok0 & ok1 & _ & Ok & G & Pt). cbv zeta in G, Pt.
  symmetry in Ok. apply andb_true_iff in Ok as [_ ->].
  assert (Xv : (forall i, x i = entries (d_u s) i) /\ forall i, v i = entries (d_v s) i).
  { destruct en; [| |congruence]; cbn [patch] in Pt; injection Pt as -> ->; unfold vadd; split; intros i; ring. }
  destruct Xv as [Ex Ev].
  assert (Su : forall i, (i < n)%nat -> nth i (d_u s') 0 = nth i (d_u s) 0 /\ nth i (d_v s') 0 = nth i (d_v s) 0).
  { intros i Hi. rewrite Ux, Uv, !nth_tab by exact Hi. split; [apply Ex|apply Ev]. }
  split; [exact Su|].
  destruct (initial_balance en _ _ _ _ _ _ accept a P TW G) as (L0 & L & A & B & C & D). cbv zeta in A, B. exists L0, L. cbv zeta.
  assert (EX : tab n (fun i => if bc i then target (d_t s') i else nth i (d_u s') 0) =
    tab n (fun i => if bc i then target (d_t s') i else vadd 0 (vadd 0 (entries (d_u s)) (entries (d_v s))) a0 i)).
  { apply tab_same. intros i Hi. destruct (bc i); [reflexivity|]. destruct (Su i Hi) as [-> _]. unfold vadd, entries. ring. }
  rewrite EX. split; [|split; [rewrite Ua; exact B|split; [exact C|]]].
  - rewrite (tab_same n (fun i => if bc i then nth i (d_a s') 0 else 0) (fun i => if bc i then a i else 0)); [exact A|].
    intros i Hi. destruct (bc i); [|reflexivity]. rewrite Ua. now apply nth_tab.
  - intros i Hi Eb. rewrite Ua, nth_tab by exact Hi. now apply D.
Qed.

(** ** the equation of motion at the end of a step *)
Theorem motion_balance it en ld s s' accept : en <> FullControl -> params_fit tsize (k_params ld) -> step_allowed it en (k_dt ld) ->
  trustworthy n bc accept (k_solver ld) -> dynamic_step f n c cm bc target it en ld s = Ok (s', true) ->
  (exists a, match it with Newmark _ _ => first_acceleration f n c cm bc target en ld s a true | BackwardEuler => True end /\
     kinematics n it (k_dt ld) (d_u s) (d_v s) a (d_u s') (d_v s') (d_a s')) /\
  (forall i, (i < n)%nat -> bc i = true -> obeys en target (d_t s') (d_u s') (d_v s') i) /\
  force f n (d_t s') (inputs (k_params ld) (d_a s')) (d_mem s) (d_u s') (d_react s') /\
  exists L0, let a1 := fun i => if bc i then nth i (d_a s') 0 else 0 in
    force f n (d_t s') (inputs (k_params ld) (tab n a1)) (d_mem s) (tab n (fun i => nth i (d_u s') 0 + lead it (k_dt ld) * (a1 i - nth i (d_a s') 0))) L0 /\
    accept (zeroed bc (entries L0)) (zeroed bc (entries (d_react s'))).
Proof.
  intros NF P Al TW E. assert (Mv := dynamic_step_moves f n c cm bc target tsize R0 Rm it en ld s s' true P (or_introl Al) E).
  assert (T := mv_time _ _ _ _ _ _ _ _ _ _ _ _ Mv). assert (Fr := mv_react _ _ _ _ _ _ _ _ _ _ _ _ Mv).
  destruct (mv_goes _ _ _ _ _ _ _ _ _ _ _ _ Mv) as (x & v & a & G & Ux & Uv & Ua & _).
  set (dt := k_dt ld) in *. set (u0 := entries (d_u s)) in *. set (v0 := entries (d_v s)) in *.
  assert (X : exists x1 v1 c1, rate_found f n c cm bc target en (d_t s') (lead it dt) c1 x1 v1 (k_params ld) (k_solver ld) (d_mem s) a true /\
    match en with DirectControl => lead it dt <> 0 | _ => c1 <> 0 end /\
    (forall i, x i = x1 i + lead it dt * a i) /\ (forall i, v i = v1 i + c1 * a i) /\
    exists a0, match it with Newmark _ _ => first_acceleration f n c cm bc target en ld s a0 true | BackwardEuler => True end /\
     kinematics n it dt (d_u s) (d_v s) a0 (tab n x) (tab n v) (tab n a)).
  { rewrite T. unfold goes in G. fold dt u0 v0 in G. destruct it as [beta gamma|]; cbn [lead step_allowed] in *.
    - destruct G as (a0 & ok0 & ok1 & F0 & Eo & G & Ep). symmetry in Eo. apply andb_true_iff in Eo as [-> ->].
      assert (Ep' : (x, v) = (vadd (beta * dt * dt) (vadd ((0.5 - beta) * dt * dt) (vadd dt u0 v0) a0) a, vadd (gamma * dt) (vadd ((1 - gamma) * dt) v0 a0) a))
        by (destruct en; [exact Ep|exact Ep|congruence]).
      injection Ep' as Ex Ev.
      exists (vadd ((0.5 - beta) * dt * dt) (vadd dt u0 v0) a0), (vadd ((1 - gamma) * dt) v0 a0), (gamma * dt).
      split; [exact G|]. split; [destruct en; exact Al|]. split; [intros i; now rewrite Ex|]. split; [intros i; now rewrite Ev|]. exists a0. split; [exact F0|].
      intros i Hi. rewrite !nth_tab by exact Hi. rewrite Ex, Ev. unfold vadd, u0, v0, entries. split; lra.
    - destruct G as (G & Ex & Ev). exists (vadd dt u0 v0), v0, dt. split; [exact G|].
      assert (N : dt <> 0) by (destruct en; exact Al). split; [destruct en; auto; now apply Rmult_integral_contrapositive_currified|].
      split; [intros i; rewrite Ex; unfold vadd; ring|]. split; [intros i; now rewrite Ev|]. exists (fun _ => 0). split; [exact Logic.I|].
      intros i Hi. rewrite !nth_tab by exact Hi. rewrite Ex, Ev. unfold vadd, u0, v0, entries. split; ring. }
  destruct X as (x1 & v1 & c1 & Rf & N & Ex & Ev & Kin).
  destruct (implicit_balance en (d_t s') (lead it dt) c1 x1 v1 (k_params ld) (k_solver ld) (d_mem s) accept a NF P TW N Rf) as (L0 & L & A & B & C & D).
  split; [rewrite Ux, Uv, Ua; exact Kin|]. split; [|split; [exact Fr|]].
  - intros i Hi Eb. assert (Di := D i Hi Eb). unfold obeys. destruct en; [| |congruence].
    + rewrite Ux, nth_tab by exact Hi. now rewrite Ex.
    + rewrite Uv, nth_tab by exact Hi. now rewrite Ev.
  - exists L0. cbv zeta. rewrite (tab_same n (fun i => if bc i then nth i (d_a s') 0 else 0) (fun i => if bc i then a i else 0)).
    2:{ intros i Hi. rewrite Ua, nth_tab by exact Hi. reflexivity. }
    rewrite (tab_same n (fun i => nth i (d_u s') 0 + _) (fun i => x1 i + lead it dt * (if bc i then a i else 0))).
    2:{ intros i Hi. rewrite Ux, Ua, !nth_tab by exact Hi. rewrite Ex. ring. }
    split; [exact A|]. replace (d_react s') with L; [exact C|].
    apply (force_unique (d_t s') (inputs (k_params ld) (tab n a)) (d_mem s) (tab n x)).
    + apply (fits_tab f n cm tsize Rm). exact P.
    + apply tab_length.
    + rewrite (tab_same n x (vadd (lead it dt) x1 a)); [exact B|]. intros i Hi. apply Ex.
    + rewrite Ux, Ua in Fr. exact Fr.
Qed.
(** with Newton's method: at every free dof the forces balance up to the tolerance *)
Theorem newton_motion it en ld s s' o lin : en <> FullControl -> params_fit tsize (k_params ld) -> step_allowed it en (k_dt ld) ->
  keeps_unit_rows n bc lin -> k_solver ld = newton_solver n lin o -> dynamic_step f n c cm bc target it en ld s = Ok (s', true) ->
  exists L0, let a1 := fun i => if bc i then nth i (d_a s') 0 else 0 in
    force f n (d_t s') (inputs (k_params ld) (tab n a1)) (d_mem s) (tab n (fun i => nth i (d_u s') 0 + lead it (k_dt ld) * (a1 i - nth i (d_a s') 0))) L0 /\
    forall i, (i < n)%nat -> bc i = false -> Rabs (nth i (d_react s') 0) <= Rmax (o_rel o * norm2 n (zeroed bc (entries L0))) (o_abs o).
Proof.
  intros NF P Al LK Es E.
  destruct (motion_balance it en ld s s' (newton_accepts n o) NF P Al) as (_ & _ & _ & L0 & A & B); [rewrite Es; now apply newton_trustworthy|exact E|].
  exists L0. cbv zeta. split; [exact A|]. intros i Hi Eb. eapply Rle_trans; [|exact B].
  assert (X := entry_norm n (zeroed bc (entries (d_react s'))) i Hi). unfold zeroed at 1 in X. rewrite Eb in X. exact X.
Qed.

(** ** the Jacobian which the solver is given is the derivative of the residual which it is given *)
Lemma with_rate params a p : with_param (inputs params a) 0 p = inputs params p.
Proof. apply functional_extensionality. intros [|w]; reflexivity. Qed.
Theorem motion_jacobian t params c0 w m x dx K M (L : R -> list R) i : params_fit tsize params ->
  ad_joint f t (inputs (inputs params (tab n x)) (tab n (vadd c0 w x))) m ->
  tangent f n c t (inputs params (tab n x)) m (tab n (vadd c0 w x)) K -> param_tangent f n 0 cm t (inputs params (tab n x)) m (tab n (vadd c0 w x)) M ->
  (forall eps, force f n t (inputs params (tab n (fun j => x j + eps * dx j))) m (tab n (vadd c0 w (fun j => x j + eps * dx j))) (L eps)) -> (i < n)%nat ->
  is_derive (fun eps : R => nth i (L eps) 0) 0 (mvec n (fun i j => M i j + c0 * K i j) dx i).
Proof.
  intros P Ad HK HM HL Hi. set (u := tab n (vadd c0 w x)) in *. set (a := tab n x) in *.
  assert (Fo : fitting tsize (inputs params a)) by (apply (rate_fits f n cm tsize Rm); [exact P|apply tab_length]).
  assert (Jd := joint_derivative f n c tsize R0 0 n cm Rm t (inputs params a) m u a K M Fo (tab_length n _) (tab_length n _)). rewrite with_rate in Jd.
  specialize (Jd Ad HK HM).
  assert (Lin : forall (A B : R), is_derive (fun eps : R => A + eps * B) 0 B) by (intros A B; auto_derive; [exact Logic.I|ring]).
  assert (D := Jd (fun eps => vadd c0 w (fun j => x j + eps * dx j)) (fun j => c0 * dx j) (fun _ => vz) vz (fun eps j => x j + eps * dx j) dx).
  cbv beta in D. assert (X : is_derive (fun s => nodal f n 0 n t (inputs params a) m (vadd c0 w (fun j => x j + s * dx j)) (fun j => x j + s * dx j) i) 0
    (rows n n K (fun j => c0 * dx j) i + rows n n (fun _ _ => 0) vz i + rows n n M dx i)).
  { apply D; [| | | | | |exact Hi].
    - intros j _. unfold vadd. auto_derive; [exact Logic.I|ring].
    - intros j _. apply (is_derive_const (K := R_AbsRing) (V := R_NormedModule)).
    - intros j _. apply Lin.
    - intros j Hj. unfold entries, u. rewrite nth_tab by exact Hj. unfold vadd. ring.
    - intros j _. reflexivity.
    - intros j Hj. unfold entries, a. rewrite nth_tab by exact Hj. ring. }
  clear D. replace (mvec n (fun i j => M i j + c0 * K i j) dx i) with (rows n n K (fun j => c0 * dx j) i + rows n n (fun _ _ => 0) vz i + rows n n M dx i).
  - apply (is_derive_ext (fun s => nodal f n 0 n t (inputs params a) m (vadd c0 w (fun j => x j + s * dx j)) (fun j => x j + s * dx j) i)); [|exact X].
    intros eps. unfold nodal. rewrite with_rate. destruct (HL eps) as (m1 & E).
    destruct (evaluate_quiet f n c tsize R0 t None (inputs params (tab n (fun j => x j + eps * dx j))) (tab n (vadd c0 w (fun j => x j + eps * dx j))) m m
      (fits_tab f n cm tsize Rm _ _ P) (tab_length n _) (same_refl m)) as (L1 & m2 & E1 & _ & _ & V & _).
    rewrite E1 in E. injection E as <- _. now rewrite V.
  - unfold rows, mvec. rewrite (sumn_zero n (fun j => 0 * vz j)) by (intros; ring). rewrite Rplus_0_r, <- sumn_plus. apply sumn_ext. intros j _. ring.
Qed.

(** ** heat *)
Lemma setup1_direct t dt u : dt <> 0 -> let g := setup1 held DirectControl t dt u in (forall i, fst g i = u i) /\
  forall i, bc i = true -> snd g i = (target t i - u i) / dt.
Proof.
  intros N. unfold setup1. rewrite (is_zero_no _ N). cbn [negb fst snd]. split; [reflexivity|]. intros i E. unfold merge, U. cbn [p_ess p_g held_dofs]. now rewrite E.
Qed.
Lemma setup1_rate t dt u : dt <> 0 -> let g := setup1 held RateControl t dt u in (forall i, fst g i = u i) /\
  forall i, bc i = true -> snd g i = slope target eps1 t i.
Proof.
  intros N. unfold setup1. rewrite (is_zero_no _ N). cbn [negb fst snd]. split; [reflexivity|]. intros i E. unfold merge. cbn [p_ess held_dofs]. rewrite E. now apply rate_slope.
Qed.
Definition heat_obeys (en : enforcement) (t : R) (u r : list R) (i : nat) : Prop :=
  match en with DirectControl => nth i u 0 = target t i | _ => nth i r 0 = slope target eps1 t i end.
Theorem heat_balance en ld s s' accept : en <> FullControl -> params_fit tsize (k_params ld) -> k_dt ld <> 0 -> trustworthy n bc accept (k_solver ld) ->
  heat_step f n c cm bc target en ld s = Ok (s', true) ->
  (forall i, (i < n)%nat -> nth i (w_u s') 0 = nth i (w_u s) 0 + k_dt ld * nth i (w_rate s') 0) /\
  (forall i, (i < n)%nat -> bc i = true -> heat_obeys en (w_t s') (w_u s') (w_rate s') i) /\
  exists L0 L, let r0 := fun i => if bc i then nth i (w_rate s') 0 else nth i (w_rate s) 0 in
    force f n (w_t s') (inputs (k_params ld) (tab n r0)) (w_mem s) (tab n (fun i => nth i (w_u s) 0 + k_dt ld * r0 i)) L0 /\
    force f n (w_t s') (inputs (k_params ld) (w_rate s')) (w_mem s) (w_u s') L /\
    accept (zeroed bc (entries L0)) (zeroed bc (entries L)).
Proof.
  intros NF P N TW E. destruct (heat_step_ok f n c cm bc target tsize R0 Rm en ld s P) as (s1 & ok & E1 & T & _ & _ & _ & k & H & Hr & Hu).
  rewrite E1 in E. injection E as -> ->. set (dt := k_dt ld) in *. set (u0 := entries (w_u s)) in *. cbv zeta in H.
  set (g := setup1 held en (w_t s') dt u0) in *.
  destruct (pure_balance (w_t s') (k_params ld) dt (fst g) (w_mem s) accept (k_solver ld) _ k P TW H) as (L0 & L & A & B & C & D).
  assert (Gu : forall i, fst g i = u0 i).
  { unfold g. destruct en; [apply (setup1_direct (w_t s') dt u0 N)|apply (setup1_rate (w_t s') dt u0 N)|congruence]. }
  assert (Gk : forall i, (i < n)%nat -> merge held (snd g) (entries (w_rate s)) i = if bc i then nth i (w_rate s') 0 else nth i (w_rate s) 0).
  { intros i Hi. rewrite Hr, nth_tab by exact Hi. unfold merge. cbn [p_ess held_dofs]. destruct (bc i) eqn:Eb; [|reflexivity]. rewrite (D i Hi Eb). unfold merge. cbn [p_ess held_dofs]. now rewrite Eb. }
  split; [|split].
  - intros i Hi. rewrite Hu, Hr, !nth_tab by exact Hi. reflexivity.
  - intros i Hi Eb. assert (Di := D i Hi Eb). unfold merge in Di. cbn [p_ess held_dofs] in Di. rewrite Eb in Di. unfold heat_obeys. destruct en; [| |congruence].
    + rewrite Hu, nth_tab by exact Hi. unfold vadd. rewrite Di. unfold g. rewrite (proj2 (setup1_direct (w_t s') dt u0 N) i Eb). field. exact N.
    + rewrite Hr, nth_tab by exact Hi. rewrite Di. unfold g. apply (proj2 (setup1_rate (w_t s') dt u0 N) i Eb).
  - exists L0, L. cbv zeta. split; [|split; [|exact C]].
    + rewrite (tab_same n _ _ Gk) in A.
      rewrite (tab_same n (vadd dt (fst g) (merge held (snd g) (entries (w_rate s)))) (fun i => nth i (w_u s) 0 + dt * (if bc i then nth i (w_rate s') 0 else nth i (w_rate s) 0))) in A; [exact A|].
      intros i Hi. unfold vadd. now rewrite Gu, Gk.
    + rewrite Hr, Hu. rewrite (tab_same n (vadd dt (fst g) k) (vadd dt u0 k)) in B; [exact B|]. intros i Hi. unfold vadd. now rewrite Gu.
Qed.
Theorem steady_balance ld s s' accept : params_fit tsize (k_params ld) -> length (w_rate s) = n -> trustworthy n bc accept (k_solver ld) ->
  steady_step f n c bc target ld s = Ok (s', true) ->
  (forall i, (i < n)%nat -> bc i = true -> nth i (w_u s') 0 = target (w_t s') i) /\
  exists L0 L, force f n (w_t s') (inputs (k_params ld) (w_rate s)) (w_mem s) (tab n (fun i => if bc i then target (w_t s') i else nth i (w_u s) 0)) L0 /\
    force f n (w_t s') (inputs (k_params ld) (w_rate s)) (w_mem s) (w_u s') L /\
    accept (zeroed bc (entries L0)) (zeroed bc (entries L)).
Proof.
  intros P Hr TW E. destruct (steady_step_ok f n c cm bc target tsize R0 Rm ld s P Hr) as (s1 & ok & E1 & T & _ & _ & _ & _ & x & H & Hu).
  rewrite E1 in E. injection E as -> ->. assert (Fo := rate_fits f n cm tsize Rm _ _ P Hr).
  destruct (material_exists f n c bc tsize R0 (w_t s') _ (w_mem s) Fo) as (F & J & HFJ). assert (Ep := H F J HFJ). destruct HFJ as [HF HJ].
  match type of Ep with pure F J (k_solver ld ?z) = _ => set (x0 := z) in * end.
  destruct (HF x0) as (L0 & A0 & B0). destruct (HF x) as (L & A & B). destruct (TW F J x0 x) as [T1 T2].
  - intros y i Hi Eb. destruct (HF y) as (Ly & _ & ->). unfold zeroed. now rewrite Eb.
  - intros y. destruct (HJ y) as (K & _ & ->). now exists K.
  - exact Ep.
  - split.
    + intros i Hi Eb. rewrite Hu, nth_tab by exact Hi. rewrite (T2 i Hi Eb). unfold x0. now rewrite Eb.
    + exists L0, L. rewrite B0, B in T1. rewrite Hu. auto.
Qed.
End Facts.
