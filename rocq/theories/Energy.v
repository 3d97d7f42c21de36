(** * Energy and momentum of time stepping (C68)

    The integrators of [Ode] on problems whose residual is inertia plus linear internal forces minus loads:
    [h . residual = m (h, a) + k (h, x) - h . f(t)] for every vector [h], with symmetric forms [m] and [k]. *)
From Coq Require Import Reals Lra Lia Bool List.
From Verif Require Import Sums Tensor Ode.
Import ListNotations.
Local Open Scope R_scope.

(** ** specification *)
Definition dotn (n : nat) (x y : vec) : R := sumn n (fun i => x i * y i).
Record symmetric_form (n : nat) (b : vec -> vec -> R) : Prop := {
  form_ext : forall x x' y, (forall i, (i < n)%nat -> x i = x' i) -> b x y = b x' y;
  form_add : forall x y z, b (fun i => x i + y i) z = b x z + b y z;
  form_scal : forall c x z, b (fun i => c * x i) z = c * b x z;
  form_sym : forall x y, b x y = b y x }.
Definition nonnegative (b : vec -> vec -> R) : Prop := forall x, 0 <= b x x.
Definition linear_motion (p : problem) (m k : vec -> vec -> R) (f : R -> vec) : Prop :=
  forall t x a h, dotn (p_n p) h (p_res p t x a) = m h a + k h x - dotn (p_n p) h (f t).
(** kinetic plus elastic energy *)
Definition energy (m k : vec -> vec -> R) (x v : vec) : R := m v v / 2 + k x x / 2.
(** force on dof [i]: the load, and the residual, which is the reaction of the support *)
Definition force (p : problem) (f : R -> vec) (t : R) (x a : vec) : vec := fun i => f t i + p_res p t x a i.
(** supports that do not move *)
Definition fixed (p : problem) (g : vec) : Prop := forall t i, (i < p_n p)%nat -> p_ess p i = true -> p_g p t i = g i.

Lemma dotn_ext n x x' y y' : (forall i, (i < n)%nat -> x i = x' i) -> (forall i, (i < n)%nat -> y i = y' i) -> dotn n x y = dotn n x' y'.
Proof. intros H K. apply sumn_ext. intros i Hi. now rewrite H, K. Qed.
Lemma dotn_add n x y z : dotn n x (fun i => y i + z i) = dotn n x y + dotn n x z.
Proof. unfold dotn. rewrite <- sumn_plus. apply sumn_ext. intros. ring. Qed.

Section Forms.
Variables (n : nat) (b : vec -> vec -> R).
Hypothesis B : symmetric_form n b.
Lemma ext_r x y y' : (forall i, (i < n)%nat -> y i = y' i) -> b x y = b x y'.
Proof. intros H. rewrite (form_sym n b B x y), (form_sym n b B x y'). now apply (form_ext n b B). Qed.
Lemma ext_2 x y x' y' : (forall i, (i < n)%nat -> x i = x' i) -> (forall i, (i < n)%nat -> y i = y' i) -> b x y = b x' y'.
Proof. intros H K. rewrite (form_ext n b B x x' y H). now apply ext_r. Qed.
Lemma add_r x y z : b x (fun i => y i + z i) = b x y + b x z.
Proof. rewrite (form_sym n b B), (form_add n b B), (form_sym n b B y), (form_sym n b B z). ring. Qed.
Lemma scal_r c x z : b x (fun i => c * z i) = c * b x z.
Proof. rewrite (form_sym n b B), (form_scal n b B), (form_sym n b B z). ring. Qed.
(** the form of a combination *)
Lemma comb2 c d x y z : b (fun i => c * x i + d * y i) z = c * b x z + d * b y z.
Proof. rewrite (form_add n b B (fun i => c * x i) (fun i => d * y i)), !(form_scal n b B). ring. Qed.
Lemma comb2_r c d x y z : b z (fun i => c * x i + d * y i) = c * b z x + d * b z y.
Proof. rewrite (form_sym n b B), comb2, (form_sym n b B x), (form_sym n b B y). ring. Qed.
Definition diff (x' x : vec) : vec := fun i => 1 * x' i + -1 * x i.
Lemma diff_l x' x z : b (diff x' x) z = b x' z - b x z.
Proof. unfold diff. rewrite comb2. ring. Qed.
Lemma diff_r x' x z : b z (diff x' x) = b z x' - b z x.
Proof. unfold diff. rewrite comb2_r. ring. Qed.
End Forms.

Section Steps.
Variables (p : problem) (m k : vec -> vec -> R) (f : R -> vec).
Notation n := (p_n p).
Hypothesis (Bm : symmetric_form n m) (Bk : symmetric_form n k) (L : linear_motion p m k f).

Lemma motion t x a h : m h a + k h x = dotn n h (force p f t x a).
Proof. assert (E := L t x a h). unfold force. change (fun i => f t i + p_res p t x a i) with (fun i => (f t) i + (p_res p t x a) i). rewrite (dotn_add n h (f t)). lra. Qed.

(** one Newmark step, any parameters, any loads and supports (Krenk's identity) *)
Theorem newmark_energy beta gamma dt t x v a x' v' a' : dt <> 0 -> newmark_relations p beta gamma dt x v a x' v' a' ->
  let c := dt * dt * (beta - gamma / 2) in let d := diff x' x in
  energy m k x' v' + c * m a' a' / 2 = energy m k x v + c * m a a / 2
    + (dotn n d (force p f t x a) + dotn n d (force p f (t + dt) x' a')) / 2
    + (gamma - 1 / 2) * (dotn n d (force p f (t + dt) x' a') - dotn n d (force p f t x a) - k d d - c * m (diff a' a) (diff a' a)).
Proof.
  intros Nd Rel. cbv zeta. set (d := diff x' x). rewrite <- !motion.
  (* v + v' and v' - v in terms of d, a and a' *)
  assert (Hs : forall i, (i < n)%nat -> 1 * v' i + 1 * v i = 2 / dt * d i + dt * (gamma - 2 * beta) * diff a' a i).
  { intros i Hi. destruct (Rel i Hi) as [E1 E2]. unfold d, diff. rewrite E1, E2. field. exact Nd. }
  assert (He : forall i, (i < n)%nat -> diff v' v i = dt * (1 - gamma) * a i + dt * gamma * a' i).
  { intros i Hi. destruct (Rel i Hi) as [_ E2]. unfold diff. rewrite E2. ring. }
  assert (Kin : m v' v' - m v v = m (fun i => 1 * v' i + 1 * v i) (diff v' v)).
  { rewrite (diff_r n m Bm), !(comb2 n m Bm). rewrite (form_sym n m Bm v v'). ring. }
  assert (Ela : k x' x' - k x x = 2 * k d x' - k d d).
  { unfold d. rewrite !(diff_l n k Bk), !(diff_r n k Bk). rewrite (form_sym n k Bk x x'). ring. }
  assert (Ela2 : k d x' = k d x + k d d) by (unfold d at 4; rewrite (diff_r n k Bk); ring).
  rewrite (ext_2 n m Bm _ _ _ _ Hs He) in Kin. rewrite (comb2 n m Bm), !(comb2_r n m Bm), !(diff_l n m Bm) in Kin.
  rewrite !(diff_l n m Bm), !(diff_r n m Bm). rewrite (form_sym n m Bm a a') in *. unfold energy.
  replace (2 / dt * (dt * (1 - gamma) * m d a + dt * gamma * m d a')) with (2 * ((1 - gamma) * m d a + gamma * m d a')) in Kin by (field; exact Nd).
  apply (f_equal (fun r => r / 2)) in Kin. apply (f_equal (fun r => r / 2)) in Ela.
  replace (m v' v' / 2 + k x' x' / 2 + dt * dt * (beta - gamma / 2) * m a' a' / 2)
    with (m v v / 2 + k x x / 2 + (m v' v' - m v v) / 2 + (k x' x' - k x x) / 2 + dt * dt * (beta - gamma / 2) * m a' a' / 2) by field.
  rewrite Kin, Ela, Ela2. field.
Qed.

(** average acceleration: the energy changes by the work of the mean forces *)
Corollary average_energy dt t x v a x' v' a' : dt <> 0 -> newmark_relations p (1 / 4) (1 / 2) dt x v a x' v' a' ->
  energy m k x' v' = energy m k x v + (dotn n (diff x' x) (force p f t x a) + dotn n (diff x' x) (force p f (t + dt) x' a')) / 2.
Proof.
  intros Nd Rel. assert (E := newmark_energy _ _ dt t x v a x' v' a' Nd Rel). cbv zeta in E.
  replace (dt * dt * (1 / 4 - 1 / 2 / 2)) with 0 in E by field. lra.
Qed.

(** backward Euler on the second-order system *)
Theorem euler2_energy dt t x v x' v' a' : euler2_relations p dt x v x' v' a' ->
  energy m k x' v' = energy m k x v + dotn n (diff x' x) (force p f (t + dt) x' a') - energy m k (diff x' x) (diff v' v).
Proof.
  intros Rel. set (d := diff x' x). rewrite <- motion.
  assert (Hd : forall i, (i < n)%nat -> d i = dt * v' i) by (intros i Hi; destruct (Rel i Hi) as [E1 _]; unfold d, diff; rewrite E1; ring).
  assert (He : forall i, (i < n)%nat -> diff v' v i = dt * a' i) by (intros i Hi; destruct (Rel i Hi) as [_ E2]; unfold diff; rewrite E2; ring).
  assert (W : m d a' = m v' (diff v' v)).
  { rewrite (form_ext n m Bm _ _ _ Hd), (ext_r n m Bm v' _ _ He), (form_scal n m Bm), (scal_r n m Bm). reflexivity. }
  unfold energy. rewrite W. unfold d. rewrite !(diff_l n m Bm), !(diff_r n m Bm), !(diff_l n k Bk), !(diff_r n k Bk).
  rewrite (form_sym n m Bm v v'), (form_sym n k Bk x x'). field.
Qed.

(** backward Euler on a first-order system: [k] is dissipation, [m] heat capacity *)
Theorem euler1_energy dt t x x' r : (forall i, (i < n)%nat -> x' i = x i + dt * r i) ->
  k x' x' / 2 = k x x / 2 + dotn n (diff x' x) (force p f (t + dt) x' r) - dt * m r r - k (diff x' x) (diff x' x) / 2 /\
  m x' x' / 2 = m x x / 2 + dt * dotn n x' (force p f (t + dt) x' r) - dt * k x' x' - m (diff x' x) (diff x' x) / 2.
Proof.
  intros Rel. set (d := diff x' x). rewrite <- !motion.
  assert (Hd : forall i, (i < n)%nat -> d i = dt * r i) by (intros i Hi; unfold d, diff; rewrite Rel by exact Hi; ring).
  split.
  - rewrite (form_ext n m Bm _ _ r Hd), (form_scal n m Bm). unfold d. rewrite !(diff_l n k Bk), !(diff_r n k Bk), (form_sym n k Bk x x'). field.
  - assert (W : dt * m x' r = m x' d) by (rewrite (ext_r n m Bm x' _ _ Hd), (scal_r n m Bm); reflexivity).
    rewrite Rmult_plus_distr_l, W. unfold d. rewrite !(diff_l n m Bm), !(diff_r n m Bm), (form_sym n m Bm x x'). field.
Qed.

(** ** forces do no work on fixed supports, and vanish on free dofs without loads *)

Lemma held_dot g t x x' y a : (forall i, f t i = 0) -> fixed p g -> motion_at_free p t y a -> (forall i, (i < n)%nat -> p_ess p i = true -> x i = g i) -> (forall i, (i < n)%nat -> p_ess p i = true -> x' i = g i) ->
  dotn n (diff x' x) (force p f t y a) = 0.
Proof.
  intros F0 Fx Mo Hx Hx'. apply sumn_zero. intros i Hi. unfold force, diff. rewrite F0.
  destruct (p_ess p i) eqn:E; [rewrite Hx, Hx' by auto; ring|rewrite (Mo i Hi E); ring].
Qed.
End Steps.

(** ** whole runs *)
Section Runs.
Variables (p : problem) (m k : vec -> vec -> R) (f : R -> vec).
Notation n := (p_n p).
Hypothesis (Bm : symmetric_form n m) (Bk : symmetric_form n k) (L : linear_motion p m k f).

(** the work of the forces on the way from one state to the next: loads on all dofs, reactions on constrained dofs *)
Definition step_work (t dt : R) (x a x' a' : vec) : R :=
  sumn n (fun i => (x' i - x i) * ((f t i + f (t + dt) i) / 2 + if p_ess p i then (p_res p t x a i + p_res p (t + dt) x' a' i) / 2 else 0)).
Fixpoint run_work (t : R) (x a : vec) (dts : list R) (states : list (vec * vec * vec)) : R :=
  match dts, states with
  | dt :: dts', (x', _, a') :: states' => step_work t dt x a x' a' + run_work (t + dt) x' a' dts' states'
  | _, _ => 0
  end.
Fixpoint final (x v a : vec) (states : list (vec * vec * vec)) : vec * vec * vec :=
  match states with [] => (x, v, a) | (x', v', a') :: r => final x' v' a' r end.

Lemma average_work t dt x v a x' v' a' : dt <> 0 -> newmark_relations p (1 / 4) (1 / 2) dt x v a x' v' a' -> motion_at_free p t x a -> motion_at_free p (t + dt) x' a' ->
  energy m k x' v' = energy m k x v + step_work t dt x a x' a'.
Proof.
  intros Nd Rel M0 M1. rewrite (average_energy p m k f Bm Bk L dt t x v a x' v' a' Nd Rel). f_equal.
  unfold step_work, dotn, Rdiv at 1. rewrite <- sumn_plus, <- sumn_scal_r. apply sumn_ext. intros i Hi. unfold force, diff.
  destruct (p_ess p i) eqn:E; [|rewrite (M0 i Hi E), (M1 i Hi E)]; field.
Qed.

Theorem average_run held dts : List.Forall (fun dt => dt <> 0) dts -> forall t x v a states, trajectory p (1 / 4) (1 / 2) held t x v a dts states -> motion_at_free p t x a ->
  let '(x', v', _) := final x v a states in energy m k x' v' = energy m k x v + run_work t x a dts states.
Proof.
  intros F. induction dts as [|dt dts IH]; intros t x v a [|[[x1 v1] a1] states]; cbn [trajectory final run_work]; intros T M0; try contradiction; [lra|].
  inversion F as [|? ? Fd Fr]; subst. destruct T as (Rel & M1 & _ & T). specialize (IH Fr (t + dt) x1 v1 a1 states T M1).
  destruct (final x1 v1 a1 states) as [[x2 v2] a2]. rewrite IH, (average_work t dt x v a x1 v1 a1 Fd Rel M0 M1). ring.
Qed.

(** no loads and supports that do not move *)
Hypothesis F0 : forall t i, f t i = 0.
Theorem average_conserves_direct g dts : fixed p g -> List.Forall (fun dt => dt <> 0) dts -> forall t x v a states, trajectory p (1 / 4) (1 / 2) (value_held p) t x v a dts states ->
  motion_at_free p t x a -> (forall i, (i < n)%nat -> p_ess p i = true -> x i = g i) ->
  List.Forall (fun s => energy m k (fst (fst s)) (snd (fst s)) = energy m k x v) states.
Proof.
  intros Fx F. induction dts as [|dt dts IH]; intros t x v a [|[[x1 v1] a1] states]; cbn [trajectory]; intros T M0 Hx; try contradiction; [constructor|].
  inversion F as [|? ? Fd Fr]; subst. destruct T as (Rel & M1 & Hh & T).
  assert (Hx1 : forall i, (i < n)%nat -> p_ess p i = true -> x1 i = g i) by (intros i Hi E; rewrite (Hh i Hi E); now apply Fx).
  assert (E1 : energy m k x1 v1 = energy m k x v).
  { rewrite (average_energy p m k f Bm Bk L dt t x v a x1 v1 a1 Fd Rel). rewrite (held_dot p f g t x x1 x a), (held_dot p f g (t + dt) x x1 x1 a1) by auto. lra. }
  constructor; [exact E1|]. rewrite <- E1. exact (IH Fr (t + dt) x1 v1 a1 states T M1 Hx1).
Qed.
Lemma fixed_rate g t i : fixed p g -> (i < n)%nat -> p_ess p i = true -> rate p eps2 t i = 0.
Proof. intros Fx Hi E. unfold rate, U. rewrite E, !(Fx _ i Hi E). unfold Rdiv. ring. Qed.
Theorem average_conserves_rate g dts : fixed p g -> List.Forall (fun dt => dt <> 0) dts -> forall t x v a states, trajectory p (1 / 4) (1 / 2) (rate_held p) t x v a dts states ->
  motion_at_free p t x a -> (forall i, (i < n)%nat -> p_ess p i = true -> v i = 0) ->
  List.Forall (fun s => energy m k (fst (fst s)) (snd (fst s)) = energy m k x v) states.
Proof.
  intros Fx F. induction dts as [|dt dts IH]; intros t x v a [|[[x1 v1] a1] states]; cbn [trajectory]; intros T M0 Hv; try contradiction; [constructor|].
  inversion F as [|? ? Fd Fr]; subst. destruct T as (Rel & M1 & Hh & T).
  assert (Hv1 : forall i, (i < n)%nat -> p_ess p i = true -> v1 i = 0) by (intros i Hi E; rewrite (Hh i Hi E); now apply (fixed_rate g)).
  assert (Hd : forall i, (i < n)%nat -> p_ess p i = true -> diff x1 x i = 0).
  { intros i Hi E. destruct (Rel i Hi) as [E1 E2]. assert (X := Hv i Hi E). assert (X1 := Hv1 i Hi E). unfold diff. rewrite E1.
    transitivity (dt / 2 * (v i + v1 i)); [rewrite E2; field|rewrite X, X1; ring]. }
  assert (Z : forall s y b, motion_at_free p s y b -> dotn n (diff x1 x) (force p f s y b) = 0).
  { intros s y b M. apply sumn_zero. intros i Hi. unfold force. rewrite F0. destruct (p_ess p i) eqn:E; [rewrite Hd by auto; ring|rewrite (M i Hi E); ring]. }
  assert (E1 : energy m k x1 v1 = energy m k x v) by (rewrite (average_energy p m k f Bm Bk L dt t x v a x1 v1 a1 Fd Rel), !Z by auto; lra).
  constructor; [exact E1|]. rewrite <- E1. exact (IH Fr (t + dt) x1 v1 a1 states T M1 Hv1).
Qed.

(** any Newmark method with a constant step: the energy with the term of the accelerations *)
Definition corrected (beta gamma dt : R) (x v a : vec) : R := energy m k x v + dt * dt * (beta - gamma / 2) * m a a / 2.
Theorem newmark_decays beta gamma dt g dts : fixed p g -> dt <> 0 -> List.Forall (fun d => d = dt) dts -> 1 / 2 <= gamma -> gamma / 2 <= beta -> nonnegative m -> nonnegative k ->
  forall t x v a states, trajectory p beta gamma (value_held p) t x v a dts states -> motion_at_free p t x a -> (forall i, (i < n)%nat -> p_ess p i = true -> x i = g i) ->
  List.Forall (fun s => corrected beta gamma dt (fst (fst s)) (snd (fst s)) (snd s) <= corrected beta gamma dt x v a) states /\
  (gamma = 1 / 2 -> List.Forall (fun s => corrected beta gamma dt (fst (fst s)) (snd (fst s)) (snd s) = corrected beta gamma dt x v a) states) /\
  List.Forall (fun s => 0 <= m (snd (fst s)) (snd (fst s)) /\ 0 <= k (fst (fst s)) (fst (fst s)) /\
     m (snd (fst s)) (snd (fst s)) / 2 + k (fst (fst s)) (fst (fst s)) / 2 <= corrected beta gamma dt x v a) states.
Proof.
  intros Fx Nd F Hg Hb Pm Pk. induction dts as [|d dts IH]; intros t x v a [|[[x1 v1] a1] states]; cbn [trajectory]; intros T M0 Hx; try contradiction; [repeat constructor|].
  apply List.Forall_cons_iff in F. destruct F as [Ed Fr]. subst d. destruct T as (Rel & M1 & Hh & T).
  assert (Hx1 : forall i, (i < n)%nat -> p_ess p i = true -> x1 i = g i) by (intros i Hi E; rewrite (Hh i Hi E); now apply Fx).
  assert (E := newmark_energy p m k f Bm Bk L beta gamma dt t x v a x1 v1 a1 Nd Rel). cbv zeta in E.
  rewrite (held_dot p f g t x x1 x a), (held_dot p f g (t + dt) x x1 x1 a1) in E by auto.
  set (c := dt * dt * (beta - gamma / 2)) in *. assert (Pc : 0 <= c) by (apply Rmult_le_pos; [apply Rle_0_sqr|lra]).
  assert (D1 := Pk (diff x1 x)). assert (D2 := Rmult_le_pos _ _ Pc (Pm (diff a1 a))).
  assert (D : 0 <= (gamma - 1 / 2) * (k (diff x1 x) (diff x1 x) + c * m (diff a1 a) (diff a1 a))) by (apply Rmult_le_pos; lra).
  assert (Q : corrected beta gamma dt x1 v1 a1 = corrected beta gamma dt x v a - (gamma - 1 / 2) * (k (diff x1 x) (diff x1 x) + c * m (diff a1 a) (diff a1 a))) by (unfold corrected; fold c; lra).
  destruct (IH Fr (t + dt) x1 v1 a1 states T M1 Hx1) as (A1 & A2 & A3). split; [|split].
  - constructor; [cbn [fst snd]; lra|]. eapply List.Forall_impl; [|exact A1]. cbv beta. intros s Hs. lra.
  - intros G. specialize (A2 G). assert (Q' : corrected beta gamma dt x1 v1 a1 = corrected beta gamma dt x v a) by (rewrite Q, G; ring).
    constructor; [exact Q'|]. rewrite <- Q'. exact A2.
  - constructor.
    + cbn [fst snd]. split; [apply Pm|]. split; [apply Pk|]. assert (D3 := Rmult_le_pos _ _ Pc (Pm a1)). subst c. unfold corrected, energy in *. lra.
    + eapply List.Forall_impl; [|exact A3]. cbv beta. intros s (H1 & H2 & H3). repeat split; auto. lra.
Qed.
End Runs.

(** ** momentum, for any residual: [w . residual = m (w, a) - load], such as the total of a component of a solid's residual *)
Section Momentum.
Variables (p : problem) (m : vec -> vec -> R) (w : vec) (load : R -> R).
Notation n := (p_n p).
Hypothesis (Bm : symmetric_form n m) (W : forall t x a, dotn n w (p_res p t x a) = m w a - load t) (Free : forall i, (i < n)%nat -> p_ess p i = false).

Lemma inertia t x a : motion_at_free p t x a -> m w a = load t.
Proof.
  intros M. assert (E := W t x a). replace (dotn n w (p_res p t x a)) with 0 in E; [lra|].
  symmetry. apply sumn_zero. intros i Hi. rewrite (M i Hi (Free i Hi)). ring.
Qed.
Theorem momentum_step beta gamma dt t x v a x' v' a' : newmark_relations p beta gamma dt x v a x' v' a' -> motion_at_free p t x a -> motion_at_free p (t + dt) x' a' ->
  m w v' = m w v + dt * ((1 - gamma) * load t + gamma * load (t + dt)) /\
  m w x' = m w x + dt * m w v + dt * dt * ((1 / 2 - beta) * load t + beta * load (t + dt)).
Proof.
  intros Rel M0 M1. assert (I0 := inertia t x a M0). assert (I1 := inertia (t + dt) x' a' M1). split.
  - rewrite (ext_r n m Bm w v' (fun i => v i + (fun i => dt * (1 - gamma) * a i + dt * gamma * a' i) i)) by (intros i Hi; destruct (Rel i Hi) as [_ E]; rewrite E; ring).
    rewrite (add_r n m Bm), (comb2_r n m Bm), I0, I1. ring.
  - rewrite (ext_r n m Bm w x' (fun i => (fun i => 1 * x i + dt * v i) i + (fun i => dt * dt * (1 / 2 - beta) * a i + dt * dt * beta * a' i) i)) by (intros i Hi; destruct (Rel i Hi) as [E _]; rewrite E; ring).
    rewrite (add_r n m Bm), !(comb2_r n m Bm), I0, I1. ring.
Qed.
Theorem momentum_run beta gamma held dts : (forall t, load t = 0) -> forall t x v a states, trajectory p beta gamma held t x v a dts states -> motion_at_free p t x a ->
  List.Forall (fun s => m w (snd (fst s)) = m w v) states.
Proof.
  intros Z. induction dts as [|dt dts IH]; intros t x v a [|[[x1 v1] a1] states]; cbn [trajectory]; intros T M0; try contradiction; [constructor|].
  destruct T as (Rel & M1 & _ & T). destruct (momentum_step beta gamma dt t x v a x1 v1 a1 Rel M0 M1) as [E _]. rewrite !Z in E.
  assert (E1 : m w v1 = m w v) by lra. constructor; [exact E1|]. rewrite <- E1. exact (IH (t + dt) x1 v1 a1 states T M1).
Qed.
(** heat: backward Euler on a first-order system *)
Theorem content_step dt t x x' r : (forall i, (i < n)%nat -> x' i = x i + dt * r i) -> motion_at_free p (t + dt) x' r -> m w x' = m w x + dt * load (t + dt).
Proof.
  intros Rel M1. rewrite (ext_r n m Bm w x' (fun i => 1 * x i + dt * r i)) by (intros i Hi; rewrite (Rel i Hi); ring).
  rewrite (comb2_r n m Bm), (inertia (t + dt) x' r M1). ring.
Qed.
End Momentum.
