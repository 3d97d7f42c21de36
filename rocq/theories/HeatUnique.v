(** * A conducting body has exactly one steady temperature, and every implicit step exactly one answer (C91)
    The residual is the one evaluated by the heat module (heat_transfer.hpp:379-553, through Functional; WeakForm.v, FunctionalModel.v);
    the steady problem is heat_transfer.hpp:707-728 (rate zero) and the implicit step heat_transfer.hpp:727-762 (temperature [u + c0 r], rate [r]). *)
From Coq Require Import NArith ZArith Reals List Lia Lra Bool.
From Verif Require Import Prelude DofCodec Sums Restriction Kernels FunctionalModel Assembly Tensor MatAlg Materials MaterialFacts ShapeAware ShapeDefs WeakForm WeakFormFacts WeakFormPhysics WeakFormWork Fit Ode Energy EnergySolid EnergyRun EnergyHeat PatchTest PatchMesh StiffBody.
Import ListNotations.
Local Open Scope R_scope.

(** ** specification *)
(** heat flows down every gradient *)
Definition conducting (n : nat) (mm : vec -> R -> vec -> R * vec) : Prop := forall X h, (exists i, (i < n)%nat /\ h i <> 0) -> 0 < dotn n (conducted mm X h) h.
(** no material conducts heat upwards and a warmer boundary does not draw heat in *)
Definition conductive (n : nat) (terms : list heat_term) : Prop :=
  (forall mm, In (HMaterial mm) terms -> conducting n mm) /\ forall fl, In (HFlux fl) terms -> forall X nu, 0 <= film fl X nu.
(** every material stores heat *)
Definition capacious (terms : list heat_term) : Prop := forall mm, In (HMaterial mm) terms -> forall X, 0 < fst (mm X 0 none).
Section Spec.
Context {St : Type} (n N : nat) (f : functional St) (m : mem St) (terms : list heat_term) (pos : nat -> nat -> nat -> nat -> vec) (jac : nat -> nat -> nat -> nat -> mat)
  (params : nat -> list R).
(** weights are positive, elements with material are not inverted or degenerate and boundary elements have an area *)
Definition sound_elements : Prop := forall k Ig g G le q, nth_error (f_integrals f) k = Some Ig -> nth_error (i_geoms Ig) g = Some G -> (le < length (gk_elems G))%nat -> (q < gk_nq G)%nat ->
  0 < gk_w G q /\ match nth_error terms k with Some (HMaterial _) => 0 < detn n (jac k g le q) | Some (HFlux _) => 0 < vnorm n (crossn n (jac k g le q)) | _ => True end.
(** the temperature [v] has no gradient in the material and does not change what leaves through the boundary *)
Definition level (v : vec) : Prop := forall k Ig g G r le q, nth_error (f_integrals f) k = Some Ig -> nth_error (i_geoms Ig) g = Some G -> nth_error (f_test f (i_type Ig)) g = Some r ->
  (le < length (gk_elems G))%nat -> (q < gk_nq G)%nat ->
  match nth_error terms k with
  | Some (HMaterial _) => forall i, (i < n)%nat -> grad_at n (jac k g le q) (test_field G r (tab N v) le q) 0%nat i = 0
  | Some (HFlux fl) => film fl (pos k g le q) (unit_normal n (jac k g le q)) * test_field G r (tab N v) le q 0%nat 0%nat = 0
  | _ => True end.
(** zero at the quadrature points in the material *)
Definition cold (v : vec) : Prop := forall k Ig g G r le q mm, nth_error (f_integrals f) k = Some Ig -> nth_error (i_geoms Ig) g = Some G -> nth_error (f_test f (i_type Ig)) g = Some r ->
  (le < length (gk_elems G))%nat -> (q < gk_nq G)%nat -> nth_error terms k = Some (HMaterial mm) -> test_field G r (tab N v) le q 0%nat 0%nat = 0.
(** the residual at temperature [x] and rate [a] *)
Definition heat_flows (t : R) (x a : vec) (L : list R) : Prop := wf f N (fun w => length (arguments N params x a w)) /\
  (exists grad, heat_residual n f t (arguments N params x a) m terms pos jac grad) /\ exists wrt upd m', evaluate f t wrt upd (arguments N params x a) N m = Ok (L, m').
Definition steady (t : R) (free : nat -> bool) (g x : vec) : Prop := (forall i, (i < N)%nat -> free i = false -> x i = g i) /\
  exists L, heat_flows t x none L /\ forall i, (i < N)%nat -> free i = true -> nth i L 0 = 0.
(** the rate [a] at the end of an implicit step from the predicted temperature [u] *)
Definition step_answer (t c0 : R) (free : nat -> bool) (u g a : vec) : Prop := (forall i, (i < N)%nat -> free i = false -> a i = g i) /\
  exists L, heat_flows t (fun i => u i + c0 * a i) a L /\ forall i, (i < N)%nat -> free i = true -> nth i L 0 = 0.
(** the held temperatures leave no level change but zero *)
Definition anchored (free : nat -> bool) : Prop := forall v, level v -> (forall i, (i < N)%nat -> free i = false -> v i = 0) -> forall i, (i < N)%nat -> v i = 0.
End Spec.

(** ** symmetric forms which are not negative *)
Section Form.
Context (N : nat) (b : vec -> vec -> R) (B : symmetric_form N b) (NB : nonnegative b).
Lemma null_orthogonal v z : b v v = 0 -> b v z = 0.
Proof.
  intros Z. assert (P : forall s, 0 <= b z z + 2 * s * b v z).
  { intros s. assert (Q := NB (fun i => z i + s * v i)). rewrite (form_comb N b B), !(form_comb_r N b B) in Q. rewrite (form_sym N b B z v), Z in Q. lra. }
  destruct (Rtotal_order (b v z) 0) as [H|[H|H]]; [exfalso|exact H|exfalso].
  - assert (Q := P (- (b z z + 1) / (2 * b v z))). replace (2 * (- (b z z + 1) / (2 * b v z)) * b v z) with (- (b z z + 1)) in Q by (field; lra). lra.
  - assert (Q := P (- (b z z + 1) / (2 * b v z))). replace (2 * (- (b z z + 1) / (2 * b v z)) * b v z) with (- (b z z + 1)) in Q by (field; lra). lra.
Qed.
Definition answer (free : nat -> bool) (l g x : vec) : Prop := (forall i, (i < N)%nat -> free i = false -> x i = g i) /\ forall i, (i < N)%nat -> free i = true -> b (unit i) x = l i.
Lemma form_one free : (forall v, b v v = 0 -> (forall i, (i < N)%nat -> free i = false -> v i = 0) -> forall i, (i < N)%nat -> v i = 0) ->
  forall l g, exists x, answer free l g x /\ forall y, answer free l g y -> forall i, (i < N)%nat -> y i = x i.
Proof.
  intros SU l g. set (h := fun i => if free i then 0 else g i).
  destruct (form_solvable N b B free) with (l := fun i => l i - b (unit i) h) as (x & X1 & X2).
  { intros v V0 (i & Hi & NZ). destruct (Rle_lt_or_eq_dec _ _ (NB v)) as [L|E]; [exact L|exfalso]. apply NZ. apply SU; auto. }
  pose (x' := fun i => h i + 1 * x i). assert (EQ : answer free l g x').
  { split; intros i Hi Fi; unfold x'.
    - rewrite X1 by assumption. unfold h. rewrite Fi. ring.
    - rewrite (form_comb_r N b B), X2 by assumption. ring. }
  exists x'. split; [exact EQ|]. intros y [Y1 Y2] i Hi. destruct EQ as [E1 E2]. clearbody x'.
  assert (Z : y i + (-1) * x' i = 0); [|lra]. apply (SU (fun i => y i + (-1) * x' i)); [| |exact Hi].
  - rewrite (form_expand N b B). apply sumn_zero. intros j Hj. destruct (free j) eqn:Fj.
    + rewrite (form_comb_r N b B), Y2, E2 by assumption. ring.
    + rewrite Y1, E1 by assumption. ring.
  - intros j Hj Fj. rewrite Y1, E1 by assumption. ring.
Qed.
Lemma one_form free l g : (exists x, answer free l g x /\ forall y, answer free l g y -> forall i, (i < N)%nat -> y i = x i) ->
  forall v, b v v = 0 -> (forall i, (i < N)%nat -> free i = false -> v i = 0) -> forall i, (i < N)%nat -> v i = 0.
Proof.
  intros (x & [X1 X2] & UX) v Z V0 i Hi. assert (Q : x i + 1 * v i = x i); [|lra]. apply (UX (fun i => x i + 1 * v i)); [|exact Hi]. split; intros j Hj Fj.
  - rewrite X1, V0 by assumption. ring.
  - rewrite (form_comb_r N b B), X2 by assumption. rewrite (form_sym N b B (unit j) v), (null_orthogonal v (unit j) Z). ring.
Qed.
End Form.

(** ** the conductivity and the step *)
Section Unique.
Context {St : Type} (n N : nat) (f : functional St) (m : mem St) (terms : list heat_term) (pos : nat -> nat -> nat -> nat -> vec) (jac : nat -> nat -> nat -> nat -> mat)
  (params : nat -> list R).
Hypothesis (D : dim23 n) (LH : List.Forall (linear_heat n) terms) (F : all_fit f) (TS : two_spaces 1 f) (SE : sound_elements n f terms jac) (CV : conductive n terms).
Notation K := (conduct_form n N f terms pos jac).
Notation C := (capacity_form n N f terms pos jac).
Let KS : symmetric_form N K := conduct_symmetric n N f terms pos jac LH.
Let CS : symmetric_form N C := capacity_symmetric n N f terms pos jac.

Lemma zero_dec (h : vec) : (forall i, (i < n)%nat -> h i = 0) \/ exists i, (i < n)%nat /\ h i <> 0.
Proof.
  clear -h. induction n as [|j IH]; [left; intros; lia|]. destruct IH as [H|(i & Hi & NZ)]; [|right; exists i; split; [lia|exact NZ]].
  destruct (Req_EM_T (h j) 0) as [Z|NZ]; [left|right; exists j; split; [lia|exact NZ]]. intros i Hi. destruct (Nat.eq_dec i j) as [->|]; [exact Z|apply H; lia].
Qed.
Lemma conducted_none mm X (h w : vec) : In (HMaterial mm) terms -> (forall i, (i < n)%nat -> h i = 0) -> dotn n (conducted mm X h) w = 0.
Proof.
  intros HI H. assert (HT := proj1 (Forall_forall _ _) LH _ HI). destruct HT as (_ & _ & Hx & Hl & _). unfold dotn. apply sumn_zero. intros i Hi.
  assert (E := Hl X (-1) h h i Hi). rewrite (Hx X (fun j => -1 * h j + h j) h i) in E by (auto; intros j Hj; rewrite H by auto; ring). replace (conducted mm X h i) with 0 by lra. ring.
Qed.
Lemma conduct_point k Ig g G r le q v : nth_error (f_integrals f) k = Some Ig -> nth_error (i_geoms Ig) g = Some G -> (le < length (gk_elems G))%nat -> (q < gk_nq G)%nat ->
  let d := match nth_error terms k with Some T => conduct_density n T (pos k g le q) (jac k g le q) (test_field G r (tab N v) le q) (test_field G r (tab N v) le q) | None => 0 end in
  0 <= d * gk_w G q /\ (d * gk_w G q = 0 -> match nth_error terms k with
    | Some (HMaterial _) => forall i, (i < n)%nat -> grad_at n (jac k g le q) (test_field G r (tab N v) le q) 0%nat i = 0
    | Some (HFlux fl) => film fl (pos k g le q) (unit_normal n (jac k g le q)) * test_field G r (tab N v) le q 0%nat 0%nat = 0
    | _ => True end).
Proof.
  intros E1 E2 Hle Hq. cbv zeta. destruct (SE k Ig g G le q E1 E2 Hle Hq) as [PW PJ]. destruct (nth_error terms k) as [T|] eqn:ET; [|split; [lra|trivial]].
  destruct T as [mm|s|fl]; cbn [conduct_density]; cbn iota in PJ; [|split; [lra|trivial]|].
  - set (h := grad_at n (jac k g le q) (test_field G r (tab N v) le q) 0%nat). destruct (zero_dec h) as [Z|NZ].
    + rewrite (conducted_none mm _ h h (nth_error_In _ _ ET) Z). split; [lra|]. intros _. exact Z.
    + assert (P := proj1 CV mm (nth_error_In _ _ ET) (pos k g le q) h NZ). assert (0 < dotn n (conducted mm (pos k g le q) h) h * detn n (jac k g le q) * gk_w G q) by (repeat apply Rmult_lt_0_compat; assumption).
      split; [lra|]. intros Z. lra.
  - assert (P := proj2 CV fl (nth_error_In _ _ ET) (pos k g le q) (unit_normal n (jac k g le q))). set (e := test_field G r (tab N v) le q 0%nat 0%nat). set (c := film fl _ _) in *.
    assert (Q := Rle_0_sqr e). unfold Rsqr in Q. set (a := vnorm n (crossn n (jac k g le q))) in *. split.
    + apply Rmult_le_pos; [|lra]. apply Rmult_le_pos; [|lra]. now apply Rmult_le_pos.
    + intros Z. destruct (Req_dec c 0) as [->|NC]; [ring|]. destruct (Req_dec e 0) as [->|NE]; [ring|exfalso].
      assert (0 < e * e) by (destruct (Rtotal_order e 0) as [H|[H|H]]; [|lra|now apply Rmult_lt_0_compat]; replace (e * e) with ((- e) * (- e)) by ring; apply Rmult_lt_0_compat; lra).
      assert (0 < c * (e * e) * a * gk_w G q) by (apply Rmult_lt_0_compat; [apply Rmult_lt_0_compat; [apply Rmult_lt_0_compat|]|]; lra). lra.
Qed.
(** conduction dissipates, unless the temperature is level *)
Theorem conduct_definite v : 0 <= K v v /\ (K v v = 0 <-> level n N f terms pos jac v).
Proof.
  split; [|split].
  - unfold conduct_form. apply over_points_nonneg. intros k Ig g G r le q E1 E2 Hle Hq. exact (proj1 (conduct_point k Ig g G r le q v E1 E2 Hle Hq)).
  - intros Z k Ig g G r le q E1 E2 E3 Hle Hq. apply (conduct_point k Ig g G r le q v E1 E2 Hle Hq).
    exact (over_points_terms f _ (fun k Ig g G r le q E1 E2 E3 Hle Hq => proj1 (conduct_point k Ig g G r le q v E1 E2 Hle Hq)) Z k Ig g G r le q E1 E2 E3 Hle Hq).
  - intros Z. unfold conduct_form. rewrite (over_points_ext f _ (fun _ _ _ _ _ _ _ => 0 * 0 + 0 * 0)).
    + rewrite (over_points_comb f 0 0). ring.
    + intros k Ig g G r le q E1 E2 E3 Hle Hq. assert (Zq := Z k Ig g G r le q E1 E2 E3 Hle Hq). destruct (nth_error terms k) as [T|] eqn:ET; [|ring]. destruct T as [mm|s|fl]; cbn [conduct_density]; [|ring|].
      * rewrite (conducted_none mm _ _ _ (nth_error_In _ _ ET) Zq). ring.
      * set (c := film fl _ _) in *. set (e := test_field G r (tab N v) le q 0%nat 0%nat) in *. replace (c * (e * e)) with (c * e * e) by ring. rewrite Zq. ring.
Qed.
Lemma capacity_point k Ig g G r le q v : capacious terms -> nth_error (f_integrals f) k = Some Ig -> nth_error (i_geoms Ig) g = Some G -> (le < length (gk_elems G))%nat -> (q < gk_nq G)%nat ->
  let d := match nth_error terms k with Some T => capacity_density n T (pos k g le q) (jac k g le q) (test_field G r (tab N v) le q) (test_field G r (tab N v) le q) | None => 0 end in
  0 <= d * gk_w G q /\ (d * gk_w G q = 0 -> forall mm, nth_error terms k = Some (HMaterial mm) -> test_field G r (tab N v) le q 0%nat 0%nat = 0).
Proof.
  intros CP E1 E2 Hle Hq. cbv zeta. destruct (SE k Ig g G le q E1 E2 Hle Hq) as [PW PJ]. destruct (nth_error terms k) as [T|] eqn:ET; [|split; [lra|discriminate]].
  destruct T as [mm|s|fl]; cbn [capacity_density]; cbn iota in PJ; [|split; [lra|discriminate]|split; [lra|discriminate]].
  assert (P := CP mm (nth_error_In _ _ ET) (pos k g le q)). set (e := test_field G r (tab N v) le q 0%nat 0%nat). set (c := fst _) in *. assert (Q := Rle_0_sqr e). unfold Rsqr in Q. split.
  - apply Rmult_le_pos; [|lra]. apply Rmult_le_pos; [|lra]. apply Rmult_le_pos; lra.
  - intros Z _ _. destruct (Req_dec e 0) as [->|NE]; [reflexivity|exfalso].
    assert (0 < e * e) by (destruct (Rtotal_order e 0) as [H|[H|H]]; [|lra|now apply Rmult_lt_0_compat]; replace (e * e) with ((- e) * (- e)) by ring; apply Rmult_lt_0_compat; lra).
    assert (0 < c * (e * e) * detn n (jac k g le q) * gk_w G q) by (apply Rmult_lt_0_compat; [apply Rmult_lt_0_compat; [apply Rmult_lt_0_compat|]|]; lra). lra.
Qed.
(** a temperature stores heat, unless it is zero at the quadrature points *)
Theorem capacity_definite v : capacious terms -> 0 <= C v v /\ (C v v = 0 <-> cold N f terms v).
Proof.
  intros CP. split; [|split].
  - unfold capacity_form. apply over_points_nonneg. intros k Ig g G r le q E1 E2 Hle Hq. exact (proj1 (capacity_point k Ig g G r le q v CP E1 E2 Hle Hq)).
  - intros Z k Ig g G r le q mm E1 E2 E3 Hle Hq. apply (capacity_point k Ig g G r le q v CP E1 E2 Hle Hq).
    exact (over_points_terms f _ (fun k Ig g G r le q E1 E2 E3 Hle Hq => proj1 (capacity_point k Ig g G r le q v CP E1 E2 Hle Hq)) Z k Ig g G r le q E1 E2 E3 Hle Hq).
  - intros Z. unfold capacity_form. rewrite (over_points_ext f _ (fun _ _ _ _ _ _ _ => 0 * 0 + 0 * 0)).
    + rewrite (over_points_comb f 0 0). ring.
    + intros k Ig g G r le q E1 E2 E3 Hle Hq. destruct (nth_error terms k) as [T|] eqn:ET; [|ring]. destruct T as [mm|s|fl]; cbn [capacity_density]; try ring.
      rewrite (Z k Ig g G r le q mm E1 E2 E3 Hle Hq ET). ring.
Qed.
Lemma flow_entry t x a L i : heat_flows n N f m terms pos jac params t x a L -> (i < N)%nat -> nth i L 0 = C (unit i) a + K (unit i) x - supply_vector n N f terms pos jac t i.
Proof.
  intros (W & (grad & RES) & wrt & upd & m' & E) Hi. assert (B := heat_tested n N f m terms pos jac params D LH t x a L m' wrt upd grad W F TS RES E (unit i)).
  assert (U : forall y : vec, dotn N (unit i) y = y i).
  { intros y. unfold dotn, unit. rewrite (sumn_ext N _ (fun j => if Nat.eqb j i then y j else 0)) by (intros j _; destruct (Nat.eqb j i); ring). exact (sumn_delta N i y Hi). }
  rewrite !U in B. exact B.
Qed.
Hypothesis (EV : forall t x a, exists L, heat_flows n N f m terms pos jac params t x a L).
Lemma no_rate v : C v none = 0.
Proof. rewrite (form_sym N C CS). apply (form_zero N C CS). Qed.
Lemma steady_iff t free g x : steady n N f m terms pos jac params t free g x <-> answer N K free (supply_vector n N f terms pos jac t) g x.
Proof.
  split.
  - intros (H & L & HL & Z). split; [exact H|]. intros i Hi Fi. assert (E := flow_entry t x none L i HL Hi). rewrite (Z i Hi Fi), no_rate in E. lra.
  - intros (H & Z). split; [exact H|]. destruct (EV t x none) as (L & HL). exists L. split; [exact HL|]. intros i Hi Fi. rewrite (flow_entry t x none L i HL Hi), (Z i Hi Fi), no_rate. ring.
Qed.
(** exactly one steady temperature for all supplies and all held values, exactly when the held values leave no level change *)
Theorem one_steady free : anchored n N f terms pos jac free <->
  forall t g, exists x, steady n N f m terms pos jac params t free g x /\ forall y, steady n N f m terms pos jac params t free g y -> forall i, (i < N)%nat -> y i = x i.
Proof.
  split.
  - intros AN t g. destruct (form_one N K KS (fun v => proj1 (conduct_definite v)) free) with (l := supply_vector n N f terms pos jac t) (g := g) as (x & X & U).
    + intros v Z. apply AN. now apply conduct_definite.
    + exists x. split; [now apply steady_iff|]. intros y Y. apply U. now apply steady_iff.
  - intros U v LV. apply (one_form N K KS (fun v => proj1 (conduct_definite v)) free (supply_vector n N f terms pos jac 0) (fun _ => 0)).
    + destruct (U 0 (fun _ => 0)) as (x & X & UX). exists x. split; [now apply steady_iff|]. intros y Y. apply UX. now apply steady_iff.
    + now apply conduct_definite.
Qed.
(** two steady temperatures under the same supplies and held values differ by a level change *)
Theorem steady_differ t free g x y : steady n N f m terms pos jac params t free g x -> steady n N f m terms pos jac params t free g y -> level n N f terms pos jac (fun i => x i + (-1) * y i).
Proof.
  intros Hx Hy. apply steady_iff in Hx as [X1 X2]. apply steady_iff in Hy as [Y1 Y2]. apply conduct_definite. rewrite (form_expand N K KS). apply sumn_zero. intros i Hi. destruct (free i) eqn:Fi.
  - rewrite (form_comb_r N K KS), X2, Y2 by assumption. ring.
  - rewrite X1, Y1 by assumption. ring.
Qed.
(** an implicit step *)
Let SB c0 : symmetric_form N (fun v w => C v w + c0 * K v w).
Proof.
  split.
  - intros x x' y H. now rewrite (form_ext N C CS x x' y H), (form_ext N K KS x x' y H).
  - intros x y z. rewrite (form_add N C CS), (form_add N K KS). ring.
  - intros c x z. rewrite (form_scal N C CS), (form_scal N K KS). ring.
  - intros x y. now rewrite (form_sym N C CS x y), (form_sym N K KS x y).
Qed.
Theorem one_step c0 free : capacious terms -> 0 < c0 ->
  (forall v, level n N f terms pos jac v -> cold N f terms v -> (forall i, (i < N)%nat -> free i = false -> v i = 0) -> forall i, (i < N)%nat -> v i = 0) ->
  forall t u g, exists a, step_answer n N f m terms pos jac params t c0 free u g a /\ forall a', step_answer n N f m terms pos jac params t c0 free u g a' -> forall i, (i < N)%nat -> a' i = a i.
Proof.
  intros CP Hc AN t u g. set (l := fun i => supply_vector n N f terms pos jac t i - K (unit i) u).
  assert (IFF : forall a, step_answer n N f m terms pos jac params t c0 free u g a <-> answer N (fun v w => C v w + c0 * K v w) free l g a).
  { intros a. split.
    - intros (H & L & HL & Z). split; [exact H|]. intros i Hi Fi. assert (E := flow_entry t _ a L i HL Hi). rewrite (Z i Hi Fi), (form_comb_r N K KS) in E. unfold l. lra.
    - intros (H & Z). split; [exact H|]. destruct (EV t (fun i => u i + c0 * a i) a) as (L & HL). exists L. split; [exact HL|]. intros i Hi Fi. assert (E := flow_entry t _ a L i HL Hi).
      rewrite (form_comb_r N K KS) in E. specialize (Z i Hi Fi). unfold l in Z. lra. }
  assert (NN : forall v, 0 <= C v v + c0 * K v v).
  { intros v. assert (A := proj1 (conduct_definite v)). assert (B := proj1 (capacity_definite v CP)). assert (0 <= c0 * K v v) by (apply Rmult_le_pos; lra). lra. }
  destruct (form_one N _ (SB c0) NN free) with (l := l) (g := g) as (a & A & U).
  - intros v Z. assert (P := proj1 (conduct_definite v)). assert (B := proj1 (capacity_definite v CP)). assert (Q : 0 <= c0 * K v v) by (apply Rmult_le_pos; lra).
    apply AN; [apply conduct_definite|apply capacity_definite; [exact CP|lra]]. assert (Y : c0 * K v v = 0) by lra. apply Rmult_integral in Y as [Y|Y]; [lra|exact Y].
  - exists a. split; [now apply IFF|]. intros a' A'. apply U. now apply IFF.
Qed.
End Unique.
