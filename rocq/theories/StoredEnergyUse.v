(** * Consequences of the potential energy: work on paths, equilibria, motions, minima; which materials store energy (C87) *)
From Coq Require Import NArith ZArith Reals List Lia Lra Bool.
From Coquelicot Require Import Coquelicot.
From Verif Require Import Prelude DofCodec Sums Restriction Kernels FunctionalModel Assembly Dual LUDeriv Tensor MatAlg Materials MaterialFacts ShapeAware WeakForm WeakFormFacts WeakFormPhysics WeakFormWork Fit Ode Energy EnergySolid EnergyRun StoredEnergy.
Import ListNotations.
Local Open Scope R_scope.

(** [L] are the nodal forces which the module evaluates at displacement [x] and acceleration [a] *)
Definition nodal_forces {St} (n N : nat) (f : functional St) (m : mem St) terms pos jac params (t : R) (x a : vec) (L : list R) : Prop :=
  wf f N (fun w => length (arguments N params x a w)) /\ solid_residual n f t (arguments N params x a) m terms pos jac /\
  exists wrt upd m', evaluate f t wrt upd (arguments N params x a) N m = Ok (L, m').
Definition rest : vec := fun _ => 0.

Section Body.
Context {St : Type} (n N : nat) (f : functional St) (m : mem St) (terms : list (solid_term St)) (pos : nat -> nat -> nat -> nat -> vec) (jac : nat -> nat -> nat -> nat -> mat)
  (params : nat -> list R) (psi : nat -> St -> mat -> R).
Notation forces := (nodal_forces n N f m terms pos jac params).
Notation pot := (potential n N f m terms pos jac psi).
Hypothesis (D : dim23 n) (F : all_fit f) (TS : two_spaces n f).

Lemma stored_ext x y : (forall i, (i < N)%nat -> x i = y i) -> stored n N f m terms jac psi x = stored n N f m terms jac psi y.
Proof. intros H. unfold stored. now rewrite (tab_ext N x y H). Qed.
Lemma potential_ext t x y : (forall i, (i < N)%nat -> x i = y i) -> pot t x = pot t y.
Proof. intros H. unfold potential. now rewrite (stored_ext x y H), (load_ext n N f terms pos jac t x y H). Qed.
Lemma mass_rest v : mass_form n N f terms jac v rest = 0.
Proof.
  pose proof (mass_symmetric n N f terms jac) as M. rewrite (form_sym N _ M).
  transitivity (mass_form n N f terms jac (fun i => 0 * rest i) v); [apply (form_ext N _ M); intros; unfold rest; ring|]. rewrite (form_scal N _ M). ring.
Qed.
Lemma slope_forces t x a L (y : R -> vec) v tau : elastic n terms psi -> forces t x a L -> vderive N y tau v -> (forall i, (i < N)%nat -> y tau i = x i) ->
  is_derive (fun s => pot t (y s)) tau (dotn N v (fun i => nth i L 0) - mass_form n N f terms jac v a).
Proof. intros EL (W & RES & wrt & upd & m' & EV). exact (energy_slope n N f m terms pos jac params psi D EL t x a L m' wrt upd W F TS RES EV y v tau). Qed.

(** ** work along paths *)
Theorem path_work t (x v : R -> vec) (L : R -> list R) (a b : R) : elastic n terms psi ->
  (forall tau, Rmin a b <= tau <= Rmax a b -> vderive N x tau (v tau) /\ forces t (x tau) rest (L tau) /\ continuous (fun s => dotn N (v s) (fun i => nth i (L s) 0)) tau) ->
  is_RInt (fun tau => dotn N (v tau) (fun i => nth i (L tau) 0)) a b (pot t (x b) - pot t (x a)).
Proof.
  intros EL H. apply (is_RInt_derive (fun s => pot t (x s)) (fun tau => dotn N (v tau) (fun i => nth i (L tau) 0))).
  - intros tau Ht. destruct (H tau Ht) as (HV & HF & _). refine (d_ext _ _ _ _ (slope_forces t (x tau) rest (L tau) x (v tau) tau EL HF HV (fun i _ => eq_refl)) _).
    rewrite mass_rest. ring.
  - intros tau Ht. now destruct (H tau Ht) as (_ & _ & HC).
Qed.
Theorem cycle_work t (x v : R -> vec) (L : R -> list R) (a b : R) : elastic n terms psi ->
  (forall tau, Rmin a b <= tau <= Rmax a b -> vderive N x tau (v tau) /\ forces t (x tau) rest (L tau) /\ continuous (fun s => dotn N (v s) (fun i => nth i (L s) 0)) tau) ->
  (forall i, (i < N)%nat -> x b i = x a i) -> is_RInt (fun tau => dotn N (v tau) (fun i => nth i (L tau) 0)) a b 0.
Proof.
  intros EL H E. assert (A := path_work t x v L a b EL H). rewrite (potential_ext t (x b) (x a) E) in A.
  replace (pot t (x a) - pot t (x a)) with 0 in A by ring. exact A.
Qed.

(** ** equilibria *)
Lemma dotn_free free v (L : list R) : (forall i, (i < N)%nat -> free i = false -> v i = 0) -> (forall i, (i < N)%nat -> free i = true -> nth i L 0 = 0) -> dotn N v (fun i => nth i L 0) = 0.
Proof.
  intros HV HL. unfold dotn. rewrite (sumn_ext N _ (fun _ => 0)); [now apply sumn_zero|]. intros i Hi. destruct (free i) eqn:E; [rewrite (HL i Hi E)|rewrite (HV i Hi E)]; ring.
Qed.
Lemma line_derive (x v : vec) : vderive N (fun s i => x i + s * v i) 0 v.
Proof. intros i _. refine (d_ext _ _ _ _ (d_plus (fun _ => x i) (fun s => s * v i) 0 0 (1 * v i) (d_const _ _) (d_scal_r (v i) (fun s => s) 0 1 (is_derive_id 0))) _). ring. Qed.
Lemma sumn_unit M i (y : nat -> R) : (i < M)%nat -> sumn M (fun j => (if Nat.eqb j i then 1 else 0) * y j) = y i.
Proof. intros Hi. rewrite (sumn_ext M _ (fun j => if Nat.eqb j i then y j else 0)) by (intros j _; destruct (Nat.eqb j i); ring). now apply (sumn_delta M i y). Qed.
Theorem equilibrium_stationary t x L (free : nat -> bool) : elastic n terms psi -> forces t x rest L ->
  ((forall i, (i < N)%nat -> free i = true -> nth i L 0 = 0) <->
   (forall v : vec, (forall i, (i < N)%nat -> free i = false -> v i = 0) -> is_derive (fun s => pot t (fun i => x i + s * v i)) 0 0)).
Proof.
  intros EL HF.
  assert (S : forall v : vec, is_derive (fun s => pot t (fun i => x i + s * v i)) 0 (dotn N v (fun i => nth i L 0))).
  { intros v. refine (d_ext _ _ _ _ (slope_forces t x rest L (fun s i => x i + s * v i) v 0 EL HF (line_derive x v) _) _); [intros i _; ring|]. rewrite mass_rest. ring. }
  split.
  - intros HL v HV. exact (d_ext _ _ _ _ (S v) (dotn_free free v L HV HL)).
  - intros H i Hi E. specialize (H (fun j => if Nat.eqb j i then 1 else 0)).
    assert (A := S (fun j => if Nat.eqb j i then 1 else 0)). unfold dotn in A. rewrite (sumn_unit N i (fun j => nth j L 0) Hi) in A.
    rewrite <- (is_derive_unique _ _ _ A). apply is_derive_unique. apply H. intros j Hj Ej. destruct (Nat.eqb_spec j i) as [->|]; [congruence|reflexivity].
Qed.

(** ** motions *)
Theorem motion_power t (x v a : R -> vec) (L : list R) tau : elastic n terms psi -> (forall w, load_form n N f terms pos jac tau w = load_form n N f terms pos jac t w) ->
  vderive N x tau (v tau) -> vderive N v tau (a tau) -> forces tau (x tau) (a tau) L ->
  is_derive (fun s => kinetic n N f terms jac (v s) + pot t (x s)) tau (dotn N (v tau) (fun i => nth i L 0)).
Proof.
  intros EL HL HX HV HF.
  refine (d_ext _ _ _ _ (d_plus _ _ tau _ _ (mass_derive n N f terms jac v (a tau) tau HV) (is_derive_ext (fun s => pot tau (x s)) (fun s => pot t (x s)) tau _ _ (slope_forces tau (x tau) (a tau) L x (v tau) tau EL HF HX (fun i _ => eq_refl)))) _).
  - intros s. unfold potential. now rewrite HL.
  - ring.
Qed.
Lemma flat (g : R -> R) a b : a <= b -> (forall tau, a <= tau <= b -> is_derive g tau 0) -> g b = g a.
Proof.
  intros H HD. destruct (Rle_lt_or_eq_dec a b H) as [L|E]; [|now subst b]. symmetry.
  exact (eq_is_derive g a b HD L).
Qed.
Theorem motion_conserves t0 (x v a : R -> vec) (L : R -> list R) (free : nat -> bool) t1 t2 : elastic n terms psi -> t1 <= t2 ->
  (forall tau w, t1 <= tau <= t2 -> load_form n N f terms pos jac tau w = load_form n N f terms pos jac t0 w) ->
  (forall tau, t1 <= tau <= t2 -> vderive N x tau (v tau) /\ vderive N v tau (a tau) /\ forces tau (x tau) (a tau) (L tau) /\
     forall i, (i < N)%nat -> if free i then nth i (L tau) 0 = 0 else v tau i = 0) ->
  kinetic n N f terms jac (v t2) + pot t0 (x t2) = kinetic n N f terms jac (v t1) + pot t0 (x t1).
Proof.
  intros EL Ht HL H. apply (flat (fun s => kinetic n N f terms jac (v s) + pot t0 (x s)) t1 t2 Ht). intros tau Hx. destruct (H tau Hx) as (HX & HV & HF & HB).
  refine (d_ext _ _ _ _ (motion_power t0 x v a (L tau) tau EL (fun w => HL tau w Hx) HX HV HF) (dotn_free free (v tau) (L tau) _ _)).
  - intros i Hi E. specialize (HB i Hi). now rewrite E in HB.
  - intros i Hi E. specialize (HB i Hi). now rewrite E in HB.
Qed.

(** ** minima *)
Definition quadratic : Prop := forall k on rho sigma st H, nth_error terms k = Some (SMaterial on rho sigma) -> psi k st H = / 2 * inner n n (stress_of sigma st H) H.
Lemma stored_quadratic x : quadratic -> stored n N f m terms jac psi x = / 2 * stiffness_form n N f m terms jac x x.
Proof.
  intros Q. unfold stored, stiffness_form. match goal with |- _ = / 2 * ?e => replace (/ 2 * e) with (/ 2 * e + 0 * e) by ring end. rewrite <- over_points_comb. apply over_points_ext. intros k Ig g G r le q _ _ _ _ _.
  destruct (nth_error terms k) as [T|] eqn:ET; [|ring]. destruct T as [on rho sigma|b|tr|on p]; cbn [stored_density stiffness_density]; try ring.
  rewrite (Q k on rho sigma _ _ ET). ring.
Qed.
Theorem equilibrium_minimum t x L (free : nat -> bool) : List.Forall (linear_elastic n) terms -> quadratic -> oriented n f terms jac -> positive n terms ->
  forces t x rest L -> (forall i, (i < N)%nat -> free i = true -> nth i L 0 = 0) ->
  forall y, (forall i, (i < N)%nat -> free i = false -> y i = x i) -> pot t x <= pot t y.
Proof.
  intros LE Q O P HF HL y HY. destruct HF as (W & RES & wrt & upd & m' & EV).
  set (h := fun i => y i - x i).
  assert (B := solid_balance n N f m terms pos jac params D LE t x rest L m' wrt upd W F TS RES EV h).
  rewrite (dotn_free free h L) in B; [|intros i Hi E; unfold h; rewrite (HY i Hi E); ring|exact HL]. rewrite mass_rest, <- load_expand in B.
  pose proof (stiffness_symmetric n N f m terms jac LE) as K.
  assert (KP := proj2 (elastic_forms_positive St n N f m terms jac O P) h).
  unfold potential. rewrite !stored_quadratic by exact Q.
  assert (EY : forall z, stiffness_form n N f m terms jac y z = stiffness_form n N f m terms jac x z + stiffness_form n N f m terms jac h z).
  { intros z. rewrite <- (form_add N _ K). apply (form_ext N _ K). intros i _. unfold h. ring. }
  assert (EL : load_form n N f terms pos jac t y = load_form n N f terms pos jac t h + load_form n N f terms pos jac t x).
  { transitivity (load_form n N f terms pos jac t (fun i => 1 * h i + x i)); [apply load_ext; intros; unfold h; ring|]. rewrite load_comb. ring. }
  rewrite EY, (form_sym N _ K x y), (form_sym N _ K h y), !EY, EL, (form_sym N _ K x h). lra.
Qed.
End Body.

(** ** materials which store energy *)
Lemma inner_meq n A A' B : meq n A A' -> inner n n A B = inner n n A' B.
Proof. intros H. apply inner_ext; [exact H|]. intros i j _ _. reflexivity. Qed.
Theorem linear_stores St n rho K G : dim23 n -> stores n (SMaterial false rho (fun (_ : St) H => Some (linear_isotropic n K G H))) (fun _ => energy_linear n K G).
Proof.
  intros D st H t0 D0 s P HD E EF. injection E as <-. refine (d_ext _ _ _ _ (linear_energy n K G H t0 D0 HD) _). apply inner_meq.
  apply (flux_unique n false (linear_isotropic n K G (H t0)) (H t0) P _ D EF).
  assert (HP := small_piola (St := unit) n D false rho (fun _ H0 => Some (linear_isotropic n K G H0)) tt (H t0) eq_refl ltac:(discriminate)). cbn [is_piola] in HP.
  destruct HP as (s & E & HP). injection E as <-. exact HP.
Qed.
Lemma finite_stores St n rho (sigma : St -> mat -> option mat) psi : dim23 n ->
  (forall st H s, sigma st H = Some s -> symmetric n s) ->
  (forall st H t0 D s, mderive n H t0 D -> sigma st (H t0) = Some s -> exists P, cauchy_to_piola n s (H t0) = Some P /\ is_derive (fun t => psi st (H t)) t0 (inner n n P D)) ->
  stores n (SMaterial true rho sigma) psi.
Proof.
  intros D SY H st Hc t0 D0 s P HD Es EF. destruct (H st Hc t0 D0 s HD Es) as (P2 & EP & HP). refine (d_ext _ _ _ _ HP _). apply inner_meq.
  assert (NZ : detn n (defgrad (Hc t0)) <> 0).
  { unfold cauchy_to_piola, kirchhoff_to_piola in EP. destruct (invn n (defgrad (Hc t0))) as [B|] eqn:EB; [|discriminate]. now destruct (invn_some n _ B D EB) as (_ & _ & N). }
  destruct (piola_conversions n s (Hc t0) D NZ (SY st (Hc t0) s Es)) as (P1 & P2' & P3 & A1 & A2 & _ & A3 & _).
  rewrite EF in A1. injection A1 as <-. rewrite EP in A2. injection A2 as <-. intros i j Hi Hj. symmetry. now apply A3.
Qed.
Theorem stvk_stores St n rho K G : dim23 n -> stores n (SMaterial true rho (fun (_ : St) H => stvk n K G H)) (fun _ => energy_stvk n K G).
Proof. intros D. apply finite_stores; [exact D|intros _ H s; apply stvk_symmetric|]. intros _ H t0 D0 s HD E. exact (stvk_energy n K G H t0 D0 s D HD E). Qed.
Theorem neo_stores St n rho lambda G : dim23 n -> stores n (SMaterial true rho (fun (_ : St) H => neo n lambda G H)) (fun _ => energy_neo n lambda G).
Proof. intros D. apply finite_stores; [exact D|intros _ H s; apply neo_symmetric|]. intros _ H t0 D0 s HD E. exact (neo_energy n lambda G H t0 D0 s D HD E). Qed.
Lemma linear_quadratic n K G H : energy_linear n K G H = / 2 * inner n n (linear_isotropic n K G H) H.
Proof.
  assert (A : inner n n (linear_isotropic n K G H) H = lame K G * (tr n H * tr n H) + 2 * G * squared_norm n n (small_strain H)).
  { unfold linear_isotropic, iso_stress. rewrite inner_add_l, !inner_scal_l.
    assert (E1 : tr n (small_strain H) = tr n H) by (unfold tr, small_strain, mscal, madd, transpose; apply sumn_ext; intros; lra).
    assert (E2 : inner n n ident H = tr n H).
    { unfold inner, tr. apply sumn_ext. intros i Hi. unfold ident. rewrite (sumn_ext n _ (fun j => if Nat.eqb j i then H i j else 0)).
      - now apply (sumn_delta n i (fun j => H i j)).
      - intros j _. rewrite (Nat.eqb_sym i j). destruct (Nat.eqb j i); ring. }
    assert (E3 : inner n n (small_strain H) H = squared_norm n n (small_strain H)).
    { assert (S1 : inner n n (small_strain H) (transpose H) = inner n n (small_strain H) H).
      { unfold inner at 1. rewrite (sumn_swap n n). unfold inner. apply sumn_ext. intros i _. apply sumn_ext. intros j _. unfold small_strain, mscal, madd, transpose. ring. }
      assert (S2 : squared_norm n n (small_strain H) = / 2 * inner n n (small_strain H) H + / 2 * inner n n (small_strain H) (transpose H)).
      { unfold squared_norm, inner. rewrite <- !sumn_scal_l, <- sumn_plus. apply sumn_ext. intros i _. rewrite <- !sumn_scal_l, <- sumn_plus. apply sumn_ext. intros j _.
        unfold small_strain, mscal, madd, transpose. lra. }
      rewrite S2, S1. lra. }
    rewrite E1, E2, E3. ring. }
  rewrite A. unfold energy_linear. assert (E1 : tr n (small_strain H) = tr n H) by (unfold tr, small_strain, mscal, madd, transpose; apply sumn_ext; intros; lra).
  rewrite E1. field.
Qed.

(** ** a small-strain law in the finite-strain residual stores no energy: the work to stretch a square depends on which side is stretched first *)
Definition stretch (a b : R) : mat := fun i j => if Nat.eqb i j then match i with O => a | _ => b end else 0.
Lemma antiderivative (g G d : R -> R) a b : a <= b -> (forall t, a <= t <= b -> is_derive g t (d t)) -> (forall t, a <= t <= b -> is_derive G t (d t)) -> g b - g a = G b - G a.
Proof.
  intros Hab H1 H2. enough (E : g b - G b = g a - G a) by lra. apply (flat (fun t => g t - G t) a b Hab). intros t Ht. refine (d_ext _ _ _ _ (d_minus g G t _ _ (H1 t Ht) (H2 t Ht)) _). ring.
Qed.
Lemma stretch_det a b : detn 2 (defgrad (stretch a b)) = (1 + a) * (1 + b).
Proof. unfold detn, det2, defgrad, madd, stretch, ident. cbn [Nat.eqb]. ring. Qed.
Lemma stretch_flux K G a b : 0 <= a -> 0 <= b -> exists P, flux 2 true (linear_isotropic 2 K G (stretch a b)) (stretch a b) = Some P /\
  P 0%nat 0%nat = (lame K G * (a + b) + 2 * G * a) * (1 + b) /\ P 1%nat 1%nat = (lame K G * (a + b) + 2 * G * b) * (1 + a).
Proof.
  intros Ha Hb. assert (D : dim23 2) by (now left).
  destruct (flux_works 2 true (linear_isotropic 2 K G (stretch a b)) (stretch a b) D) as (P & EP).
  { intros _. rewrite stretch_det. apply Rmult_integral_contrapositive_currified; lra. }
  exists P. split; [exact EP|]. assert (M := flux_moment 2 true _ _ P D EP).
  assert (M00 := M 0%nat 0%nat ltac:(lia) ltac:(lia)). assert (M11 := M 1%nat 1%nat ltac:(lia) ltac:(lia)).
  unfold mmul, mscal, transpose, detn, det2, linear_isotropic, iso_stress, madd, small_strain, tr, ident, stretch in M00, M11. cbn [sumn Nat.eqb] in M00, M11.
  unfold mscal, madd, transpose in M00, M11. cbn [Nat.eqb] in M00, M11.
  split.
  - apply (Rmult_eq_reg_r (1 + a)); [|lra]. lra.
  - apply (Rmult_eq_reg_r (1 + b)); [|lra]. lra.
Qed.
Theorem small_strain_stores_nothing St (st : St) rho K G : 2 * G <> lame K G -> ~ exists psi, stores 2 (SMaterial true rho (fun (_ : St) H => Some (linear_isotropic 2 K G H))) psi.
Proof.
  intros NE (psi & H). cbn [stores] in H. set (l := lame K G) in *.
  assert (A : forall b, 0 <= b -> psi st (stretch 1 b) - psi st (stretch 0 b) = (1 + b) * (l / 2 + G + l * b)).
  { intros b Hb. rewrite (antiderivative (fun a => psi st (stretch a b)) (fun a => (1 + b) * ((l / 2 + G) * (a * a) + l * b * a)) (fun a => (l * (a + b) + 2 * G * a) * (1 + b)) 0 1); [ring|lra| |].
    - intros a [Ha _]. destruct (stretch_flux K G a b Ha Hb) as (P & EP & P0 & P1).
      refine (d_ext _ _ _ _ (H st (fun s => stretch s b) a (stretch 1 0) _ P _ eq_refl EP) _).
      + intros i j Hi Hj. destruct i as [|[|i]]; [| |lia]; (destruct j as [|[|j]]; [| |lia]); unfold stretch; cbn [Nat.eqb]; try apply d_const. exact (is_derive_id a).
      + unfold inner, stretch. cbn [sumn Nat.eqb]. rewrite P0. fold l. ring.
    - intros a _. auto_derive; [exact Logic.I|]. field. }
  assert (B : forall a, 0 <= a -> psi st (stretch a 2) - psi st (stretch a 0) = (1 + a) * (4 * (l / 2 + G) + 2 * l * a)).
  { intros a Ha. rewrite (antiderivative (fun b => psi st (stretch a b)) (fun b => (1 + a) * ((l / 2 + G) * (b * b) + l * a * b)) (fun b => (l * (a + b) + 2 * G * b) * (1 + a)) 0 2); [ring|lra| |].
    - intros b [Hb _]. destruct (stretch_flux K G a b Ha Hb) as (P & EP & P0 & P1).
      refine (d_ext _ _ _ _ (H st (fun s => stretch a s) b (stretch 0 1) _ P _ eq_refl EP) _).
      + intros i j Hi Hj. destruct i as [|[|i]]; [| |lia]; (destruct j as [|[|j]]; [| |lia]); unfold stretch; cbn [Nat.eqb]; try apply d_const. exact (is_derive_id b).
      + unfold inner, stretch. cbn [sumn Nat.eqb]. rewrite P1. fold l. ring.
    - intros b _. auto_derive; [exact Logic.I|]. field. }
  assert (A0 := A 0 ltac:(lra)). assert (A2 := A 2 ltac:(lra)). assert (B0 := B 0 ltac:(lra)). assert (B1 := B 1 ltac:(lra)). lra.
Qed.
