(** * The residual of linear heat conduction as capacity, conductivity and loads (C68)
    The residual evaluated by the heat module (heat_transfer.hpp:379-553, through Functional) tested against any vector is a capacity
    form of the temperature rate plus a conductivity form of the temperature minus the sources and the prescribed fluxes. *)
From Coq Require Import NArith ZArith Reals List Lia Lra Bool.
From Verif Require Import Prelude DofCodec Sums Restriction Kernels FunctionalModel Assembly Tensor MatAlg Materials MaterialFacts ShapeAware WeakForm WeakFormFacts WeakFormPhysics WeakFormWork Fit Ode Energy EnergySolid EnergyRun.
Import ListNotations.
Local Open Scope R_scope.

(** ** specification *)
Definition none : vec := fun _ => 0.
(** heat conducted by a gradient: minus the flux *)
Definition conducted (mm : vec -> R -> vec -> R * vec) (X g : vec) : vec := fun i => - snd (mm X 0 g) i.
(** rate at which the flux out of the boundary grows with the temperature *)
Definition film (q : vec -> vec -> R -> R -> R) (X nu : vec) : R := q X nu 0 1 - q X nu 0 0.
(** linear conduction: capacity and conductivity do not depend on the temperature, the conductivity is linear and symmetric; sources do
    not depend on the temperature; fluxes are prescribed or of Newton's law of cooling *)
Definition linear_heat (n : nat) (T : heat_term) : Prop :=
  match T with
  | HMaterial mm =>
      (forall X u g, fst (mm X u g) = fst (mm X 0 none)) /\ (forall X u g i, (i < n)%nat -> snd (mm X u g) i = snd (mm X 0 g) i) /\
      (forall X g h i, (forall j, (j < n)%nat -> g j = h j) -> (i < n)%nat -> conducted mm X g i = conducted mm X h i) /\
      (forall X c g h i, (i < n)%nat -> conducted mm X (fun j => c * g j + h j) i = c * conducted mm X g i + conducted mm X h i) /\
      (forall X g h, dotn n (conducted mm X g) h = dotn n (conducted mm X h) g)
  | HSource s => forall X t u g, s X t u g = s X t 0 none
  | HFlux q => forall X nu t u, q X nu t u = q X nu t 0 + film q X nu * u
  end.
Definition capacity_density (n : nat) (T : heat_term) (X : vec) (J : mat) (v w : slots) : R :=
  match T with HMaterial mm => fst (mm X 0 none) * (v 0%nat 0%nat * w 0%nat 0%nat) * detn n J | _ => 0 end.
Definition conduct_density (n : nat) (T : heat_term) (X : vec) (J : mat) (v w : slots) : R :=
  match T with
  | HMaterial mm => dotn n (conducted mm X (grad_at n J v 0%nat)) (grad_at n J w 0%nat) * detn n J
  | HSource _ => 0
  | HFlux q => film q X (unit_normal n J) * (v 0%nat 0%nat * w 0%nat 0%nat) * vnorm n (crossn n J) end.
Definition supply_density (n : nat) (T : heat_term) (t : R) (X : vec) (J : mat) (w : slots) : R :=
  match T with
  | HMaterial _ => 0
  | HSource s => s X t 0 none * w 0%nat 0%nat * detn n J
  | HFlux q => - q X (unit_normal n J) t 0 * w 0%nat 0%nat * vnorm n (crossn n J) end.

Section Heat.
Context {St : Type} (n N : nat) (f : functional St) (m : mem St) (terms : list heat_term) (pos : nat -> nat -> nat -> nat -> vec) (jac : nat -> nat -> nat -> nat -> mat)
  (params : nat -> list R).
Definition capacity_form (v w : vec) : R := over_points f (fun k Ig g G r le q =>
  match nth_error terms k with Some T => capacity_density n T (pos k g le q) (jac k g le q) (test_field G r (tab N v) le q) (test_field G r (tab N w) le q) | None => 0 end).
Definition conduct_form (v w : vec) : R := over_points f (fun k Ig g G r le q =>
  match nth_error terms k with Some T => conduct_density n T (pos k g le q) (jac k g le q) (test_field G r (tab N v) le q) (test_field G r (tab N w) le q) | None => 0 end).
Definition supply_form (t : R) (w : vec) : R := over_points f (fun k Ig g G r le q =>
  match nth_error terms k with Some T => supply_density n T t (pos k g le q) (jac k g le q) (test_field G r (tab N w) le q) | None => 0 end).
(** the heat supplied to each degree of freedom *)
Definition supply_vector (t : R) : vec := fun i => supply_form t (fun j => if Nat.eqb j i then 1 else 0).

Hypothesis (D : dim23 n) (LH : List.Forall (linear_heat n) terms).

Lemma capacity_symmetric : symmetric_form N capacity_form.
Proof.
  apply form_of_comb.
  - intros x x' y H. unfold capacity_form. now rewrite (tab_ext N x x' H).
  - intros c x y z. unfold capacity_form. rewrite <- over_points_comb1. apply over_points_ext. intros k Ig g G r le q _ _ _ _ _.
    destruct (nth_error terms k) as [[mm|s|fl]|]; cbn [capacity_density]; try ring. rewrite test_field_comb. ring.
  - intros x y. unfold capacity_form. apply over_points_ext. intros k Ig g G r le q _ _ _ _ _. destruct (nth_error terms k) as [[mm|s|fl]|]; cbn [capacity_density]; ring.
Qed.
Lemma dotn_comb c (x y z : vec) : dotn n (fun i => c * x i + y i) z = c * dotn n x z + dotn n y z.
Proof. unfold dotn. rewrite <- sumn_scal_l, <- sumn_plus. apply sumn_ext. intros. ring. Qed.
Lemma conduct_symmetric : symmetric_form N conduct_form.
Proof.
  apply form_of_comb.
  - intros x x' y H. unfold conduct_form. now rewrite (tab_ext N x x' H).
  - intros c x y z. unfold conduct_form. rewrite <- over_points_comb1. apply over_points_ext. intros k Ig g G r le q _ _ _ _ _.
    destruct (nth_error terms k) as [T|] eqn:ET; [|ring]. assert (HT := proj1 (Forall_forall _ _) LH T (nth_error_In _ _ ET)).
    destruct T as [mm|s|fl]; cbn [conduct_density linear_heat] in *; try ring.
    + destruct HT as (_ & _ & X & L & _).
      rewrite (dotn_ext n _ (fun i => c * conducted mm (pos k g le q) (grad_at n (jac k g le q) (test_field G r (tab N x) le q) 0%nat) i +
          conducted mm (pos k g le q) (grad_at n (jac k g le q) (test_field G r (tab N y) le q) 0%nat) i) _ (grad_at n (jac k g le q) (test_field G r (tab N z) le q) 0%nat)); [rewrite dotn_comb; ring| |auto].
      intros i Hi. rewrite <- L by auto. apply X; auto. intros j _. apply grad_at_comb. intros. apply test_field_comb.
    + rewrite test_field_comb. ring.
  - intros x y. unfold conduct_form. apply over_points_ext. intros k Ig g G r le q _ _ _ _ _.
    destruct (nth_error terms k) as [T|] eqn:ET; [|reflexivity]. assert (HT := proj1 (Forall_forall _ _) LH T (nth_error_In _ _ ET)).
    destruct T as [mm|s|fl]; cbn [conduct_density linear_heat] in *; try ring. destruct HT as (_ & _ & _ & _ & S). now rewrite S.
Qed.
Lemma supply_comb t c x y : supply_form t (fun i => c * x i + y i) = c * supply_form t x + supply_form t y.
Proof.
  unfold supply_form. rewrite <- over_points_comb1. apply over_points_ext. intros k Ig g G r le q _ _ _ _ _.
  destruct (nth_error terms k) as [[mm|s|fl]|]; cbn [supply_density]; try ring; rewrite test_field_comb; ring.
Qed.
Lemma supply_ext t x y : (forall i, (i < N)%nat -> x i = y i) -> supply_form t x = supply_form t y.
Proof. intros H. unfold supply_form. now rewrite (tab_ext N x y H). Qed.
Lemma supply_zero t : supply_form t (fun _ => 0) = 0.
Proof. assert (A := supply_comb t 1 (fun _ => 0) (fun _ => 0)). assert (B : supply_form t (fun i => 1 * 0 + 0) = supply_form t (fun _ => 0)) by (apply supply_ext; intros; ring). lra. Qed.
Lemma supply_expand t h : supply_form t h = dotn N h (supply_vector t).
Proof.
  assert (P : forall M, (M <= N)%nat -> supply_form t (fun i => if (i <? M)%nat then h i else 0) = sumn M (fun i => h i * supply_vector t i)).
  { induction M as [|M IH]; intros HM.
    - cbn [sumn]. transitivity (supply_form t (fun _ => 0)); [|apply supply_zero]. apply supply_ext. intros i _. reflexivity.
    - cbn [sumn]. rewrite <- IH by lia. unfold supply_vector. rewrite Rplus_comm, <- supply_comb. apply supply_ext. intros i _.
      destruct (Nat.eqb_spec i M) as [->|]; [|destruct (Nat.ltb_spec i (S M)), (Nat.ltb_spec i M); try lia; ring].
      rewrite (proj2 (Nat.ltb_lt M (S M))) by lia. rewrite Nat.ltb_irrefl. ring. }
  unfold dotn. rewrite <- (P N) by lia. apply supply_ext. intros i Hi. rewrite (proj2 (Nat.ltb_lt i N) Hi). reflexivity.
Qed.

Section At.
Context (t : R) (x a : vec) (L' : list R) (m' : mem St) (wrt : option nat) (upd : bool) (grad : nat -> nat -> nat -> nat -> mat).
Hypothesis (W : wf f N (fun w => length (arguments N params x a w))) (F : all_fit f) (TS : two_spaces 1 f)
  (RES : heat_residual n f t (arguments N params x a) m terms pos jac grad) (EV : evaluate f t wrt upd (arguments N params x a) N m = Ok (L', m')).

(** the residual against any vector: stored heat, conduction and supplies *)
Theorem heat_tested h : dotn N h (fun i => nth i L' 0) = capacity_form h a + conduct_form h x - dotn N h (supply_vector t).
Proof.
  rewrite <- supply_expand.
  rewrite (form_sym N _ capacity_symmetric h a), (form_sym N _ conduct_symmetric h x).
  transitivity (sumn N (fun k => nth k L' 0 * nth k (tab N h) 0)).
  { unfold dotn. apply sumn_ext. intros i Hi. rewrite nth_tab by auto. ring. }
  rewrite (virtual_work f t wrt upd (arguments N params x a) N m L' m' W F EV (tab N h)).
  transitivity (over_points f (fun k Ig g G r le q => 1 * (1 * match nth_error terms k with Some T => capacity_density n T (pos k g le q) (jac k g le q) (test_field G r (tab N a) le q) (test_field G r (tab N h) le q) | None => 0 end
     + 1 * match nth_error terms k with Some T => conduct_density n T (pos k g le q) (jac k g le q) (test_field G r (tab N x) le q) (test_field G r (tab N h) le q) | None => 0 end)
     + (-1) * match nth_error terms k with Some T => supply_density n T t (pos k g le q) (jac k g le q) (test_field G r (tab N h) le q) | None => 0 end)).
  2:{ rewrite (over_points_comb f 1 (-1)), (over_points_comb f 1 1). fold (capacity_form a h) (conduct_form x h) (supply_form t h). ring. }
  apply over_points_ext. intros k Ig g G r le q E1 E2 E3 Hle Hq.
  destruct (RES k Ig g G le q E1 E2 Hle Hq) as (T & p & out & ET & EP & EO & Ed & EG & EQ). rewrite ET.
  destruct (argument_field 1 N f params x a TS k Ig g G r le q E1 E2 E3) as [A0 A1]. rewrite A0, A1 in EP. rewrite A0 in EG.
  pose proof TS as [_ S2]. destruct (proj2 (S2 Ig (nth_error_In _ _ E1)) G (nth_error_In _ _ E2)) as (_ & _ & Ec). rewrite Ec.
  assert (HT := proj1 (Forall_forall _ _) LH T (nth_error_In _ _ ET)).
  set (X := test_field G r (tab N x) le q) in *. set (A := test_field G r (tab N a) le q) in *. set (Hh := test_field G r (tab N h) le q).
  transitivity (sumn (if is_volume_h T then S n else n) (fun b => out 0%nat b * Hh 0%nat b)).
  { change (sumn 1 ?h) with (0 + h 0%nat). rewrite Rplus_0_l, Ed. apply sumn_ext. intros b Hb. rewrite EQ by (rewrite Ed; auto). reflexivity. }
  assert (GR : is_volume_h T = true -> forall u, grad_phys n (jac k g le q) u = Some (grad_at n (jac k g le q) u)).
  { intros V u. specialize (EG V). unfold grad_phys, parent_to_physical in EG |- *. unfold grad_at. destruct (invn n (jac k g le q)) as [K|]; [reflexivity|discriminate]. }
  rewrite (heat_point_power n T t (pos k g le q) (jac k g le q) X A p out (grad_at n (jac k g le q) X) Hh (grad_at n (jac k g le q) Hh) D EP EO (fun V => GR V X) (fun V => GR V Hh)).
  destruct T as [mm|s|fl]; cbn [heat_power capacity_density conduct_density supply_density linear_heat] in *.
  - destruct HT as (Hc & Hf & _). rewrite Hc. unfold dotn, conducted.
    rewrite (sumn_ext n (fun j => snd (mm _ _ _) j * _) (fun j => - 1 * (- snd (mm (pos k g le q) 0 (grad_at n (jac k g le q) X 0%nat)) j * grad_at n (jac k g le q) Hh 0%nat j)))
      by (intros j Hj; rewrite Hf by auto; ring). rewrite sumn_scal_l. ring.
  - rewrite HT. ring.
  - rewrite HT. ring.
Qed.
End At.

Section Problem.
Context (ess : nat -> bool) (g : R -> vec).
Hypothesis (W : forall x a, wf f N (fun w => length (arguments N params x a w))) (F : all_fit f) (TS : two_spaces 1 f)
  (RES : forall t x a, exists grad, heat_residual n f t (arguments N params x a) m terms pos jac grad).
(** heat_transfer.hpp:727-762: the residual of the heat equation, with temperature and rate as arguments 0 and 1 *)
Definition heat_problem : problem :=
  {| p_n := N; p_ess := ess; p_g := g;
     p_res := fun t x a i => match evaluate f t None false (arguments N params x a) N m with Ok (L, _) => nth i L 0 | _ => 0 end |}.
Theorem heat_motion : linear_motion heat_problem capacity_form conduct_form supply_vector.
Proof.
  intros t x a h. cbn [p_n heat_problem]. destruct (evaluate_spec f t None false (arguments N params x a) N m (W x a)) as (L' & E & _).
  rewrite (dotn_ext N h h _ (fun i => nth i L' 0)); auto.
  - destruct (RES t x a) as (grad & RE). exact (heat_tested t x a L' _ None false grad (W x a) F TS RE E h).
  - intros i _. cbn [heat_problem p_res]. now rewrite E.
Qed.
Theorem heat_extensional : extensional heat_problem.
Proof. exact (elastic_extensional N f m params ess g W). Qed.
End Problem.

Definition oriented_heat : Prop := forall k Ig g G le q, nth_error (f_integrals f) k = Some Ig -> nth_error (i_geoms Ig) g = Some G -> (le < length (gk_elems G))%nat -> (q < gk_nq G)%nat ->
  0 <= gk_w G q /\ forall mm, nth_error terms k = Some (HMaterial mm) -> 0 <= detn n (jac k g le q).
Definition positive_heat : Prop := (forall mm, In (HMaterial mm) terms -> forall X, 0 <= fst (mm X 0 none) /\ forall h, 0 <= dotn n (conducted mm X h) h) /\
  forall fl, In (HFlux fl) terms -> forall X nu, 0 <= film fl X nu.
Theorem capacity_nonneg : oriented_heat -> positive_heat -> nonnegative capacity_form.
Proof.
  intros O [P _] x. unfold capacity_form. apply over_points_nonneg. intros k Ig g0 G r le q E1 E2 Hle Hq.
  destruct (nth_error terms k) as [T|] eqn:ET; [|lra]. destruct T as [mm|s|fl]; cbn [capacity_density]; try lra.
  destruct (P mm (nth_error_In _ _ ET) (pos k g0 le q)) as [Pc _]. destruct (O k Ig g0 G le q E1 E2 Hle Hq) as [Ow Od]. specialize (Od mm ET).
  apply Rmult_le_pos; [|exact Ow]. apply Rmult_le_pos; [|exact Od]. apply Rmult_le_pos; [exact Pc|apply Rle_0_sqr].
Qed.
Theorem conduct_nonneg : oriented_heat -> positive_heat -> nonnegative conduct_form.
Proof.
  intros O [P Q] x. unfold conduct_form. apply over_points_nonneg. intros k Ig g0 G r le q E1 E2 Hle Hq.
  destruct (O k Ig g0 G le q E1 E2 Hle Hq) as [Ow Od].
  destruct (nth_error terms k) as [T|] eqn:ET; [|lra]. destruct T as [mm|s|fl]; cbn [conduct_density]; try lra.
  - destruct (P mm (nth_error_In _ _ ET) (pos k g0 le q)) as [_ Pc]. specialize (Od mm eq_refl).
    apply Rmult_le_pos; [|exact Ow]. apply Rmult_le_pos; [apply Pc|exact Od].
  - apply Rmult_le_pos; [|exact Ow]. apply Rmult_le_pos; [|apply sqrt_pos]. apply Rmult_le_pos; [apply Q; exact (nth_error_In _ _ ET)|apply Rle_0_sqr].
Qed.
End Heat.

(** Fourier's law with a constant symmetric conductivity (thermal_material.hpp:131-176 LinearConductor; 20-62 LinearIsotropicConductor for a multiple of the identity) *)
Definition fourier_law (n : nat) (c : R) (kappa : mat) : vec -> R -> vec -> R * vec := fun _ _ g => (c, fun i => - 1 * sumn n (fun j => kappa i j * g j)).
Lemma fourier_conducted n c kappa X g i : conducted (fourier_law n c kappa) X g i = sumn n (fun j => kappa i j * g j).
Proof. unfold conducted, fourier_law. cbn [snd]. ring. Qed.
Theorem fourier_linear n c kappa : (forall i j, (i < n)%nat -> (j < n)%nat -> kappa i j = kappa j i) -> linear_heat n (HMaterial (fourier_law n c kappa)).
Proof.
  intros S. cbn [linear_heat]. split; [reflexivity|]. split; [reflexivity|]. split; [|split].
  - intros X g h i H _. rewrite !fourier_conducted. apply sumn_ext. intros j Hj. now rewrite H.
  - intros X d g h i _. rewrite !fourier_conducted. rewrite <- sumn_scal_l, <- sumn_plus. apply sumn_ext. intros. ring.
  - intros X g h. unfold dotn. transitivity (sumn n (fun i => sumn n (fun j => kappa i j * g j * h i))).
    { apply sumn_ext. intros i _. rewrite fourier_conducted. now rewrite sumn_scal_r. }
    rewrite sumn_swap. apply sumn_ext. intros i Hi. rewrite fourier_conducted. rewrite <- sumn_scal_r. apply sumn_ext. intros j Hj. rewrite (S i j) by auto. ring.
Qed.
(** Newton's law of cooling *)
Lemma cooling_linear n (h : vec -> R) (Tinf : R -> R) : linear_heat n (HFlux (fun X nu t u => h X * (u - Tinf t))).
Proof. cbn [linear_heat]. intros. unfold film. ring. Qed.
Lemma cooling_film (h : vec -> R) (Tinf : R -> R) X nu : film (fun X nu t u => h X * (u - Tinf t)) X nu = h X.
Proof. unfold film. ring. Qed.

(** a sequence of backward Euler steps (mfem BackwardEulerSolver on FirstOrderODE, odes.cpp:250-349) *)
Fixpoint diffusion_run (p : problem) (solver : R -> R -> vec -> vec -> vec) (t : R) (x : vec) (dts : list R) : list vec :=
  match dts with [] => [] | dt :: rest => let x' := fst (backward_euler1 p solver DirectControl t dt x) in x' :: diffusion_run p solver (t + dt) x' rest end.
(** each entry of a list, compared with the one before it *)
Fixpoint decreasing (q : vec -> R) (x : vec) (states : list vec) : Prop := match states with [] => True | x' :: rest => q x' <= q x /\ decreasing q x' rest end.
Theorem diffusion_decays p solver m k f g : solves p solver -> symmetric_form (p_n p) m -> symmetric_form (p_n p) k -> linear_motion p m k f -> nonnegative m -> nonnegative k ->
  unloaded f -> fixed p g -> forall dts, List.Forall (fun dt => 0 < dt) dts -> forall t x, (forall i, (i < p_n p)%nat -> p_ess p i = true -> x i = g i) ->
  decreasing (fun y => k y y) x (diffusion_run p solver t x dts) /\ ((forall i, g i = 0) -> decreasing (fun y => m y y) x (diffusion_run p solver t x dts)).
Proof.
  intros S Bm Bk L Pm Pk U Fx dts. induction dts as [|dt dts IH]; intros Hd t x Hx; [split; [exact I|intros _; exact I]|].
  inversion Hd as [|? ? Hdt Hrest]; subst. cbn [diffusion_run]. assert (E := euler1_run p solver m k f S Bm Bk L t dt x Hdt).
  destruct (euler1_ok p solver S t dt x Hdt) as [HE _]. destruct (backward_euler1 p solver DirectControl t dt x) as [x' r] eqn:EB. cbn [fst].
  destruct E as (_ & _ & E). destruct (E g U Fx Pm Pk Hx) as [E1 E2].
  assert (Hx' : forall i, (i < p_n p)%nat -> p_ess p i = true -> x' i = g i).
  { intros i Hi Es. destruct HE as (_ & _ & Hh). rewrite Hh by auto. now apply Fx. }
  destruct (IH Hrest (t + dt) x' Hx') as [I1 I2]. split; [split; [exact E1|exact I1]|]. intros G0. split; [now apply E2|now apply I2].
Qed.

(** ** statements used by P_EnergyHeat *)
Theorem heat_residual_forms : forall St n N (f : functional St) m terms pos jac params t x a L' m' wrt upd grad, dim23 n -> List.Forall (linear_heat n) terms ->
  wf f N (fun w => length (arguments N params x a w)) -> all_fit f -> two_spaces 1 f -> heat_residual n f t (arguments N params x a) m terms pos jac grad ->
  evaluate f t wrt upd (arguments N params x a) N m = Ok (L', m') ->
  symmetric_form N (capacity_form n N f terms pos jac) /\ symmetric_form N (conduct_form n N f terms pos jac) /\
  forall h, dotn N h (fun i => nth i L' 0) = capacity_form n N f terms pos jac h a + conduct_form n N f terms pos jac h x - dotn N h (supply_vector n N f terms pos jac t).
Proof.
  intros St n N f m terms pos jac params t x a L' m' wrt upd grad D LH W F TS RES EV. split; [apply capacity_symmetric|]. split; [now apply conduct_symmetric|].
  intros h. exact (heat_tested n N f m terms pos jac params D LH t x a L' m' wrt upd grad W F TS RES EV h).
Qed.
Theorem heat_case : forall St n N (f : functional St) m terms pos jac params ess g, dim23 n -> List.Forall (linear_heat n) terms ->
  (forall x a, wf f N (fun w => length (arguments N params x a w))) -> all_fit f -> two_spaces 1 f -> (forall t x a, exists grad, heat_residual n f t (arguments N params x a) m terms pos jac grad) ->
  extensional (heat_problem N f m params ess g) /\
  linear_motion (heat_problem N f m params ess g) (capacity_form n N f terms pos jac) (conduct_form n N f terms pos jac) (supply_vector n N f terms pos jac).
Proof. intros St n N f m terms pos jac params ess g D LH W F TS RES. split; [now apply heat_extensional|now apply heat_motion]. Qed.
Theorem heat_forms_positive : forall St n N (f : functional St) terms pos jac, oriented_heat n f terms jac -> positive_heat n terms ->
  nonnegative (capacity_form n N f terms pos jac) /\ nonnegative (conduct_form n N f terms pos jac).
Proof. intros St n N f terms pos jac O P. split; [now apply capacity_nonneg|now apply conduct_nonneg]. Qed.
(** a heat module without sources and prescribed fluxes: any run of backward Euler steps *)
Theorem heat_run_decays : forall St n N (f : functional St) m terms pos jac params ess g solver, dim23 n -> List.Forall (linear_heat n) terms ->
  (forall x a, wf f N (fun w => length (arguments N params x a w))) -> all_fit f -> two_spaces 1 f -> (forall t x a, exists grad, heat_residual n f t (arguments N params x a) m terms pos jac grad) ->
  oriented_heat n f terms jac -> positive_heat n terms ->
  (forall s, In (HSource s) terms -> forall X t, s X t 0 none = 0) -> (forall q, In (HFlux q) terms -> forall X nu t, q X nu t 0 = 0) ->
  solves (heat_problem N f m params ess (fun _ => g)) solver ->
  forall dts, List.Forall (fun dt => 0 < dt) dts -> forall t x, (forall i, (i < N)%nat -> ess i = true -> x i = g i) ->
  let states := diffusion_run (heat_problem N f m params ess (fun _ => g)) solver t x dts in
  decreasing (fun y => conduct_form n N f terms pos jac y y) x states /\ ((forall i, g i = 0) -> decreasing (fun y => capacity_form n N f terms pos jac y y) x states).
Proof.
  intros St n N f m terms pos jac params ess g solver D LH W F TS RES O P S0 Q0 Sol dts Hd t x Hx.
  apply (diffusion_decays _ solver _ _ (supply_vector n N f terms pos jac) g Sol (capacity_symmetric n N f terms pos jac) (conduct_symmetric n N f terms pos jac LH)); auto.
  - now apply heat_motion.
  - now apply capacity_nonneg.
  - now apply conduct_nonneg.
  - intros t' i. unfold supply_vector, supply_form. transitivity (over_points f (fun _ _ _ _ _ _ _ => 0)).
    + apply over_points_ext. intros k Ig g0 G r le q _ _ _ _ _. destruct (nth_error terms k) as [[mm|s|fl]|] eqn:ET; cbn [supply_density]; try reflexivity; apply nth_error_In in ET.
      * rewrite (S0 s ET). ring.
      * rewrite (Q0 fl ET). ring.
    + assert (A := over_points_comb1 f 1 (fun _ _ _ _ _ _ _ => 0) (fun _ _ _ _ _ _ _ => 0)). rewrite (over_points_ext f _ (fun _ _ _ _ _ _ _ => 0)) in A; [lra|]. intros. ring.
  - intros t' i _ _. reflexivity.
Qed.
Theorem fourier_case : forall n c kappa, (forall i j, (i < n)%nat -> (j < n)%nat -> kappa i j = kappa j i) -> linear_heat n (HMaterial (fourier_law n c kappa)).
Proof. exact fourier_linear. Qed.
Theorem cooling_case : forall n (h : vec -> R) (Tinf : R -> R), linear_heat n (HFlux (fun X nu t u => h X * (u - Tinf t))) /\ forall X nu, film (fun X nu t u => h X * (u - Tinf t)) X nu = h X.
Proof. intros n h Tinf. split; [apply cooling_linear|]. intros. now apply cooling_film. Qed.
