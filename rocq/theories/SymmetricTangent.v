(** * The tangent stiffness of a solid (C89)
    The residual is the one of WeakFormPhysics.v (solid_mechanics.hpp:808-1103 through Functional). The specification says what the tangent of a
    material is and what it means that it is symmetric; the theorems give the rate of the nodal forces along any motion and compare
    the stiffness of degree of freedom i against j with that of j against i. *)
From Coq Require Import NArith ZArith Reals List Lia Lra Bool.
From Coquelicot Require Import Coquelicot.
From Verif Require Import Prelude DofCodec Sums Restriction Kernels FunctionalModel Assembly Dual LUDeriv Tensor MatAlg Materials MaterialFacts ShapeAware WeakForm WeakFormFacts WeakFormPhysics WeakFormWork Fit Ode Energy EnergySolid EnergyRun StoredEnergy StoredEnergyUse.
Import ListNotations.
Local Open Scope R_scope.

(** ** specification *)
(** [C st H D E]: the rate, against the displacement gradient [E], of the Piola stress of a material at displacement gradient [H] which changes at
    the rate [D]. Pressures follow the undeformed geometry *)
Definition has_tangent {St} (n : nat) (T : solid_term St) (C : St -> mat -> mat -> mat -> R) : Prop :=
  match T with
  | SMaterial on _ sigma => forall st H t0 D E (P : R -> mat), mderive n H t0 D ->
      locally t0 (fun t => exists s, sigma st (H t) = Some s /\ flux n on s (H t) = Some (P t)) ->
      is_derive (fun t => inner n n (P t) E) t0 (C st (H t0) D E)
  | SPressure on _ => on = false
  | _ => True end.
Definition symmetric_tangent {St} (C : St -> mat -> mat -> mat -> R) : Prop := forall st H D E, C st H D E = C st H E D.
(** rate, against the field [w], of the terms at a point of parent-to-physical map [J] where the displacement [u] changes at the rate [v] and the
    acceleration at the rate [b]; per unit of parent measure *)
Definition point_tangent {St} (n : nat) (T : solid_term St) (C : St -> mat -> mat -> mat -> R) (st : St) (J : mat) (u v b w : slots) : R :=
  match T with
  | SMaterial _ rho _ => (rho * sumn n (fun i => b i 0%nat * w i 0%nat) + C st (grad_at n J u) (grad_at n J v) (grad_at n J w)) * detn n J
  | _ => 0 end.
(** the unit displacement of one degree of freedom *)
Definition unit_dof (j : nat) : vec := fun i => if Nat.eqb i j then 1 else 0.

(** ** the terms at a point *)
Definition piola_of {St} (n : nat) (T : solid_term St) (st : St) (H : mat) : mat :=
  match T with
  | SMaterial on _ sigma => match sigma st H with Some s => match flux n on s H with Some P => P | None => zero end | None => zero end
  | _ => zero end.
Definition has_stress {St} (n : nat) (T : solid_term St) (st : St) (H : mat) : Prop :=
  match T with SMaterial on _ sigma => exists s, sigma st H = Some s /\ flux n on s H = Some (piola_of n T st H) | _ => True end.
Lemma point_work {St} n (T : solid_term St) t X J u a st p out w : dim23 n -> solid_point n T t X J u a st = Some p -> point_out n p = Some out ->
  has_stress n T st (grad_at n J u) /\
  sumn n (fun i => sumn (if is_volume T then S n else n) (fun b => out i b * w i b)) = solid_power n T t X J u a w (piola_of n T st (grad_at n J u)) (grad_at n J w).
Proof.
  intros D EP EO.
  assert (GR : is_volume T = true -> forall v, grad_phys n J v = Some (grad_at n J v)).
  { intros V v. assert (X0 : exists Hw, grad_phys n J v = Some Hw).
    { destruct T as [on rho sigma|b|tr|on pr]; try discriminate; cbn [solid_point] in EP.
      - destruct (grad_phys n J u) as [H|]; [|discriminate]. destruct (sigma st H) as [s|]; [|discriminate]. destruct (flux n on s H) as [P|]; [|discriminate].
        injection EP as <-. eapply volume_grad; eassumption.
      - injection EP as <-. eapply volume_grad; eassumption. }
    destruct X0 as (Hw & E). rewrite E. f_equal. unfold grad_phys, parent_to_physical, grad_at in *. destruct (invn n J) as [K|]; [|discriminate]. injection E as <-. reflexivity. }
  assert (HS : has_stress n T st (grad_at n J u)).
  { destruct T as [on rho sigma|b|tr|on pr]; try exact Logic.I. cbn [solid_point has_stress piola_of] in *. rewrite (GR eq_refl u) in EP.
    destruct (sigma st (grad_at n J u)) as [s|]; [|discriminate]. destruct (flux n on s (grad_at n J u)) as [P|] eqn:EF; [|discriminate]. now exists s. }
  split; [exact HS|].
  apply (solid_point_power n T t X J u a st p out (grad_at n J u) w (grad_at n J w) D EP EO (fun V => GR V u) (fun V => GR V w)).
  destruct T as [on rho sigma|b|tr|on pr]; try exact Logic.I. destruct HS as (s & Es & EF). cbn [is_piola]. exists s. split; [exact Es|]. now apply flux_moment.
Qed.

Section Body.
Context {St : Type} (n N : nat) (f : functional St) (m : mem St) (term : nat -> nat -> nat -> nat -> solid_term St)
  (pos : nat -> nat -> nat -> nat -> vec) (jac : nat -> nat -> nat -> nat -> mat) (params : nat -> list R)
  (C : nat -> nat -> nat -> nat -> St -> mat -> mat -> mat -> R).
(** the residual consists, point by point, of the terms [term] *)
Definition residual_of (t : R) (Ls : nat -> list R) : Prop :=
  forall k Ig g G le q, nth_error (f_integrals f) k = Some Ig -> nth_error (i_geoms Ig) g = Some G -> (le < length (gk_elems G))%nat -> (q < gk_nq G)%nat ->
  exists p out, solid_point n (term k g le q) t (pos k g le q) (jac k g le q) (qf_inputs G g (Es_of f Ls Ig) le q 0%nat) (qf_inputs G g (Es_of f Ls Ig) le q 1%nat) (m_q m k g le q) = Some p /\
    point_out n p = Some out /\ gk_dim1 G = (if is_volume (term k g le q) then S n else n) /\
    (forall i b, (i < n)%nat -> (b < gk_dim1 G)%nat -> qf_out f t Ls m k Ig g G le q i b = out i b).
Definition point_forces (t : R) (x a : vec) (L : list R) : Prop :=
  wf f N (fun w => length (arguments N params x a w)) /\ residual_of t (arguments N params x a) /\
  exists wrt upd m', evaluate f t wrt upd (arguments N params x a) N m = Ok (L, m').
(** rate of the nodal forces against [w] *)
Definition tangent_form (x v b w : vec) : R := over_points f (fun k Ig g G r le q =>
  point_tangent n (term k g le q) (C k g le q) (m_q m k g le q) (jac k g le q) (test_field G r (tab N x) le q) (test_field G r (tab N v) le q) (test_field G r (tab N b) le q) (test_field G r (tab N w) le q)).

Hypothesis (D : dim23 n) (F : all_fit f) (TS : two_spaces n f).
Definition has_tangents : Prop := forall k Ig g G le q, nth_error (f_integrals f) k = Some Ig -> nth_error (i_geoms Ig) g = Some G -> (le < length (gk_elems G))%nat -> (q < gk_nq G)%nat ->
  has_tangent n (term k g le q) (C k g le q).

Lemma forces_work t x a L w : point_forces t x a L ->
  (forall k Ig g G r le q, nth_error (f_integrals f) k = Some Ig -> nth_error (i_geoms Ig) g = Some G -> nth_error (f_test f (i_type Ig)) g = Some r -> (le < length (gk_elems G))%nat -> (q < gk_nq G)%nat ->
     has_stress n (term k g le q) (m_q m k g le q) (grad_at n (jac k g le q) (test_field G r (tab N x) le q))) /\
  dotn N w (fun i => nth i L 0) = over_points f (fun k Ig g G r le q =>
    solid_power n (term k g le q) t (pos k g le q) (jac k g le q) (test_field G r (tab N x) le q) (test_field G r (tab N a) le q) (test_field G r (tab N w) le q)
      (piola_of n (term k g le q) (m_q m k g le q) (grad_at n (jac k g le q) (test_field G r (tab N x) le q))) (grad_at n (jac k g le q) (test_field G r (tab N w) le q))).
Proof.
  intros (W & RES & wrt & upd & m' & EV).
  assert (PT : forall k Ig g G r le q, nth_error (f_integrals f) k = Some Ig -> nth_error (i_geoms Ig) g = Some G -> nth_error (f_test f (i_type Ig)) g = Some r -> (le < length (gk_elems G))%nat -> (q < gk_nq G)%nat ->
     has_stress n (term k g le q) (m_q m k g le q) (grad_at n (jac k g le q) (test_field G r (tab N x) le q)) /\
     sumn (es_c (gk_test G)) (fun i => sumn (gk_dim1 G) (fun b => qf_out f t (arguments N params x a) m k Ig g G le q i b * test_field G r (tab N w) le q i b)) =
     solid_power n (term k g le q) t (pos k g le q) (jac k g le q) (test_field G r (tab N x) le q) (test_field G r (tab N a) le q) (test_field G r (tab N w) le q)
      (piola_of n (term k g le q) (m_q m k g le q) (grad_at n (jac k g le q) (test_field G r (tab N x) le q))) (grad_at n (jac k g le q) (test_field G r (tab N w) le q))).
  { intros k Ig g G r le q E1 E2 E3 Hle Hq. destruct (RES k Ig g G le q E1 E2 Hle Hq) as (p & out & EP & EO & Ed & EQ).
    destruct (argument_field n N f params x a TS k Ig g G r le q E1 E2 E3) as [A0 A1]. rewrite A0, A1 in EP.
    destruct TS as [_ S2]. destruct (proj2 (S2 Ig (nth_error_In _ _ E1)) G (nth_error_In _ _ E2)) as (_ & _ & Ec). rewrite Ec.
    destruct (point_work n (term k g le q) t (pos k g le q) (jac k g le q) _ _ _ p out (test_field G r (tab N w) le q) D EP EO) as [HS HW]. split; [exact HS|].
    rewrite <- HW. apply sumn_ext. intros i Hi. rewrite Ed. apply sumn_ext. intros b Hb. rewrite EQ by (auto; rewrite Ed; auto). reflexivity. }
  split.
  - intros k Ig g G r le q E1 E2 E3 Hle Hq. exact (proj1 (PT k Ig g G r le q E1 E2 E3 Hle Hq)).
  - assert (EW : dotn N w (fun i => nth i L 0) = sumn N (fun k => nth k L 0 * nth k (tab N w) 0)).
    { unfold dotn. apply sumn_ext. intros i Hi. rewrite nth_tab by auto. ring. }
    rewrite EW, (virtual_work f t wrt upd (arguments N params x a) N m L m' W F EV (tab N w)). apply over_points_ext.
    intros k Ig g G r le q E1 E2 E3 Hle Hq. exact (proj2 (PT k Ig g G r le q E1 E2 E3 Hle Hq)).
Qed.

(** the rate of the nodal forces along any motion of displacement and acceleration *)
Theorem forces_rate t (y a : R -> vec) v b (L : R -> list R) tau w : has_tangents -> vderive N y tau v -> vderive N a tau b ->
  locally tau (fun s => point_forces t (y s) (a s) (L s)) ->
  is_derive (fun s => dotn N w (fun i => nth i (L s) 0)) tau (tangent_form (y tau) v b w).
Proof.
  intros HT HV HB HL.
  apply (is_derive_ext_loc (fun s => over_points f (fun k Ig g G r le q =>
    solid_power n (term k g le q) t (pos k g le q) (jac k g le q) (test_field G r (tab N (y s)) le q) (test_field G r (tab N (a s)) le q) (test_field G r (tab N w) le q)
      (piola_of n (term k g le q) (m_q m k g le q) (grad_at n (jac k g le q) (test_field G r (tab N (y s)) le q))) (grad_at n (jac k g le q) (test_field G r (tab N w) le q))))).
  { apply filter_imp with (2 := HL). intros s H. symmetry. exact (proj2 (forces_work t (y s) (a s) (L s) w H)). }
  unfold tangent_form. apply over_points_derive. intros k Ig g G r le q E1 E2 E3 Hle Hq.
  assert (HS : locally tau (fun s => has_stress n (term k g le q) (m_q m k g le q) (grad_at n (jac k g le q) (test_field G r (tab N (y s)) le q)))).
  { apply filter_imp with (2 := HL). intros s H. exact (proj1 (forces_work t (y s) (a s) (L s) w H) k Ig g G r le q E1 E2 E3 Hle Hq). }
  assert (HC := HT k Ig g G le q E1 E2 Hle Hq). assert (GD := grad_at_derive n (jac k g le q) G r N y v tau le q HV).
  set (T := term k g le q) in *. destruct T as [on rho sigma|bf|tr|on pr]; cbn [solid_power point_tangent has_tangent has_stress] in *.
  2,3: apply d_const.
  - apply d_scal_r. refine (d_plus _ _ tau _ _ _ (HC (m_q m k g le q) (fun s => grad_at n (jac k g le q) (test_field G r (tab N (y s)) le q)) tau _ (grad_at n (jac k g le q) (test_field G r (tab N w) le q)) _ GD HS)).
    rewrite <- sumn_scal_l. refine (d_sumn (fun s i => rho * test_field G r (tab N (a s)) le q i 0%nat * test_field G r (tab N w) le q i 0%nat) n tau _ _). intros i _.
    refine (d_ext _ _ _ _ (d_scal_r _ _ tau _ (d_scal rho _ tau _ (test_field_derive G r N a b tau le q i 0%nat HB))) _). ring.
  - rewrite HC. apply d_const.
Qed.

(** the stiffness of one degree of freedom against another, also when the acceleration follows the displacement at a fixed rate, as in a time step *)
Theorem stiffness_symmetric_at t x a c (L : nat -> R -> list R) (A : mat) : has_tangents -> (forall k g le q, symmetric_tangent (C k g le q)) ->
  (forall j, (j < N)%nat -> locally 0 (fun s => point_forces t (fun i => x i + s * unit_dof j i) (fun i => a i + s * (c * unit_dof j i)) (L j s))) ->
  (forall i j, (i < N)%nat -> (j < N)%nat -> is_derive (fun s => nth i (L j s) 0) 0 (A i j)) ->
  forall i j, (i < N)%nat -> (j < N)%nat -> A i j = A j i.
Proof.
  intros HT HC HL HA.
  assert (E : forall i j, (i < N)%nat -> (j < N)%nat -> A i j = tangent_form x (unit_dof j) (fun k => c * unit_dof j k) (unit_dof i)).
  { intros i j Hi Hj. rewrite <- (is_derive_unique _ _ _ (HA i j Hi Hj)). apply is_derive_unique.
    assert (Q := forces_rate t (fun s k => x k + s * unit_dof j k) (fun s k => a k + s * (c * unit_dof j k)) (unit_dof j) (fun k => c * unit_dof j k) (L j) 0 (unit_dof i) HT
      (line_derive N x (unit_dof j)) (line_derive N a (fun k => c * unit_dof j k)) (HL j Hj)).
    assert (T0 : tab N (fun k => x k + 0 * unit_dof j k) = tab N x) by (apply tab_ext; intros; ring).
    unfold tangent_form in Q. rewrite T0 in Q. refine (is_derive_ext _ _ _ _ _ Q). intros s. exact (sumn_unit N i (fun k => nth k (L j s) 0) Hi). }
  intros i j Hi Hj. rewrite (E i j Hi Hj), (E j i Hj Hi). unfold tangent_form. apply over_points_ext. intros k Ig g G r le q _ _ _ _ _.
  assert (TF : forall l, forall i0, test_field G r (tab N (fun k0 => c * unit_dof l k0)) le q i0 0%nat = c * test_field G r (tab N (unit_dof l)) le q i0 0%nat).
  { intros l i0. rewrite <- (Rplus_0_r (c * _)).
    assert (Z : test_field G r (tab N (fun _ => 0)) le q i0 0%nat = 0).
    { assert (Z := test_field_comb G r N (fun _ => 0) (fun _ => 0) 1 le q i0 0%nat). cbv beta in Z. replace (tab N (fun j0 => 1 * 0 + 0)) with (tab N (fun _ : nat => 0)) in Z by (apply tab_ext; intros; ring). lra. }
    rewrite <- Z. rewrite <- test_field_comb. replace (tab N (fun k0 => c * unit_dof l k0)) with (tab N (fun j0 => c * unit_dof l j0 + 0)); [reflexivity|]. apply tab_ext. intros; ring. }
  destruct (term k g le q) as [on rho sigma|bf|tr|on pr]; cbn [point_tangent]; try reflexivity. rewrite (HC k g le q). f_equal. f_equal. f_equal.
  apply sumn_ext. intros i0 _. rewrite !TF. ring.
Qed.
End Body.
