(** * The potential energy of an elastic body and the residual of the solid module (C87)
    The residual is the one of WeakFormPhysics.v (solid_mechanics.hpp:808-1103 through Functional). The specification says what it
    means that a material stores the work done on it and what the potential energy of a body is; the theorems compare the nodal
    forces which the module evaluates with the slope of that energy. *)
From Coq Require Import NArith ZArith Reals List Lia Lra Bool.
From Coquelicot Require Import Coquelicot.
From Verif Require Import Prelude DofCodec Sums Restriction Kernels FunctionalModel Assembly Dual LUDeriv Tensor MatAlg Materials MaterialFacts ShapeAware WeakForm WeakFormFacts WeakFormPhysics WeakFormWork Fit Ode Energy EnergySolid.
Import ListNotations.
Local Open Scope R_scope.

(** ** specification *)
(** [psi] is the energy per undeformed volume which a material stores: along every motion of the displacement gradient it changes at
    the rate at which the Piola stress works. Pressures follow the undeformed geometry, other loads are dead *)
Definition stores {St} (n : nat) (T : solid_term St) (psi : St -> mat -> R) : Prop :=
  match T with
  | SMaterial on _ sigma => forall st H t0 D s P, mderive n H t0 D -> sigma st (H t0) = Some s -> flux n on s (H t0) = Some P ->
      is_derive (fun t => psi st (H t)) t0 (inner n n P D)
  | SPressure on _ => on = false
  | _ => True end.
(** energy per unit of parent measure *)
Definition stored_density {St} (n : nat) (T : solid_term St) (psi : St -> mat -> R) (st : St) (J : mat) (u : slots) : R :=
  match T with SMaterial _ _ _ => psi st (grad_at n J u) * detn n J | _ => 0 end.
(** a motion of the degrees of freedom and its velocity *)
Definition vderive (N : nat) (x : R -> vec) (tau : R) (v : vec) : Prop := forall i, (i < N)%nat -> is_derive (fun s => x s i) tau (v i).

(** ** derivatives of quadrature sums and of interpolated fields *)
Lemma d_scal_r (c : R) (f : R -> R) x l : is_derive f x l -> is_derive (fun t => f t * c) x (l * c).
Proof. intros H. refine (d_ext _ _ _ _ (d_mult f (fun _ => c) x l 0 H (d_const c x)) _). ring. Qed.
Lemma over_points_derive {S} (f : functional S) (h : R -> nat -> integral S -> nat -> gkernel S -> restriction -> nat -> nat -> R) d tau :
  (forall k Ig g G r le q, nth_error (f_integrals f) k = Some Ig -> nth_error (i_geoms Ig) g = Some G -> nth_error (f_test f (i_type Ig)) g = Some r ->
     (le < length (gk_elems G))%nat -> (q < gk_nq G)%nat -> is_derive (fun s => h s k Ig g G r le q) tau (d k Ig g G r le q)) ->
  is_derive (fun s => over_points f (h s)) tau (over_points f d).
Proof.
  intros H. unfold over_points.
  refine (d_sumn (fun s k => match nth_error (f_integrals f) k with None => 0 | Some Ig => sumn (length (i_geoms Ig)) (fun g => match nth_error (i_geoms Ig) g, nth_error (f_test f (i_type Ig)) g with
      | Some G, Some r => sumn (length (gk_elems G)) (fun le => sumn (gk_nq G) (fun q => h s k Ig g G r le q * gk_w G q)) | _, _ => 0 end) end) _ tau _ _).
  intros k _. destruct (nth_error (f_integrals f) k) as [Ig|] eqn:E1; [|apply d_const].
  refine (d_sumn (fun s g => match nth_error (i_geoms Ig) g, nth_error (f_test f (i_type Ig)) g with
      | Some G, Some r => sumn (length (gk_elems G)) (fun le => sumn (gk_nq G) (fun q => h s k Ig g G r le q * gk_w G q)) | _, _ => 0 end) _ tau _ _).
  intros g _. destruct (nth_error (i_geoms Ig) g) as [G|] eqn:E2; [|apply d_const]. destruct (nth_error (f_test f (i_type Ig)) g) as [r|] eqn:E3; [|apply d_const].
  refine (d_sumn (fun s le => sumn (gk_nq G) (fun q => h s k Ig g G r le q * gk_w G q)) _ tau _ _). intros le Hle.
  refine (d_sumn (fun s q => h s k Ig g G r le q * gk_w G q) _ tau _ _). intros q Hq.
  apply d_scal_r. exact (H k Ig g G r le q E1 E2 E3 Hle Hq).
Qed.
Lemma test_field_derive {St} (G : gkernel St) r N x v tau le q i b : vderive N x tau v ->
  is_derive (fun s => test_field G r (tab N (x s)) le q i b) tau (test_field G r (tab N v) le q i b).
Proof.
  intros H. unfold test_field, interpolate.
  refine (d_sumn (fun s k => elem_dofs (gk_test G) (gatherF r (tab N (x s))) (nth le (gk_elems G) 0%nat) i k * es_B (gk_test G) k q b) _ tau _ _). intros k _.
  apply d_scal_r.
  unfold elem_dofs, gatherF. set (I0 := ((_ * _ + i) * _ + k)%nat). clearbody I0. destruct (lt_dec I0 (esize r)) as [L|L].
  - rewrite (nth_tab (esize r)) by auto. set (J0 := Z.to_nat _). 
    apply (is_derive_ext (fun s => nth J0 (tab N (x s)) 0)).
    { intros s. now rewrite (nth_tab (esize r)) by auto. }
    clearbody J0. destruct (lt_dec J0 N) as [L'|L'].
    + rewrite nth_tab by auto. apply (is_derive_ext (fun s => x s J0)); [|now apply H]. intros s. now rewrite nth_tab.
    + rewrite nth_tab0 by lia. apply (is_derive_ext (fun _ => 0)); [|apply d_const]. intros s. now rewrite nth_tab0 by lia.
  - rewrite (nth_tab0 (esize r)) by lia. apply (is_derive_ext (fun _ => 0)); [|apply d_const]. intros s. now rewrite nth_tab0 by lia.
Qed.
Lemma grad_at_derive {St} n J (G : gkernel St) r N x v tau le q : vderive N x tau v ->
  mderive n (fun s => grad_at n J (test_field G r (tab N (x s)) le q)) tau (grad_at n J (test_field G r (tab N v) le q)).
Proof.
  intros H i j _ _. unfold grad_at. destruct (invn n J) as [K|]; [|apply d_const].
  refine (d_sumn (fun s k => test_field G r (tab N (x s)) le q i (S k) * K k j) _ tau _ _). intros k _.
  apply d_scal_r. apply test_field_derive. exact H.
Qed.

Section Body.
Context {St : Type} (n N : nat) (f : functional St) (m : mem St) (terms : list (solid_term St)) (pos : nat -> nat -> nat -> nat -> vec) (jac : nat -> nat -> nat -> nat -> mat)
  (params : nat -> list R) (psi : nat -> St -> mat -> R).
Notation arguments := (arguments N params).
(** the energy stored in the body, and the potential energy under the loads of time [t] *)
Definition stored (x : vec) : R := over_points f (fun k Ig g G r le q =>
  match nth_error terms k with Some T => stored_density n T (psi k) (m_q m k g le q) (jac k g le q) (test_field G r (tab N x) le q) | None => 0 end).
Definition potential (t : R) (x : vec) : R := stored x - load_form n N f terms pos jac t x.
Definition elastic : Prop := forall k T, nth_error terms k = Some T -> stores n T (psi k).
Definition kinetic (v : vec) : R := / 2 * mass_form n N f terms jac v v.

Hypothesis (D : dim23 n) (EL : elastic).

Lemma load_derive t x v tau : vderive N x tau v -> is_derive (fun s => load_form n N f terms pos jac t (x s)) tau (load_form n N f terms pos jac t v).
Proof.
  intros H. unfold load_form. apply (over_points_derive f (fun s k Ig g G r le q => match nth_error terms k with Some T => load_density n T t (pos k g le q) (jac k g le q) (test_field G r (tab N (x s)) le q) | None => 0 end)).
  intros k Ig g G r le q _ _ _ _ _. destruct (nth_error terms k) as [[on rho sigma|b|tr|on p]|]; cbn [load_density]; try apply d_const.
  - apply d_scal_r. refine (d_sumn (fun s i => b (pos k g le q) t i * test_field G r (tab N (x s)) le q i 0%nat) n tau _ _). intros i _. apply d_scal. apply test_field_derive. exact H.
  - set (w := tr _ _ _). apply d_scal_r. refine (d_sumn (fun s i => w i * test_field G r (tab N (x s)) le q i 0%nat) n tau _ _). intros i _. apply d_scal. apply test_field_derive. exact H.
  - apply d_scal. refine (d_sumn (fun s i => crossn n (jac k g le q) i * test_field G r (tab N (x s)) le q i 0%nat) n tau _ _). intros i _. apply d_scal. apply test_field_derive. exact H.
Qed.
Lemma mass_derive v a tau : vderive N v tau a -> is_derive (fun s => kinetic (v s)) tau (mass_form n N f terms jac (v tau) a).
Proof.
  intros H. unfold kinetic. refine (d_ext _ _ _ _ (d_scal (/ 2) (fun s => mass_form n N f terms jac (v s) (v s)) tau (mass_form n N f terms jac a (v tau) + mass_form n N f terms jac (v tau) a) _) _).
  2:{ rewrite (form_sym N _ (mass_symmetric n N f terms jac) a (v tau)). field. }
  unfold mass_form. rewrite <- (Rmult_1_l (over_points f _)) at 1. rewrite <- over_points_comb1.
  apply (over_points_derive f (fun s k Ig g G r le q => match nth_error terms k with Some T => mass_density n T (jac k g le q) (test_field G r (tab N (v s)) le q) (test_field G r (tab N (v s)) le q) | None => 0 end)).
  intros k Ig g G r le q _ _ _ _ _. destruct (nth_error terms k) as [[on rho sigma|b|tr|on p]|]; cbn [mass_density]; [|eapply d_ext; [apply d_const|ring] ..].
  refine (d_ext _ _ _ _ (d_scal_r (detn n (jac k g le q)) _ tau _ (d_scal rho _ tau _ (d_sumn (fun s i => test_field G r (tab N (v s)) le q i 0%nat * test_field G r (tab N (v s)) le q i 0%nat) n tau
     (fun i => test_field G r (tab N a) le q i 0%nat * test_field G r (tab N (v tau)) le q i 0%nat + test_field G r (tab N (v tau)) le q i 0%nat * test_field G r (tab N a) le q i 0%nat) _))) _).
  { intros i _. apply (d_mult (fun s => test_field G r (tab N (v s)) le q i 0%nat) (fun s => test_field G r (tab N (v s)) le q i 0%nat)); apply test_field_derive; exact H. }
  rewrite sumn_plus. ring.
Qed.

Section At.
Context (t : R) (x a : vec) (L' : list R) (m' : mem St) (wrt : option nat) (upd : bool).
Hypothesis (W : wf f N (fun w => length (arguments x a w))) (F : all_fit f) (TS : two_spaces n f)
  (RES : solid_residual n f t (arguments x a) m terms pos jac) (EV : evaluate f t wrt upd (arguments x a) N m = Ok (L', m')).

(** the nodal forces of the body are inertia plus the slope of the potential energy *)
Theorem energy_slope (y : R -> vec) v tau : vderive N y tau v -> (forall i, (i < N)%nat -> y tau i = x i) ->
  is_derive (fun s => potential t (y s)) tau (dotn N v (fun i => nth i L' 0) - mass_form n N f terms jac v a).
Proof.
  intros HV HY.
  enough (A : is_derive (fun s => stored (y s)) tau (dotn N v (fun i => nth i L' 0) - mass_form n N f terms jac v a + load_form n N f terms pos jac t v)).
  { unfold potential. eapply d_ext; [apply d_minus; [exact A|apply (load_derive t y v tau HV)]|]. ring. }
  rewrite (form_sym N _ (mass_symmetric n N f terms jac) v a).
  assert (EW : dotn N v (fun i => nth i L' 0) = sumn N (fun k => nth k L' 0 * nth k (tab N v) 0)).
  { unfold dotn. apply sumn_ext. intros i Hi. rewrite nth_tab by auto. ring. }
  rewrite EW, (virtual_work f t wrt upd (arguments x a) N m L' m' W F EV (tab N v)). clear EW.
  unfold mass_form, load_form. rewrite <- over_points_minus.
  match goal with |- is_derive _ _ (over_points f ?p + over_points f ?q) => rewrite <- (Rmult_1_l (over_points f p)); rewrite <- (over_points_comb1 f 1 p q) end.
  unfold stored. apply (over_points_derive f (fun s k Ig g G r le q => match nth_error terms k with Some T => stored_density n T (psi k) (m_q m k g le q) (jac k g le q) (test_field G r (tab N (y s)) le q) | None => 0 end)).
  intros k Ig g G r le q E1 E2 E3 Hle Hq.
  destruct (RES k Ig g G le q E1 E2 Hle Hq) as (T & p & out & ET & EP & EO & Ed & EQ). rewrite ET.
  destruct (argument_field n N f params x a TS k Ig g G r le q E1 E2 E3) as [A0 A1]. rewrite A0, A1 in EP.
  destruct TS as [_ S2]. destruct (proj2 (S2 Ig (nth_error_In _ _ E1)) G (nth_error_In _ _ E2)) as (_ & _ & Ec). rewrite Ec.
  assert (HT := EL k T ET). assert (EY : tab N (y tau) = tab N x) by (now apply tab_ext). assert (GD := grad_at_derive n (jac k g le q) G r N y v tau le q HV).
  set (X := test_field G r (tab N x) le q) in *. set (A := test_field G r (tab N a) le q) in *. set (Hh := test_field G r (tab N v) le q) in *.
  assert (OUT : sumn n (fun i => sumn (gk_dim1 G) (fun b => qf_out f t (arguments x a) m k Ig g G le q i b * Hh i b)) = sumn n (fun i => sumn (if is_volume T then S n else n) (fun b => out i b * Hh i b))).
  { apply sumn_ext. intros i Hi. rewrite Ed. apply sumn_ext. intros b Hb. rewrite EQ by (auto; rewrite Ed; auto). reflexivity. }
  match goal with |- is_derive _ _ (1 * (?e - _) + _) => replace e with (sumn n (fun i => sumn (if is_volume T then S n else n) (fun b => out i b * Hh i b))) by (symmetry; exact OUT) end.
  assert (GR : is_volume T = true -> forall u, grad_phys n (jac k g le q) u = Some (grad_at n (jac k g le q) u)).
  { intros V u. assert (X0 : exists Hw, grad_phys n (jac k g le q) u = Some Hw).
    { destruct T as [on rho sigma|b|tr|on pr]; try discriminate; cbn [solid_point] in EP.
      - destruct (grad_phys n (jac k g le q) X) as [H|]; [|discriminate]. destruct (sigma (m_q m k g le q) H) as [s|]; [|discriminate]. destruct (flux n on s H) as [P|]; [|discriminate].
        injection EP as <-. eapply volume_grad; eassumption.
      - injection EP as <-. eapply volume_grad; eassumption. }
    destruct X0 as (Hw & E). rewrite E. f_equal. unfold grad_phys, parent_to_physical, grad_at in *. destruct (invn n (jac k g le q)) as [K|]; [|discriminate]. injection E as <-. reflexivity. }
  assert (PIO : exists P, is_piola n T (m_q m k g le q) (grad_at n (jac k g le q) X) P /\
     match T with SMaterial on _ sigma => exists s, sigma (m_q m k g le q) (grad_at n (jac k g le q) X) = Some s /\ flux n on s (grad_at n (jac k g le q) X) = Some P | _ => True end).
  { destruct T as [on rho sigma|b|tr|on pr]; try (exists zero; split; exact Logic.I). cbn [solid_point is_piola] in *. rewrite (GR eq_refl X) in EP.
    destruct (sigma (m_q m k g le q) (grad_at n (jac k g le q) X)) as [s|]; [|discriminate]. destruct (flux n on s (grad_at n (jac k g le q) X)) as [P|] eqn:EF; [|discriminate].
    exists P. split; [exists s; split; [reflexivity|]; now apply flux_moment|]. now exists s. }
  destruct PIO as (P & HP & HF).
  rewrite (solid_point_power n T t (pos k g le q) (jac k g le q) X A (m_q m k g le q) p out (grad_at n (jac k g le q) X) Hh (grad_at n (jac k g le q) Hh) D EP EO
    (fun V => GR V X) (fun V => GR V Hh) P HP).
  destruct T as [on rho sigma|b|tr|on pr]; cbn [solid_power mass_density stored_density load_density stores] in *; fold A Hh; [|eapply d_ext; [apply d_const|ring]|eapply d_ext; [apply d_const|ring]|].
  - destruct HF as (s & Es & EF).
    refine (d_ext _ _ _ _ (d_scal_r (detn n (jac k g le q)) _ tau _ (HT (m_q m k g le q) (fun s0 => grad_at n (jac k g le q) (test_field G r (tab N (y s0)) le q)) tau _ s P GD _ _)) _).
    + rewrite EY. exact Es.
    + rewrite EY. exact EF.
    + rewrite (sumn_ext n (fun i => rho * A i 0%nat * Hh i 0%nat) (fun i => rho * (A i 0%nat * Hh i 0%nat))) by (intros; ring). rewrite sumn_scal_l. unfold inner. fold Hh. ring.
  - eapply d_ext; [apply d_const|]. rewrite HT. rewrite (sumn_ext n _ (fun i => crossn n (jac k g le q) i * Hh i 0%nat)); [ring|]. intros i _.
    rewrite (crossn_ext n _ (jac k g le q) i D); [reflexivity|]. intros; cbn; ring.
Qed.
End At.
End Body.
