(** * Uniform strain: the patch test (C72)
    The residual evaluated by the solid module (solid_mechanics.hpp:808-897, through Functional) and by the heat module
    (heat_transfer.hpp:379-406) for displacements, or temperatures, which are an affine function of the position of the
    nodes: every nodal force is the uniform stress applied to the integral of the gradient of the shape function of the node. *)
From Coq Require Import NArith ZArith Reals List Lia Lra Bool.
From Verif Require Import Prelude DofCodec Sums Restriction Kernels FunctionalModel Assembly Tensor MatAlg Materials MaterialFacts ShapeAware WeakForm WeakFormFacts WeakFormPhysics WeakFormWork Ode Energy EnergySolid FrameResidual.
Import ListNotations.
Local Open Scope R_scope.

(** ** specification *)
(** nodal values which are an affine function of the position of the nodes *)
Definition affine (n nc nn : nat) (A : mat) (c : vec) (xref U : nat -> nat -> R) : Prop :=
  forall a i, (a < nn)%nat -> (i < nc)%nat -> U a i = sumn n (fun d => A i d * xref a d) + c i.
(** value 1 at node [a], 0 at the others *)
Definition hat (a : nat) : nat -> nat -> R := fun b _ => if Nat.eqb b a then 1 else 0.
(** the material answers the displacement gradient [A] with the first Piola stress [P]; no body force.  Surface loads are arbitrary. *)
Definition responds {St} (n : nat) (A P : mat) (T : solid_term St) : Prop :=
  match T with
  | SMaterial on _ sigma => forall st H s Pk, meq n H A -> sigma st H = Some s -> flux n on s H = Some Pk -> meq n Pk P
  | SBody _ => False
  | _ => True end.
(** no heat source; the conductor answers the temperature gradient [g] with the flux [q], at every temperature *)
Definition conducts (n : nat) (g q : vec) (T : heat_term) : Prop :=
  match T with
  | HMaterial m => forall X u v, (forall j, (j < n)%nat -> v j = g j) -> forall j, (j < n)%nat -> snd (m X u v) j = q j
  | HSource _ => False
  | HFlux _ => True end.

Section Geometry.
Context {St : Type} (n : nat) (f : functional St) (jac : nat -> nat -> nat -> nat -> mat).
(** integral over the elements of integral [k] of the j-th derivative of the shape function of node [a] *)
Definition gradient_integral (k a j : nat) : R :=
  over_points f (fun k' Ig g G r le q => if Nat.eqb k' k then if Nat.eqb (gk_dim1 G) (S n) then
     grad_at n (jac k' g le q) (field_at G r (hat a) le q) 0%nat j * detn n (jac k' g le q) else 0 else 0).
(** no element of a surface integral has node [a] *)
Definition off_surface (a : nat) : Prop :=
  forall Ig g G r le j, In Ig (f_integrals f) -> nth_error (i_geoms Ig) g = Some G -> nth_error (f_test f (i_type Ig)) g = Some r ->
  gk_dim1 G = n -> (le < length (gk_elems G))%nat -> (j < es_n (gk_test G))%nat -> node_of r (nth le (gk_elems G) 0%nat) j <> a.

Lemma off_surface_hat a Ig g G r le q i b : off_surface a -> In Ig (f_integrals f) -> nth_error (i_geoms Ig) g = Some G -> nth_error (f_test f (i_type Ig)) g = Some r ->
  gk_dim1 G = n -> (le < length (gk_elems G))%nat -> field_at G r (hat a) le q i b = 0.
Proof.
  intros H HI E2 E3 Ed Hle. unfold field_at, interpolate. apply sumn_zero. intros j Hj. unfold hat.
  destruct (Nat.eqb_spec (node_of r (nth le (gk_elems G) 0%nat) j) a) as [E|]; [|ring]. now destruct (H Ig g G r le j HI E2 E3 Ed Hle Hj).
Qed.
(** only integral k counts *)
Lemma over_points_split h : over_points f h = sumn (length (f_integrals f)) (fun k => over_points f (fun k' Ig g G r le q => if Nat.eqb k' k then h k' Ig g G r le q else 0)).
Proof.
  unfold over_points. rewrite sumn_swap. apply sumn_ext. intros k Hk. destruct (nth_error (f_integrals f) k) as [Ig|]; [|symmetry; apply sumn_zero; auto].
  set (rhs := sumn (length (i_geoms Ig)) _).
  transitivity (sumn (length (f_integrals f)) (fun k0 => if Nat.eqb k0 k then rhs else 0)); [now rewrite (sumn_delta _ k (fun _ => rhs))|].
  apply sumn_ext. intros k0 _. rewrite (Nat.eqb_sym k0 k). destruct (Nat.eqb k k0); [reflexivity|].
  symmetry. apply sumn_zero. intros g _. destruct (nth_error (i_geoms Ig) g) as [G|]; [|reflexivity]. destruct (nth_error (f_test f (i_type Ig)) g) as [r|]; [|reflexivity].
  apply sumn_zero. intros le _. apply sumn_zero. intros. ring.
Qed.
Lemma over_points_scal c h : over_points f (fun k Ig g G r le q => c * h k Ig g G r le q) = c * over_points f h.
Proof.
  assert (A := over_points_comb f c 0 h h). replace (c * over_points f h) with (c * over_points f h + 0 * over_points f h) by ring. rewrite <- A.
  apply over_points_ext. intros. ring.
Qed.
Lemma over_points_sumn N (h : nat -> nat -> integral St -> nat -> gkernel St -> restriction -> nat -> nat -> R) :
  over_points f (fun k Ig g G r le q => sumn N (fun j => h j k Ig g G r le q)) = sumn N (fun j => over_points f (h j)).
Proof.
  induction N as [|N IH]; cbn [sumn].
  - assert (A := over_points_scal 0 (fun _ _ _ _ _ _ _ => 0)). rewrite Rmult_0_l in A. refine (eq_trans _ A). apply over_points_ext. intros. ring.
  - rewrite <- IH, <- (Rmult_1_l (over_points f (h N))), <- (Rmult_1_l (over_points f (fun k Ig g G r le q => sumn N (fun j => h j k Ig g G r le q)))), <- over_points_comb.
    apply over_points_ext. intros. ring.
Qed.
End Geometry.

(** ** the gradient of an affine field *)
Lemma affine_field {St} n nc (f : functional St) o nn A c xref U k Ig g G r le q i b : all_fit f -> layout f o nn nc -> unity f -> affine n nc nn A c xref U ->
  nth_error (f_integrals f) k = Some Ig -> nth_error (i_geoms Ig) g = Some G -> nth_error (f_test f (i_type Ig)) g = Some r -> (le < length (gk_elems G))%nat -> (q < gk_nq G)%nat ->
  (i < nc)%nat -> (S b < gk_dim1 G)%nat -> field_at G r U le q i (S b) = sumn n (fun d => A i d * field_at G r xref le q d (S b)).
Proof.
  intros Hfit Hlay HU AF E1 E2 E3 Hle Hq Hi Hb.
  rewrite (field_nodes f o nn nc k Ig g G r U (fun a i => sumn n (fun d => A i d * xref a d) + c i) le q i (S b) Hfit Hlay E1 E2 E3 Hle Hi) by (intros a Ha; now apply AF).
  rewrite field_plus. assert (Z : field_at G r (fun _ i => c i) le q i (S b) = 0).
  { unfold field_at, interpolate. rewrite sumn_scal_l. destruct (HU Ig G q (nth_error_In _ _ E1) (nth_error_In _ _ E2) Hq) as [_ U2]. rewrite U2 by exact Hb. cbn. ring. }
  rewrite Z, Rplus_0_r. apply (field_turn G r n A xref le q i (S b)).
Qed.
Lemma grad_affine n nc A J K u H : dim23 n -> invn n J = Some K -> (forall i k, (i < nc)%nat -> (k < n)%nat -> u i (S k) = sumn n (fun d => A i d * J d k)) ->
  grad_phys n J u = Some H -> forall i j, (i < nc)%nat -> (j < n)%nat -> H i j = A i j.
Proof.
  intros D EK HU EH i j Hi Hj. rewrite (grad_phys_at n J K u EK) in EH. injection EH as <-. unfold grad_at. rewrite EK.
  destruct (invn_some n J K D EK) as (JK & _ & _).
  rewrite (sumn_ext n _ (fun k => sumn n (fun d => A i d * (J d k * K k j)))).
  - rewrite sumn_swap. rewrite (sumn_ext n _ (fun d => if Nat.eqb d j then A i d else 0)); [now rewrite sumn_delta|].
    intros d Hd. rewrite sumn_scal_l. change (sumn n (fun k => J d k * K k j)) with (mmul n J K d j). rewrite JK by auto. unfold ident. destruct (Nat.eqb d j); ring.
  - intros k Hk. rewrite HU by auto. rewrite <- sumn_scal_r. apply sumn_ext. intros. ring.
Qed.
Lemma hat_component {St} (G : gkernel St) r a le q i b : field_at G r (hat a) le q i b = scalar_at G r (fun x => if Nat.eqb x a then 1 else 0) le q b.
Proof. reflexivity. Qed.
Lemma hat_grad {St} n J K (G : gkernel St) r a le q : invn n J = Some K ->
  exists Hw, grad_phys n J (field_at G r (hat a) le q) = Some Hw /\ forall i j, Hw i j = grad_at n J (field_at G r (hat a) le q) 0%nat j.
Proof.
  intros EK. rewrite (grad_phys_at n J K _ EK). eexists. split; [reflexivity|]. intros i j. unfold grad_at. rewrite EK. reflexivity.
Qed.

(** ** the solid *)
Section Solid.
Context {St : Type} (n : nat) (D : dim23 n) (f : functional St) (o : ordering) (nn : nat) (terms : list (solid_term St))
  (pos : nat -> nat -> nat -> nat -> vec) (jac : nat -> nat -> nat -> nat -> mat) (xref : nat -> nat -> R) (A : mat) (c : vec) (P : nat -> mat).
Context (t : R) (wrt : option nat) (upd : bool) (Ls : nat -> list R) (m m' : mem St) (L : list R).
Context (Hwf : wf f (nn * n) (fun w => length (Ls w))) (Hfit : all_fit f) (Hlay : layout f o nn n) (HS : two_spaces n f) (HI : isoparametric n f pos jac xref) (HU : unity f)
  (EV : evaluate f t wrt upd Ls (nn * n) m = Ok (L, m')) (RES : solid_residual n f t Ls m terms pos jac)
  (AF : affine n n nn A c xref (nodal_values o nn n (Ls 0%nat))) (REST : forall a i, (a < nn)%nat -> (i < n)%nat -> nodal_values o nn n (Ls 1%nat) a i = 0)
  (MAT : forall k T, nth_error terms k = Some T -> responds n A (P k) T).

Theorem patch_force a i : (a < nn)%nat -> (i < n)%nat -> off_surface n f a ->
  nodal_values o nn n L a i = sumn (length (f_integrals f)) (fun k => sumn n (fun j => P k i j * gradient_integral n f jac k a j)).
Proof.
  intros Ha Hi OFF. assert (T := tested_component f t wrt upd Ls m m' L o nn n Hwf Hfit Hlay EV (fun x => if Nat.eqb x a then 1 else 0) i Hi).
  rewrite (sumn_ext nn _ (fun x => if Nat.eqb x a then nth (dof_number o nn n x i) L 0 else 0)) in T by (intros; destruct (Nat.eqb _ _); ring).
  rewrite sumn_delta in T by exact Ha. unfold nodal_values. rewrite T. clear T.
  rewrite over_points_split. apply sumn_ext. intros k0 _.
  transitivity (over_points f (fun k Ig g G r le q => sumn n (fun j => P k0 i j * (if Nat.eqb k k0 then if Nat.eqb (gk_dim1 G) (S n) then
     grad_at n (jac k g le q) (field_at G r (hat a) le q) 0%nat j * detn n (jac k g le q) else 0 else 0)))).
  2:{ rewrite over_points_sumn. apply sumn_ext. intros j _. now rewrite over_points_scal. }
  apply over_points_ext. intros k Ig g G r le q E1 E2 E3 Hle Hq.
  destruct (Nat.eqb_spec k k0) as [->|]; [|symmetry; apply sumn_zero; intros; ring].
  destruct (RES k0 Ig g G le q E1 E2 Hle Hq) as (T & p & out & ET & EP & EO & Ed & EQ). specialize (MAT k0 T ET).
  rewrite (sumn_ext (gk_dim1 G) _ (fun b => out i b * field_at G r (hat a) le q i b)) by (intros b Hb; now rewrite EQ).
  destruct (is_volume T) eqn:V.
  - rewrite Ed, Nat.eqb_refl. destruct T as [on rho sigma|b|tr|on pr]; try discriminate; [|contradiction]. cbn [solid_point] in EP.
    destruct (grad_phys n (jac k0 g le q) (qf_inputs G g (Es_of f Ls Ig) le q 0%nat)) as [H|] eqn:EH; [|discriminate].
    destruct (sigma (m_q m k0 g le q) H) as [s|] eqn:Es; [|discriminate]. destruct (flux n on s H) as [Pk|] eqn:EF; [|discriminate]. injection EP as <-.
    assert (EK : exists K, invn n (jac k0 g le q) = Some K).
    { unfold grad_phys, parent_to_physical in EH. destruct (invn n (jac k0 g le q)) as [K|]; [now exists K|discriminate]. }
    destruct EK as (K & EK). destruct (hat_grad n (jac k0 g le q) K G r a le q EK) as (Hw & EHw & Hrow).
    rewrite (volume_power n (jac k0 g le q) _ Pk out (field_at G r (hat a) le q) Hw i D EO EHw).
    assert (Z : qf_inputs G g (Es_of f Ls Ig) le q 1%nat i 0%nat = 0).
    { rewrite (argument_nodal n f o nn Ls 1%nat k0 Ig g G r le q i 0%nat Hfit Hlay HS (le_n _) E1 E2 E3 Hle Hi).
      rewrite (field_nodes f o nn n k0 Ig g G r _ (fun _ _ => 0) le q i 0%nat Hfit Hlay E1 E2 E3 Hle Hi) by (intros b Hb; now apply REST).
      unfold field_at, interpolate. apply sumn_zero. intros. ring. }
    rewrite Z, Rmult_0_r, Rmult_0_l, Rplus_0_l, <- sumn_scal_r. apply sumn_ext. intros j Hj. rewrite Hrow.
    rewrite (MAT (m_q m k0 g le q) H s Pk) by
     (auto; intros i' j' Hi' Hj'; refine (grad_affine n n A _ K _ H D EK _ EH i' j' Hi' Hj'); intros i2 k2 Hi2 Hk2;
      rewrite (argument_nodal n f o nn Ls 0%nat k0 Ig g G r le q i2 (S k2) Hfit Hlay HS (le_S _ _ (le_n _)) E1 E2 E3 Hle Hi2);
      destruct (HI k0 Ig g G r le q E1 E2 E3 Hle Hq) as [_ HJ];
      change (fun a0 c0 => nth (dof_number o nn n a0 c0) (Ls 0%nat) 0) with (nodal_values o nn n (Ls 0%nat));
      rewrite (affine_field n n f o nn A c xref _ k0 Ig g G r le q i2 k2 Hfit Hlay HU AF E1 E2 E3 Hle Hq Hi2) by lia;
      apply sumn_ext; intros d Hd; rewrite HJ by lia; reflexivity).
    ring.
  - rewrite Ed. replace (Nat.eqb n (S n)) with false by (symmetry; apply Nat.eqb_neq; lia).
    transitivity 0; [|symmetry; apply sumn_zero; intros; ring].
    apply sumn_zero. intros b _. rewrite (off_surface_hat n f a Ig g G r le q i b OFF) by (auto; now apply nth_error_In in E1). ring.
Qed.
End Solid.

(** ** the conductor *)
Section Heat.
Context {St : Type} (n : nat) (D : dim23 n) (f : functional St) (o : ordering) (nn : nat) (terms : list heat_term)
  (pos : nat -> nat -> nat -> nat -> vec) (jac grad : nat -> nat -> nat -> nat -> mat) (xref : nat -> nat -> R) (A : mat) (c : vec) (Q : nat -> vec).
Context (t : R) (wrt : option nat) (upd : bool) (Ls : nat -> list R) (m m' : mem St) (L : list R).
Context (Hwf : wf f (nn * 1) (fun w => length (Ls w))) (Hfit : all_fit f) (Hlay : layout f o nn 1) (HS : two_spaces 1 f) (HI : isoparametric n f pos jac xref) (HU : unity f)
  (EV : evaluate f t wrt upd Ls (nn * 1) m = Ok (L, m')) (RES : heat_residual n f t Ls m terms pos jac grad)
  (AF : affine n 1 nn A c xref (nodal_values o nn 1 (Ls 0%nat))) (REST : forall a, (a < nn)%nat -> nodal_values o nn 1 (Ls 1%nat) a 0%nat = 0)
  (MAT : forall k T, nth_error terms k = Some T -> conducts n (A 0%nat) (Q k) T).

Theorem patch_heat a : (a < nn)%nat -> off_surface n f a ->
  nodal_values o nn 1 L a 0%nat = - sumn (length (f_integrals f)) (fun k => sumn n (fun j => Q k j * gradient_integral n f jac k a j)).
Proof.
  intros Ha OFF. assert (T := tested_component f t wrt upd Ls m m' L o nn 1 Hwf Hfit Hlay EV (fun x => if Nat.eqb x a then 1 else 0) 0%nat Nat.lt_0_1).
  rewrite (sumn_ext nn _ (fun x => if Nat.eqb x a then nth (dof_number o nn 1 x 0) L 0 else 0)) in T by (intros; destruct (Nat.eqb _ _); ring).
  rewrite sumn_delta in T by exact Ha. unfold nodal_values. rewrite T. clear T.
  replace (- sumn (length (f_integrals f)) (fun k => sumn n (fun j => Q k j * gradient_integral n f jac k a j))) with
    (sumn (length (f_integrals f)) (fun k => sumn n (fun j => (- Q k j) * gradient_integral n f jac k a j))).
  2:{ rewrite <- (Rmult_1_l (sumn _ (fun k => sumn n (fun j => Q k j * _)))), Ropp_mult_distr_l, <- sumn_scal_l. apply sumn_ext. intros k _.
      rewrite <- sumn_scal_l. apply sumn_ext. intros. ring. }
  rewrite over_points_split. apply sumn_ext. intros k0 _.
  transitivity (over_points f (fun k Ig g G r le q => sumn n (fun j => (- Q k0 j) * (if Nat.eqb k k0 then if Nat.eqb (gk_dim1 G) (S n) then
     grad_at n (jac k g le q) (field_at G r (hat a) le q) 0%nat j * detn n (jac k g le q) else 0 else 0)))).
  2:{ rewrite over_points_sumn. apply sumn_ext. intros j _. now rewrite over_points_scal. }
  apply over_points_ext. intros k Ig g G r le q E1 E2 E3 Hle Hq.
  destruct (Nat.eqb_spec k k0) as [->|]; [|symmetry; apply sumn_zero; intros; ring].
  destruct (RES k0 Ig g G le q E1 E2 Hle Hq) as (T & p & out & ET & EP & EO & Ed & EG & EQ). specialize (MAT k0 T ET).
  rewrite (sumn_ext (gk_dim1 G) _ (fun b => out 0%nat b * field_at G r (hat a) le q 0%nat b)) by (intros b Hb; now rewrite EQ).
  destruct (is_volume_h T) eqn:V.
  - rewrite Ed, Nat.eqb_refl. destruct T as [mt|s|q0]; try discriminate; [|contradiction]. cbn [heat_point] in EP. specialize (EG eq_refl). rewrite EG in EP. injection EP as <-.
    assert (EK : exists K, invn n (jac k0 g le q) = Some K).
    { unfold grad_phys, parent_to_physical in EG. destruct (invn n (jac k0 g le q)) as [K|]; [now exists K|discriminate]. }
    destruct EK as (K & EK). destruct (hat_grad n (jac k0 g le q) K G r a le q EK) as (Hw & EHw & Hrow).
    rewrite (volume_power n (jac k0 g le q) _ _ out (field_at G r (hat a) le q) Hw 0%nat D EO EHw).
    assert (Z : qf_inputs G g (Es_of f Ls Ig) le q 1%nat 0%nat 0%nat = 0).
    { rewrite (argument_nodal 1 f o nn Ls 1%nat k0 Ig g G r le q 0%nat 0%nat Hfit Hlay HS (le_n _) E1 E2 E3 Hle Nat.lt_0_1).
      rewrite (field_nodes f o nn 1 k0 Ig g G r _ (fun _ _ => 0) le q 0%nat 0%nat Hfit Hlay E1 E2 E3 Hle Nat.lt_0_1) by (intros b Hb; now apply REST).
      unfold field_at, interpolate. apply sumn_zero. intros. ring. }
    rewrite Z, Rmult_0_r, Rmult_0_l, Rplus_0_l, <- sumn_scal_r. apply sumn_ext. intros j Hj. rewrite Hrow.
    rewrite (MAT (pos k0 g le q) _ (grad k0 g le q 0%nat)) by
     (auto; intros j' Hj'; refine (grad_affine n 1 A _ K _ _ D EK _ EG 0%nat j' Nat.lt_0_1 Hj'); intros i2 k2 Hi2 Hk2;
      rewrite (argument_nodal 1 f o nn Ls 0%nat k0 Ig g G r le q i2 (S k2) Hfit Hlay HS (le_S _ _ (le_n _)) E1 E2 E3 Hle Hi2);
      destruct (HI k0 Ig g G r le q E1 E2 E3 Hle Hq) as [_ HJ];
      change (fun a0 c0 => nth (dof_number o nn 1 a0 c0) (Ls 0%nat) 0) with (nodal_values o nn 1 (Ls 0%nat));
      rewrite (affine_field n 1 f o nn A c xref _ k0 Ig g G r le q i2 k2 Hfit Hlay HU AF E1 E2 E3 Hle Hq Hi2) by lia;
      apply sumn_ext; intros d Hd; rewrite HJ by lia; reflexivity).
    ring.
  - rewrite Ed. replace (Nat.eqb n (S n)) with false by (symmetry; apply Nat.eqb_neq; lia).
    transitivity 0; [|symmetry; apply sumn_zero; intros; ring].
    apply sumn_zero. intros b _. rewrite (off_surface_hat n f a Ig g G r le q 0%nat b OFF) by (auto; now apply nth_error_In in E1). ring.
Qed.
End Heat.
