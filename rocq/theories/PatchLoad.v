(** * Uniform strain under the loads that belong to it (C72)
    The residuals of PatchTest.v at nodes which carry surface loads (solid_mechanics.hpp:1024-1103, heat_transfer.hpp:538-553):
    a traction, a pressure or a heat flux which is that of the uniform stress, or of the uniform flux. *)
From Coq Require Import NArith ZArith Reals List Lia Lra Bool.
From Verif Require Import Prelude DofCodec Sums Restriction Kernels FunctionalModel Assembly Tensor MatAlg Materials MaterialFacts ShapeAware WeakForm WeakFormFacts WeakFormPhysics WeakFormWork Ode Energy EnergySolid FrameResidual PatchTest.
Import ListNotations.
Local Open Scope R_scope.

(** ** specification *)
(** cofactors: [cofactor n F nu] is the area vector of a surface element with area vector [nu] after the deformation F *)
Definition cofactor (n : nat) (F : mat) : mat := fun i j =>
  if Nat.eqb n 2 then (if Nat.eqb i j then 1 else - 1) * F (1 - i)%nat (1 - j)%nat
  else let a := Nat.modulo (i + 1) 3 in let b := Nat.modulo (i + 2) 3 in let c := Nat.modulo (j + 1) 3 in let d := Nat.modulo (j + 2) 3 in
       F a c * F b d - F a d * F b c.
(** the surface load at time [t] is that of the stress [P]: the traction on every unit normal is P applied to it; a pressure is uniform
    and the stress is minus the pressure times the cofactors, of I + A when the pressure follows the deformed surface *)
Definition pulls {St} (n : nat) (t : R) (A P : mat) (T : solid_term St) : Prop :=
  match T with
  | STraction tr => forall X nu i, (i < n)%nat -> vnorm n nu = 1 -> tr X nu t i = sumn n (fun j => P i j * nu j)
  | SPressure on p => exists p0, (forall X, p X t = p0) /\ forall i j, (i < n)%nat -> (j < n)%nat -> P i j = - p0 * cofactor n (if on then madd ident A else ident) i j
  | _ => True end.
Definition flows (n : nat) (t : R) (q : vec) (T : heat_term) : Prop :=
  match T with HFlux h => forall X nu u, vnorm n nu = 1 -> h X nu t u = sumn n (fun j => q j * nu j) | _ => True end.

Section Geometry.
Context {St : Type} (n : nat) (f : functional St) (jac : nat -> nat -> nat -> nat -> mat).
(** integral over the surface of integral [k] of the shape function of node [a] times the normal *)
Definition normal_integral (k a j : nat) : R :=
  over_points f (fun k' Ig g G r le q => if Nat.eqb k' k then if Nat.eqb (gk_dim1 G) n then
     field_at G r (hat a) le q 0%nat 0%nat * crossn n (jac k' g le q) j else 0 else 0).
(** node [a] belongs to a surface element of integral [k] *)
Definition touches (k a : nat) : Prop :=
  exists Ig g G r le j, nth_error (f_integrals f) k = Some Ig /\ nth_error (i_geoms Ig) g = Some G /\ nth_error (f_test f (i_type Ig)) g = Some r /\
  gk_dim1 G = n /\ (le < length (gk_elems G))%nat /\ (j < es_n (gk_test G))%nat /\ node_of r (nth le (gk_elems G) 0%nat) j = a.
End Geometry.

Lemma sumn_nonzero N h : sumn N h <> 0 -> exists i, (i < N)%nat /\ h i <> 0.
Proof.
  induction N as [|N IH]; cbn [sumn]; [intros H; now destruct H|]. intros H. destruct (Req_EM_T (h N) 0) as [E|NE].
  - rewrite E, Rplus_0_r in H. destruct (IH H) as (i & Hi & Hh). exists i. split; [lia|exact Hh].
  - exists N. split; [lia|exact NE].
Qed.
Lemma untouched {St} n (f : functional St) k Ig g G r le q a b : nth_error (f_integrals f) k = Some Ig -> nth_error (i_geoms Ig) g = Some G -> nth_error (f_test f (i_type Ig)) g = Some r ->
  gk_dim1 G = n -> (le < length (gk_elems G))%nat -> {field_at G r (hat a) le q b 0%nat = 0} + {touches n f k a}.
Proof.
  intros E1 E2 E3 Ed Hle. destruct (Req_EM_T (field_at G r (hat a) le q b 0%nat) 0) as [E|NE]; [now left|right].
  unfold field_at, interpolate in NE. apply sumn_nonzero in NE. destruct NE as (j & Hj & NE).
  exists Ig, g, G, r, le, j. do 6 (split; [assumption|]). unfold hat in NE. destruct (Nat.eqb_spec (node_of r (nth le (gk_elems G) 0%nat) j) a) as [E|]; [exact E|].
  exfalso. apply NE. ring.
Qed.
Lemma off_touches {St} n (f : functional St) a : off_surface n f a -> forall k, ~ touches n f k a.
Proof.
  intros H k (Ig & g & G & r & le & j & E1 & E2 & E3 & Ed & Hle & Hj & E). exact (H Ig g G r le j (nth_error_In _ _ E1) E2 E3 Ed Hle Hj E).
Qed.

Lemma crossn_deform n F J i : dim23 n -> (i < n)%nat -> crossn n (fun a b => sumn n (fun d => F a d * J d b)) i = sumn n (fun j => cofactor n F i j * crossn n J j).
Proof.
  intros [-> | ->] Hi; unfold crossn, cofactor; cbn [Nat.eqb sumn]; [destruct i as [|[|i]]|destruct i as [|[|[|i]]]]; try (exfalso; lia); cbn; ring.
Qed.
Lemma vnorm_unit n v : vnorm n v <> 0 -> vnorm n (fun k => v k / vnorm n v) = 1.
Proof.
  intros H. assert (P : 0 <= sumn n (fun i => v i * v i)). { apply sumn_nonneg. intros. apply Rle_0_sqr. }
  unfold vnorm at 1. rewrite (sumn_ext n _ (fun i => / (vnorm n v * vnorm n v) * (v i * v i))) by (intros; field; exact H).
  rewrite sumn_scal_l. assert (E : vnorm n v * vnorm n v = sumn n (fun i => v i * v i)) by (unfold vnorm; now apply sqrt_sqrt).
  rewrite E, Rinv_l; [apply sqrt_1|]. rewrite <- E. now apply Rmult_integral_contrapositive_currified.
Qed.

(** ** the solid *)
Section Solid.
Context {St : Type} (n : nat) (D : dim23 n) (f : functional St) (o : ordering) (nn : nat) (terms : list (solid_term St))
  (pos : nat -> nat -> nat -> nat -> vec) (jac : nat -> nat -> nat -> nat -> mat) (xref : nat -> nat -> R) (A : mat) (c : vec) (P : nat -> mat).
Context (t : R) (wrt : option nat) (upd : bool) (Ls : nat -> list R) (m m' : mem St) (L : list R).
Context (Hwf : wf f (nn * n) (fun w => length (Ls w))) (Hfit : all_fit f) (Hlay : layout f o nn n) (HS : two_spaces n f) (HI : isoparametric n f pos jac xref) (HU : unity f)
  (EV : evaluate f t wrt upd Ls (nn * n) m = Ok (L, m')) (RES : solid_residual n f t Ls m terms pos jac)
  (AF : affine n n nn A c xref (nodal_values o nn n (Ls 0%nat))) (REST : forall a i, (a < nn)%nat -> (i < n)%nat -> nodal_values o nn n (Ls 1%nat) a i = 0).

(** the load of one surface point *)
Lemma surface_load k0 Ig g G r le q T p out i : nth_error (f_integrals f) k0 = Some Ig -> nth_error (i_geoms Ig) g = Some G -> nth_error (f_test f (i_type Ig)) g = Some r ->
  (le < length (gk_elems G))%nat -> (q < gk_nq G)%nat -> (i < n)%nat -> is_volume T = false -> gk_dim1 G = n -> pulls n t A (P k0) T ->
  solid_point n T t (pos k0 g le q) (jac k0 g le q) (qf_inputs G g (Es_of f Ls Ig) le q 0%nat) (qf_inputs G g (Es_of f Ls Ig) le q 1%nat) (m_q m k0 g le q) = Some p ->
  point_out n p = Some out -> out i 0%nat = - sumn n (fun j => P k0 i j * crossn n (jac k0 g le q) j) /\ forall b, out i (S b) = 0.
Proof.
  intros E1 E2 E3 Hle Hq Hi V Ed PU EP EO. set (J := jac k0 g le q) in *. destruct T as [on rho sigma|b|tr|on pr]; try discriminate; cbn [solid_point] in EP.
  - destruct (Req_EM_T (vnorm n (crossn n J)) 0) as [|NZ]; [discriminate|]. injection EP as <-. cbn [point_out] in EO. injection EO as <-. split; [|reflexivity].
    cbn [pulls] in PU. rewrite PU by (auto; now apply vnorm_unit).
    rewrite (sumn_ext n (fun j => P k0 i j * (crossn n J j / vnorm n (crossn n J))) (fun j => / vnorm n (crossn n J) * (P k0 i j * crossn n J j))) by (intros; field; exact NZ).
    rewrite sumn_scal_l. field. exact NZ.
  - destruct (Req_EM_T (vnorm n (crossn n J)) 0) as [|NZ]; [discriminate|]. injection EP as <-. cbn [point_out] in EO. injection EO as <-. split; [|reflexivity].
    destruct PU as (p0 & Ep & EPk). rewrite Ep.
    assert (C : crossn n (if on then madd (madd J (mscal 0 (fun i0 j => qf_inputs G g (Es_of f Ls Ig) le q 0%nat i0 (S j)))) (fun i0 j => qf_inputs G g (Es_of f Ls Ig) le q 0%nat i0 (S j))
         else madd J (mscal 0 (fun i0 j => qf_inputs G g (Es_of f Ls Ig) le q 0%nat i0 (S j)))) i = sumn n (fun j => cofactor n (if on then madd ident A else ident) i j * crossn n J j)).
    { rewrite <- crossn_deform by auto. apply crossn_ext; [exact D|]. intros a b Ha Hb.
      assert (I : sumn n (fun d => ident a d * J d b) = J a b).
      { rewrite (sumn_ext n _ (fun d => if Nat.eqb d a then J d b else 0)); [now rewrite sumn_delta|]. intros d _. unfold ident. rewrite (Nat.eqb_sym a d). destruct (Nat.eqb d a); ring. }
      destruct on; unfold madd, mscal.
      - rewrite (sumn_ext n (fun d => (ident a d + A a d) * J d b) (fun d => ident a d * J d b + A a d * J d b)) by (intros; ring).
        rewrite sumn_plus, I. rewrite Rmult_0_l, Rplus_0_r. f_equal.
        rewrite (argument_nodal n f o nn Ls 0%nat k0 Ig g G r le q a (S b) Hfit Hlay HS (le_S _ _ (le_n _)) E1 E2 E3 Hle Ha).
        change (fun a0 c0 => nth (dof_number o nn n a0 c0) (Ls 0%nat) 0) with (nodal_values o nn n (Ls 0%nat)).
        rewrite (affine_field n n f o nn A c xref _ k0 Ig g G r le q a b Hfit Hlay HU AF E1 E2 E3 Hle Hq Ha) by (rewrite Ed; destruct D as [-> | ->]; lia).
        apply sumn_ext. intros d Hd. destruct (HI k0 Ig g G r le q E1 E2 E3 Hle Hq) as [_ HJ]. rewrite HJ by (auto; rewrite Ed; destruct D as [-> | ->]; lia). reflexivity.
      - rewrite I. ring. }
    rewrite C. rewrite (sumn_ext n (fun j => P k0 i j * crossn n J j) (fun j => - p0 * (cofactor n (if on then madd ident A else ident) i j * crossn n J j))) by (intros j Hj; rewrite EPk by auto; ring).
    rewrite sumn_scal_l. field. exact NZ.
Qed.

Context (MAT : forall k T, nth_error terms k = Some T -> responds n A (P k) T).
Theorem loaded_force a i : (a < nn)%nat -> (i < n)%nat -> (forall k T, nth_error terms k = Some T -> touches n f k a -> pulls n t A (P k) T) ->
  nodal_values o nn n L a i = sumn (length (f_integrals f)) (fun k => sumn n (fun j => P k i j * (gradient_integral n f jac k a j - normal_integral n f jac k a j))).
Proof.
  intros Ha Hi LOAD. assert (T := tested_component f t wrt upd Ls m m' L o nn n Hwf Hfit Hlay EV (fun x => if Nat.eqb x a then 1 else 0) i Hi).
  rewrite (sumn_ext nn _ (fun x => if Nat.eqb x a then nth (dof_number o nn n x i) L 0 else 0)) in T by (intros; destruct (Nat.eqb _ _); ring).
  rewrite sumn_delta in T by exact Ha. unfold nodal_values. rewrite T. clear T.
  rewrite over_points_split. apply sumn_ext. intros k0 _.
  transitivity (over_points f (fun k Ig g G r le q => sumn n (fun j => P k0 i j * (1 * (if Nat.eqb k k0 then if Nat.eqb (gk_dim1 G) (S n) then
     grad_at n (jac k g le q) (field_at G r (hat a) le q) 0%nat j * detn n (jac k g le q) else 0 else 0) + -1 *
     (if Nat.eqb k k0 then if Nat.eqb (gk_dim1 G) n then field_at G r (hat a) le q 0%nat 0%nat * crossn n (jac k g le q) j else 0 else 0))))).
  2:{ rewrite over_points_sumn. apply sumn_ext. intros j _. rewrite over_points_scal. f_equal. refine (eq_trans (over_points_comb f 1 (-1) _ _) _).
      unfold gradient_integral, normal_integral. ring. }
  apply over_points_ext. intros k Ig g G r le q E1 E2 E3 Hle Hq.
  destruct (Nat.eqb_spec k k0) as [->|]; [|symmetry; apply sumn_zero; intros; ring].
  destruct (RES k0 Ig g G le q E1 E2 Hle Hq) as (T & p & out & ET & EP & EO & Ed & EQ). specialize (MAT k0 T ET).
  rewrite (sumn_ext (gk_dim1 G) _ (fun b => out i b * field_at G r (hat a) le q i b)) by (intros b Hb; now rewrite EQ).
  destruct (is_volume T) eqn:V.
  - rewrite Ed, Nat.eqb_refl. replace (Nat.eqb (S n) n) with false by (symmetry; apply Nat.eqb_neq; lia).
    destruct T as [on rho sigma|b|tr|on pr]; try discriminate; [|contradiction]. cbn [solid_point] in EP.
    destruct (grad_phys n (jac k0 g le q) (qf_inputs G g (Es_of f Ls Ig) le q 0%nat)) as [H|] eqn:EH; [|discriminate].
    destruct (sigma (m_q m k0 g le q) H) as [s|] eqn:Es; [|discriminate]. destruct (flux n on s H) as [Pk|] eqn:EF; [|discriminate]. injection EP as <-.
    assert (EK : exists K, invn n (jac k0 g le q) = Some K).
    { unfold grad_phys, parent_to_physical in EH. destruct (invn n (jac k0 g le q)) as [K|]; [now exists K|discriminate]. }
    destruct EK as (K & EK). destruct (hat_grad n (jac k0 g le q) K G r a le q EK) as (Hw & EHw & Hrow).
    rewrite (volume_power n (jac k0 g le q) _ Pk out (field_at G r (hat a) le q) Hw i D EO EHw).
    assert (Z : qf_inputs G g (Es_of f Ls Ig) le q 1%nat i 0%nat = 0).
    { rewrite (argument_nodal n f o nn Ls 1%nat k0 Ig g G r le q i 0%nat Hfit Hlay HS (le_n _) E1 E2 E3 Hle Hi).
      rewrite (field_nodes f o nn n k0 Ig g G r _ (fun _ _ => 0) le q i 0%nat Hfit Hlay E1 E2 E3 Hle Hi) by (intros b Hb; now apply REST).
      unfold field_at, interpolate. apply sumn_zero. intros. ring. }
    rewrite Z, Rmult_0_r, Rmult_0_l, Rplus_0_l, <- sumn_scal_r. apply sumn_ext. intros j Hj. rewrite Hrow.
    rewrite (MAT (m_q m k0 g le q) H s Pk) by
     (auto; intros i' j' Hi' Hj'; refine (grad_affine n n A _ K _ H D EK _ EH i' j' Hi' Hj'); intros i2 k2 Hi2 Hk2;
      rewrite (argument_nodal n f o nn Ls 0%nat k0 Ig g G r le q i2 (S k2) Hfit Hlay HS (le_S _ _ (le_n _)) E1 E2 E3 Hle Hi2);
      destruct (HI k0 Ig g G r le q E1 E2 E3 Hle Hq) as [_ HJ];
      change (fun a0 c0 => nth (dof_number o nn n a0 c0) (Ls 0%nat) 0) with (nodal_values o nn n (Ls 0%nat));
      rewrite (affine_field n n f o nn A c xref _ k0 Ig g G r le q i2 k2 Hfit Hlay HU AF E1 E2 E3 Hle Hq Hi2) by lia;
      apply sumn_ext; intros d Hd; rewrite HJ by lia; reflexivity).
    ring.
  - rewrite Ed, Nat.eqb_refl. replace (Nat.eqb n (S n)) with false by (symmetry; apply Nat.eqb_neq; lia).
    destruct (untouched n f k0 Ig g G r le q a i E1 E2 E3 Ed Hle) as [Z|TO].
    + transitivity 0.
      * apply sumn_zero. intros [|b] Hb; [rewrite Z; ring|]. assert (Q : out i (S b) = 0).
        { destruct T as [on rho sigma|bf|tr|on pr]; try discriminate; cbn [solid_point] in EP; (destruct (Req_EM_T (vnorm n (crossn n (jac k0 g le q))) 0) as [|NZ]; [discriminate|]);
            injection EP as <-; cbn [point_out] in EO; injection EO as <-; reflexivity. }
        rewrite Q. ring.
      * symmetry. apply sumn_zero. intros j Hj. change (field_at G r (hat a) le q 0%nat 0%nat) with (field_at G r (hat a) le q i 0%nat). rewrite Z. ring.
    + destruct (surface_load k0 Ig g G r le q T p out i E1 E2 E3 Hle Hq Hi V Ed (LOAD k0 T ET TO) EP EO) as [O1 O2].
      assert (N0 : n = Datatypes.S (n - 1)) by (destruct D as [-> | ->]; reflexivity). rewrite N0 at 1. rewrite sumn_S_l.
      rewrite (sumn_zero (n - 1)) by (intros b _; rewrite O2; ring). rewrite O1, Rplus_0_r.
      rewrite <- (Rmult_1_l (sumn n (fun j => P k0 i j * crossn n _ j))), Ropp_mult_distr_l, <- sumn_scal_l, <- sumn_scal_r. apply sumn_ext. intros j Hj.
      change (field_at G r (hat a) le q i 0%nat) with (field_at G r (hat a) le q 0%nat 0%nat). ring.
Qed.
End Solid.

(** ** the conductor *)
Section Heat.
Context {St : Type} (n : nat) (D : dim23 n) (f : functional St) (o : ordering) (nn : nat) (terms : list heat_term)
  (pos : nat -> nat -> nat -> nat -> vec) (jac grad : nat -> nat -> nat -> nat -> mat) (xref : nat -> nat -> R) (A : mat) (c : vec) (Q : nat -> vec).
Context (t : R) (wrt : option nat) (upd : bool) (Ls : nat -> list R) (m m' : mem St) (L : list R).
Context (Hwf : wf f (nn * 1) (fun w => length (Ls w))) (Hfit : all_fit f) (Hlay : layout f o nn 1) (HS : two_spaces 1 f) (HI : isoparametric n f pos jac xref) (HU : unity f)
  (EV : evaluate f t wrt upd Ls (nn * 1) m = Ok (L, m')) (RES : heat_residual n f t Ls m terms pos jac grad)
  (AF : affine n 1 nn A c xref (nodal_values o nn 1 (Ls 0%nat))) (REST : forall a, (a < nn)%nat -> nodal_values o nn 1 (Ls 1%nat) a 0%nat = 0)
  (MAT : forall k T, nth_error terms k = Some T -> conducts n (A 0%nat) (Q k) T).

Theorem loaded_heat a : (a < nn)%nat -> (forall k T, nth_error terms k = Some T -> touches n f k a -> flows n t (Q k) T) ->
  nodal_values o nn 1 L a 0%nat = - sumn (length (f_integrals f)) (fun k => sumn n (fun j => Q k j * (gradient_integral n f jac k a j - normal_integral n f jac k a j))).
Proof.
  intros Ha LOAD. assert (T := tested_component f t wrt upd Ls m m' L o nn 1 Hwf Hfit Hlay EV (fun x => if Nat.eqb x a then 1 else 0) 0%nat Nat.lt_0_1).
  rewrite (sumn_ext nn _ (fun x => if Nat.eqb x a then nth (dof_number o nn 1 x 0) L 0 else 0)) in T by (intros; destruct (Nat.eqb _ _); ring).
  rewrite sumn_delta in T by exact Ha. unfold nodal_values. rewrite T. clear T.
  replace (- sumn (length (f_integrals f)) (fun k => sumn n (fun j => Q k j * (gradient_integral n f jac k a j - normal_integral n f jac k a j)))) with
    (sumn (length (f_integrals f)) (fun k => sumn n (fun j => (- Q k j) * (gradient_integral n f jac k a j - normal_integral n f jac k a j)))).
  2:{ rewrite <- (Rmult_1_l (sumn _ (fun k => sumn n (fun j => Q k j * _)))), Ropp_mult_distr_l, <- sumn_scal_l. apply sumn_ext. intros k _.
      rewrite <- sumn_scal_l. apply sumn_ext. intros. ring. }
  rewrite over_points_split. apply sumn_ext. intros k0 _.
  transitivity (over_points f (fun k Ig g G r le q => sumn n (fun j => (- Q k0 j) * (1 * (if Nat.eqb k k0 then if Nat.eqb (gk_dim1 G) (S n) then
     grad_at n (jac k g le q) (field_at G r (hat a) le q) 0%nat j * detn n (jac k g le q) else 0 else 0) + -1 *
     (if Nat.eqb k k0 then if Nat.eqb (gk_dim1 G) n then field_at G r (hat a) le q 0%nat 0%nat * crossn n (jac k g le q) j else 0 else 0))))).
  2:{ rewrite over_points_sumn. apply sumn_ext. intros j _. rewrite over_points_scal. f_equal. refine (eq_trans (over_points_comb f 1 (-1) _ _) _).
      unfold gradient_integral, normal_integral. ring. }
  apply over_points_ext. intros k Ig g G r le q E1 E2 E3 Hle Hq.
  destruct (Nat.eqb_spec k k0) as [->|]; [|symmetry; apply sumn_zero; intros; ring].
  destruct (RES k0 Ig g G le q E1 E2 Hle Hq) as (T & p & out & ET & EP & EO & Ed & EG & EQ). specialize (MAT k0 T ET).
  rewrite (sumn_ext (gk_dim1 G) _ (fun b => out 0%nat b * field_at G r (hat a) le q 0%nat b)) by (intros b Hb; now rewrite EQ).
  destruct (is_volume_h T) eqn:V.
  - rewrite Ed, Nat.eqb_refl. replace (Nat.eqb (S n) n) with false by (symmetry; apply Nat.eqb_neq; lia).
    destruct T as [mt|s|q0]; try discriminate; [|contradiction]. cbn [heat_point] in EP. specialize (EG eq_refl). rewrite EG in EP. injection EP as <-.
    assert (EK : exists K, invn n (jac k0 g le q) = Some K).
    { unfold grad_phys, parent_to_physical in EG. destruct (invn n (jac k0 g le q)) as [K|]; [now exists K|discriminate]. }
    destruct EK as (K & EK). destruct (hat_grad n (jac k0 g le q) K G r a le q EK) as (Hw & EHw & Hrow).
    rewrite (volume_power n (jac k0 g le q) _ _ out (field_at G r (hat a) le q) Hw 0%nat D EO EHw).
    assert (Z : qf_inputs G g (Es_of f Ls Ig) le q 1%nat 0%nat 0%nat = 0).
    { rewrite (argument_nodal 1 f o nn Ls 1%nat k0 Ig g G r le q 0%nat 0%nat Hfit Hlay HS (le_n _) E1 E2 E3 Hle Nat.lt_0_1).
      rewrite (field_nodes f o nn 1 k0 Ig g G r _ (fun _ _ => 0) le q 0%nat 0%nat Hfit Hlay E1 E2 E3 Hle Nat.lt_0_1) by (intros b Hb; now apply REST).
      unfold field_at, interpolate. apply sumn_zero. intros. ring. }
    rewrite Z, Rmult_0_r, Rmult_0_l, Rplus_0_l, <- sumn_scal_r. apply sumn_ext. intros j Hj. rewrite Hrow.
    rewrite (MAT (pos k0 g le q) _ (grad k0 g le q 0%nat)) by
     (auto; intros j' Hj'; refine (grad_affine n 1 A _ K _ _ D EK _ EG 0%nat j' Nat.lt_0_1 Hj'); intros i2 k2 Hi2 Hk2;
      rewrite (argument_nodal 1 f o nn Ls 0%nat k0 Ig g G r le q i2 (S k2) Hfit Hlay HS (le_S _ _ (le_n _)) E1 E2 E3 Hle Hi2);
      destruct (HI k0 Ig g G r le q E1 E2 E3 Hle Hq) as [_ HJ];
      change (fun a0 c0 => nth (dof_number o nn 1 a0 c0) (Ls 0%nat) 0) with (nodal_values o nn 1 (Ls 0%nat));
      rewrite (affine_field n 1 f o nn A c xref _ k0 Ig g G r le q i2 k2 Hfit Hlay HU AF E1 E2 E3 Hle Hq Hi2) by lia;
      apply sumn_ext; intros d Hd; rewrite HJ by lia; reflexivity).
    ring.
  - rewrite Ed, Nat.eqb_refl. replace (Nat.eqb n (S n)) with false by (symmetry; apply Nat.eqb_neq; lia).
    destruct T as [mt|s|q0]; try discriminate. cbn [heat_point] in EP. cbv zeta in EP. set (J := jac k0 g le q) in *.
    destruct (Req_EM_T (vnorm n (crossn n J)) 0) as [|NZ]; [discriminate|]. injection EP as <-. cbn [point_out] in EO. injection EO as <-.
    assert (N0 : n = Datatypes.S (n - 1)) by (destruct D as [-> | ->]; reflexivity). rewrite N0 at 1. rewrite sumn_S_l. rewrite (sumn_zero (n - 1)) by (intros b _; ring).
    rewrite Rplus_0_r. destruct (untouched n f k0 Ig g G r le q a 0%nat E1 E2 E3 Ed Hle) as [Z|TO].
    + rewrite Z. rewrite Rmult_0_r. symmetry. apply sumn_zero. intros. ring.
    + assert (FL := LOAD k0 _ ET TO). cbn [flows] in FL. rewrite FL by (now apply vnorm_unit).
      rewrite (sumn_ext n (fun j => Q k0 j * (crossn n J j / vnorm n (crossn n J))) (fun j => / vnorm n (crossn n J) * (Q k0 j * crossn n J j))) by (intros; field; exact NZ).
      rewrite sumn_scal_l. replace (/ vnorm n (crossn n J) * sumn n (fun j => Q k0 j * crossn n J j) * vnorm n (crossn n J)) with (sumn n (fun j => Q k0 j * crossn n J j)) by (field; exact NZ).
      rewrite <- sumn_scal_r. apply sumn_ext. intros. ring.
Qed.
End Heat.
