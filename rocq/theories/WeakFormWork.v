(** * The power of the terms of a residual: what it does against any nodal test field; area vectors *)
From Coq Require Import NArith ZArith Reals List Lia Lra Bool.
From Verif Require Import Prelude DofCodec Sums Restriction Kernels FunctionalModel Assembly Tensor MatAlg Materials ShapeAware WeakForm WeakFormFacts WeakFormPhysics.
Import ListNotations.
Local Open Scope R_scope.

(** ** specification *)
(** the tangents of a boundary element with one more vector in front *)
Definition bordered (v : vec) (D : mat) : mat := fun i j => match j with O => v i | S k => D i k end.
(** product of two tangents *)
Definition gram (n : nat) (D : mat) (a b : nat) : R := sumn n (fun i => D i a * D i b).
(** power of a term on the test field [w] with physical gradient [Hw], per unit of parent measure; [P] is the flux of momentum *)
Definition solid_power {St} (n : nat) (T : solid_term St) (t : R) (X : vec) (J : mat) (u a w : slots) (P Hw : mat) : R :=
  match T with
  | SMaterial _ rho _ => (sumn n (fun i => rho * a i 0%nat * w i 0%nat) + sumn n (fun i => sumn n (fun j => P i j * Hw i j))) * detn n J
  | SBody b => - sumn n (fun i => b X t i * w i 0%nat) * detn n J
  | STraction tr => - sumn n (fun i => tr X (unit_normal n J) t i * w i 0%nat) * vnorm n (crossn n J)
  | SPressure on p => p X t * sumn n (fun i => crossn n (fun r c => J r c + if on then u r (S c) else 0) i * w i 0%nat)
  end.
Definition heat_power (n : nat) (T : heat_term) (t : R) (X : vec) (J : mat) (u ut w : slots) (H Hw : mat) : R :=
  match T with
  | HMaterial m => (fst (m X (u 0%nat 0%nat) (H 0%nat)) * ut 0%nat 0%nat * w 0%nat 0%nat - sumn n (fun j => snd (m X (u 0%nat 0%nat) (H 0%nat)) j * Hw 0%nat j)) * detn n J
  | HSource s => - s X t (u 0%nat 0%nat) (H 0%nat) * w 0%nat 0%nat * detn n J
  | HFlux q => q X (unit_normal n J) t (u 0%nat 0%nat) * w 0%nat 0%nat * vnorm n (crossn n J)
  end.
(** P is the first Piola-Kirchhoff stress of the Cauchy stress of the material: P F^T = det F sigma *)
Definition is_piola {St} (n : nat) (T : solid_term St) (st : St) (H P : mat) : Prop :=
  match T with
  | SMaterial on _ sigma => exists s, sigma st H = Some s /\
      meq n (mmul n P (transpose (fun i j => ident i j + if on then H i j else 0))) (mscal (detn n (fun i j => ident i j + if on then H i j else 0)) s)
  | _ => True
  end.

(** ** area vectors *)
Lemma crossn_volume n D v : dim23 n -> sumn n (fun i => crossn n D i * v i) = detn n (bordered v D).
Proof. intros [-> | ->]; unfold crossn, detn, bordered, det2, det3; cbn [Nat.eqb sumn]; ring. Qed.
Lemma crossn_tangent n D c : dim23 n -> (c < n - 1)%nat -> sumn n (fun i => crossn n D i * D i c) = 0.
Proof. intros [-> | ->] Hc; unfold crossn; cbn [Nat.eqb sumn]; [destruct c as [|c]|destruct c as [|[|c]]]; try (exfalso; lia); ring. Qed.
Lemma crossn_area n D : dim23 n -> sumn n (fun i => crossn n D i * crossn n D i) =
  if Nat.eqb n 2 then gram n D 0 0 else gram n D 0 0 * gram n D 1 1 - gram n D 0 1 * gram n D 0 1.
Proof. intros [-> | ->]; unfold crossn, gram; cbn [Nat.eqb sumn]; ring. Qed.

Lemma area_vector n D : dim23 n ->
  (forall v, sumn n (fun i => crossn n D i * v i) = detn n (bordered v D)) /\
  (forall c, (c < n - 1)%nat -> sumn n (fun i => crossn n D i * D i c) = 0) /\
  sumn n (fun i => crossn n D i * crossn n D i) = (if Nat.eqb n 2 then gram n D 0 0 else gram n D 0 0 * gram n D 1 1 - gram n D 0 1 * gram n D 0 1).
Proof.
  intros H. split; [intros; now apply crossn_volume|]. split; [intros; now apply crossn_tangent|now apply crossn_area].
Qed.

(** ** power of the output of an integrand *)
Lemma volume_power n J s P out w Hw i : dim23 n -> point_out n (Volume J s P) = Some out -> grad_phys n J w = Some Hw ->
  sumn (S n) (fun b => out i b * w i b) = (s i * w i 0%nat + sumn n (fun j => P i j * Hw i j)) * detn n J.
Proof.
  intros D O G. destruct (point_out_volume n J s P out D O) as (KT & EKT & O0 & OS).
  unfold grad_phys, parent_to_physical in G. destruct (invn n J) as [K|] eqn:EK; [|discriminate]. cbn [snd fst] in G. injection G as <-.
  pose proof (inv_transpose n J K KT D EK EKT) as HT. rewrite sumn_S_l. rewrite O0.
  rewrite (sumn_ext n _ (fun j => sumn n (fun k => P i k * KT k j) * w i (S j) * detn n J)) by (intros; rewrite OS; unfold mmul; ring).
  rewrite sumn_scal_r. rewrite (conj_row n (P i) (fun j => w i (S j)) K KT HT). unfold mmul. ring.
Qed.
Lemma surface_power n a l out w i : (0 < n)%nat -> point_out n (Surface a l) = Some out -> sumn n (fun b => out i b * w i b) = l i * w i 0%nat * a.
Proof.
  intros Hn O. cbn [point_out] in O. injection O as <-. destruct n as [|n]; [lia|]. rewrite sumn_S_l, sumn_zero by (intros; ring). ring.
Qed.
Lemma dim23_pos n : dim23 n -> (0 < n)%nat.
Proof. intros [-> | ->]; lia. Qed.

Lemma heat_point_power n T t X J u ut p out H w Hw : dim23 n -> heat_point n T t X J u ut = Some p -> point_out n p = Some out ->
  (is_volume_h T = true -> grad_phys n J u = Some H) -> (is_volume_h T = true -> grad_phys n J w = Some Hw) ->
  sumn (if is_volume_h T then S n else n) (fun b => out 0%nat b * w 0%nat b) = heat_power n T t X J u ut w H Hw.
Proof.
  intros D E O HH HW. destruct T as [m|s|q]; cbn [heat_point is_volume_h heat_power] in *.
  - rewrite HH in E by reflexivity. injection E as <-. rewrite (volume_power n J _ _ out w Hw 0 D O (HW eq_refl)).
    rewrite (sumn_ext n _ (fun j => - 1 * (snd (m X (u 0%nat 0%nat) (H 0%nat)) j * Hw 0%nat j))) by (intros; ring). rewrite sumn_scal_l. ring.
  - rewrite HH in E by reflexivity. injection E as <-. rewrite (volume_power n J _ _ out w Hw 0 D O (HW eq_refl)).
    rewrite sumn_zero by (intros; ring). ring.
  - destruct (Req_EM_T _ _) as [|N]; [discriminate|]. injection E as <-. rewrite (surface_power n _ _ out w 0 (dim23_pos n D) O). reflexivity.
Qed.

(** the Piola stress is determined by the Cauchy stress wherever the deformation gradient is invertible *)
Lemma flux_unique n on s H P Q : dim23 n -> flux n on s H = Some P ->
  meq n (mmul n Q (transpose (fun i j => ident i j + if on then H i j else 0))) (mscal (detn n (fun i j => ident i j + if on then H i j else 0)) s) -> meq n Q P.
Proof.
  intros D E HQ. pose proof (flux_moment n on s H P D E) as HP. unfold flux in E.
  set (dx := if on then madd (madd (mscal 0 H) ident) H else madd (mscal 0 H) ident) in E.
  set (F := fun i j => ident i j + (if on then H i j else 0)) in *.
  assert (Edx : meq n F dx) by (intros i j _ _; unfold F, dx; destruct on; unfold madd, mscal; ring).
  destruct (invn n dx) as [B|] eqn:EB; [|discriminate]. clear E. destruct (invn_some n dx B D EB) as (A1 & A2 & _).
  assert (C : forall M, meq n (mmul n (mmul n M (transpose F)) (transpose B)) M).
  { intros M i j Hi Hj. rewrite rmul_assoc. rewrite (rmul_ext n M M _ ident i j); [now apply mmul_ident_r|reflexivity|].
    intros k Hk. transitivity (mmul n (transpose dx) (transpose B) k j).
    - apply rmul_ext; [|reflexivity]. intros l Hl. unfold transpose. now apply Edx.
    - rewrite <- (transpose_mul n B dx k j) by auto. unfold transpose. rewrite A2 by auto. unfold ident. now rewrite Nat.eqb_sym. }
  intros i j Hi Hj. rewrite <- (C Q i j Hi Hj), <- (C P i j Hi Hj). apply rmul_ext; [|reflexivity]. intros k Hk. rewrite HQ, HP by auto. reflexivity.
Qed.

Lemma solid_point_power {St} n (T : solid_term St) t X J u a st p out H w Hw : dim23 n -> solid_point n T t X J u a st = Some p -> point_out n p = Some out ->
  (is_volume T = true -> grad_phys n J u = Some H) -> (is_volume T = true -> grad_phys n J w = Some Hw) ->
  forall P, is_piola n T st H P -> sumn n (fun i => sumn (if is_volume T then S n else n) (fun b => out i b * w i b)) = solid_power n T t X J u a w P Hw.
Proof.
  intros D E O HH HW P0 HP0. pose proof (dim23_pos n D) as Hp. destruct T as [on rho sigma|b|tr|on pr]; cbn [solid_point is_volume solid_power is_piola] in *.
  - rewrite HH in E by reflexivity. destruct (sigma st H) as [s|] eqn:Es; [|discriminate]. destruct (flux n on s H) as [P|] eqn:EP; [|discriminate].
    injection E as <-. destruct HP0 as (s' & Es' & HP0). injection Es' as <-. pose proof (flux_unique n on s H P P0 D EP HP0) as HU.
    rewrite (sumn_ext n (fun i => sumn n (fun j => P0 i j * Hw i j)) (fun i => sumn n (fun j => P i j * Hw i j)))
      by (intros i Hi; apply sumn_ext; intros j Hj; now rewrite HU).
    rewrite (sumn_ext n _ (fun i => (rho * a i 0%nat * w i 0%nat + sumn n (fun j => P i j * Hw i j)) * detn n J))
      by (intros i _; now rewrite (volume_power n J _ _ out w Hw i D O (HW eq_refl))).
    rewrite sumn_scal_r, sumn_plus. reflexivity.
  - injection E as <-.
    rewrite (sumn_ext n _ (fun i => - 1 * detn n J * (b X t i * w i 0%nat))).
    + rewrite sumn_scal_l. ring.
    + intros i _. rewrite (volume_power n J _ _ out w Hw i D O (HW eq_refl)). rewrite sumn_zero by (intros; ring). ring.
  - destruct (Req_EM_T _ _) as [|N]; [discriminate|]. injection E as <-.
    rewrite (sumn_ext n _ (fun i => - 1 * vnorm n (crossn n J) * (tr X (unit_normal n J) t i * w i 0%nat))).
    + rewrite sumn_scal_l. ring.
    + intros i _. rewrite (surface_power n _ _ out w i Hp O). unfold unit_normal. ring.
  - destruct (Req_EM_T _ _) as [|N]; [discriminate|]. injection E as <-.
    rewrite <- sumn_scal_l. apply sumn_ext. intros i _. rewrite (surface_power n _ _ out w i Hp O).
    rewrite (crossn_ext n (fun r c => J r c + (if on then u r (S c) else 0))
       (if on then madd (madd J (mscal 0 (fun i j => u i (S j)))) (fun i j => u i (S j)) else madd J (mscal 0 (fun i j => u i (S j)))) i D).
    + field. exact N.
    + intros r c _ _. destruct on; unfold madd, mscal; ring.
Qed.

Section Work.
Context {St : Type}.
Notation gkernel := (gkernel St). Notation integral := (integral St).
Notation functional := (functional St). Notation mem := (mem St).

Theorem heat_work n (f : functional) t wrt upd Ls (m m' : mem) L' o nn terms pos jac grad : dim23 n ->
  wf f (nn * 1) (fun w => length (Ls w)) -> all_fit f -> layout f o nn 1 -> evaluate f t wrt upd Ls (nn * 1) m = Ok (L', m') ->
  heat_residual n f t Ls m terms pos jac grad -> forall h gradw,
  (forall k Ig g G r le q T, nth_error (f_integrals f) k = Some Ig -> nth_error (i_geoms Ig) g = Some G -> nth_error (f_test f (i_type Ig)) g = Some r ->
     (le < length (gk_elems G))%nat -> (q < gk_nq G)%nat -> nth_error terms k = Some T -> is_volume_h T = true ->
     grad_phys n (jac k g le q) (field_at G r (fun a _ => h a) le q) = Some (gradw k g le q)) ->
  sumn nn (fun a => nth (dof_number o nn 1 a 0) L' 0 * h a) =
  over_points f (fun k Ig g G r le q => match nth_error terms k with Some T =>
     heat_power n T t (pos k g le q) (jac k g le q) (qf_inputs G g (Es_of f Ls Ig) le q 0%nat) (qf_inputs G g (Es_of f Ls Ig) le q 1%nat)
        (field_at G r (fun a _ => h a) le q) (grad k g le q) (gradw k g le q) | None => 0 end).
Proof.
  intros Hn Hwf Hfit Hlay He Hres h gradw HG.
  rewrite (sumn_ext nn _ (fun a => sumn 1 (fun c => nth (dof_number o nn 1 a c) L' 0 * (fun a _ => h a) a c))) by (intros; cbn [sumn]; ring).
  rewrite (tested f t wrt upd Ls m m' L' o nn 1 Hwf Hfit Hlay He (fun a _ => h a)). apply over_points_ext.
  intros k Ig g G r le q E1 E2 E3 Hle Hq. destruct (Hres k Ig g G le q E1 E2 Hle Hq) as (T & p & out & A1 & A2 & A3 & A4 & A5 & A6). rewrite A1.
  rewrite <- (heat_point_power n T t _ _ _ _ p out _ _ _ Hn A2 A3 A5 (fun V => HG k Ig g G r le q T E1 E2 E3 Hle Hq A1 V)).
  rewrite <- A4. transitivity (sumn (gk_dim1 G) (fun b => qf_out f t Ls m k Ig g G le q 0%nat b * field_at G r (fun a _ => h a) le q 0%nat b));
    [cbn [sumn]; ring|]. apply sumn_ext. intros b Hb. now rewrite A6.
Qed.

Theorem solid_work n (f : functional) t wrt upd Ls (m m' : mem) L' o nn (terms : list (solid_term St)) pos jac : dim23 n ->
  wf f (nn * n) (fun w => length (Ls w)) -> all_fit f -> layout f o nn n -> evaluate f t wrt upd Ls (nn * n) m = Ok (L', m') ->
  solid_residual n f t Ls m terms pos jac -> forall h grad gradw stress,
  (forall k Ig g G r le q T, nth_error (f_integrals f) k = Some Ig -> nth_error (i_geoms Ig) g = Some G -> nth_error (f_test f (i_type Ig)) g = Some r ->
     (le < length (gk_elems G))%nat -> (q < gk_nq G)%nat -> nth_error terms k = Some T ->
     (is_volume T = true -> grad_phys n (jac k g le q) (qf_inputs G g (Es_of f Ls Ig) le q 0%nat) = Some (grad k g le q) /\
                            grad_phys n (jac k g le q) (field_at G r h le q) = Some (gradw k g le q)) /\
     is_piola n T (m_q m k g le q) (grad k g le q) (stress k g le q)) ->
  sumn nn (fun a => sumn n (fun c => nth (dof_number o nn n a c) L' 0 * h a c)) =
  over_points f (fun k Ig g G r le q => match nth_error terms k with Some T =>
     solid_power n T t (pos k g le q) (jac k g le q) (qf_inputs G g (Es_of f Ls Ig) le q 0%nat) (qf_inputs G g (Es_of f Ls Ig) le q 1%nat)
        (field_at G r h le q) (stress k g le q) (gradw k g le q) | None => 0 end).
Proof.
  intros Hn Hwf Hfit Hlay He Hres h grad gradw stress HG.
  rewrite (tested f t wrt upd Ls m m' L' o nn n Hwf Hfit Hlay He h). apply over_points_ext.
  intros k Ig g G r le q E1 E2 E3 Hle Hq. destruct (Hres k Ig g G le q E1 E2 Hle Hq) as (T & p & out & A1 & A2 & A3 & A4 & A5). rewrite A1.
  destruct (HG k Ig g G r le q T E1 E2 E3 Hle Hq A1) as (V & HP).
  rewrite <- (solid_point_power n T t _ _ _ _ _ p out (grad k g le q) (field_at G r h le q) (gradw k g le q) Hn A2 A3 (fun v => proj1 (V v)) (fun v => proj2 (V v)) _ HP).
  rewrite <- A4. apply sumn_ext. intros i Hi. apply sumn_ext. intros b Hb. now rewrite A5.
Qed.

(** the physical gradients and stresses these statements speak of exist wherever the residual can be evaluated *)
Lemma volume_grad n J s P out w : dim23 n -> point_out n (Volume J s P) = Some out -> exists Hw, grad_phys n J w = Some Hw.
Proof.
  intros D O. destruct (point_out_volume n J s P out D O) as (KT & EKT & _).
  destruct (invn_some n _ KT D EKT) as (_ & _ & N). rewrite detn_transpose in N by auto. destruct (invn_works n J D N) as (K & EK).
  unfold grad_phys, parent_to_physical. rewrite EK. eexists. reflexivity.
Qed.
Definition the {A} (d : A) (x : option A) : A := match x with Some a => a | None => d end.
Lemma heat_work_gradients n (f : functional) t Ls (m : mem) terms pos jac grad : dim23 n -> heat_residual n f t Ls m terms pos jac grad -> forall h, exists gradw,
  forall k Ig g G r le q T, nth_error (f_integrals f) k = Some Ig -> nth_error (i_geoms Ig) g = Some G -> nth_error (f_test f (i_type Ig)) g = Some r ->
     (le < length (gk_elems G))%nat -> (q < gk_nq G)%nat -> nth_error terms k = Some T -> is_volume_h T = true ->
     grad_phys n (jac k g le q) (field_at G r (fun a _ => h a) le q) = Some (gradw k g le q).
Proof.
  intros D Hres h. exists (fun k g le q => match nth_error (f_integrals f) k with Some Ig =>
    match nth_error (i_geoms Ig) g, nth_error (f_test f (i_type Ig)) g with Some G, Some r => the (fun _ _ => 0) (grad_phys n (jac k g le q) (field_at G r (fun a _ => h a) le q))
    | _, _ => fun _ _ => 0 end | None => fun _ _ => 0 end).
  intros k Ig g G r le q T E1 E2 E3 Hle Hq ET V. destruct (Hres k Ig g G le q E1 E2 Hle Hq) as (T' & p & out & A1 & A2 & A3 & _).
  rewrite ET in A1. injection A1 as <-. rewrite E1, E2, E3.
  assert (X : exists Hw, grad_phys n (jac k g le q) (field_at G r (fun a _ => h a) le q) = Some Hw).
  { destruct T as [mm|s|qq]; [| |discriminate]; cbn [heat_point] in A2; destruct (grad_phys n (jac k g le q) (qf_inputs _ _ _ _ _ _)); try discriminate;
      injection A2 as <-; eapply volume_grad; eassumption. }
  destruct X as (Hw & ->). reflexivity.
Qed.
Lemma solid_work_gradients n (f : functional) t Ls (m : mem) (terms : list (solid_term St)) pos jac : dim23 n -> solid_residual n f t Ls m terms pos jac -> forall h, exists grad gradw stress,
  forall k Ig g G r le q T, nth_error (f_integrals f) k = Some Ig -> nth_error (i_geoms Ig) g = Some G -> nth_error (f_test f (i_type Ig)) g = Some r ->
     (le < length (gk_elems G))%nat -> (q < gk_nq G)%nat -> nth_error terms k = Some T ->
     (is_volume T = true -> grad_phys n (jac k g le q) (qf_inputs G g (Es_of f Ls Ig) le q 0%nat) = Some (grad k g le q) /\
                            grad_phys n (jac k g le q) (field_at G r h le q) = Some (gradw k g le q)) /\
     is_piola n T (m_q m k g le q) (grad k g le q) (stress k g le q).
Proof.
  intros D Hres h.
  pose (gr := fun k g le q => match nth_error (f_integrals f) k with Some Ig =>
    match nth_error (i_geoms Ig) g with Some G => the (fun _ _ => 0) (grad_phys n (jac k g le q) (qf_inputs G g (Es_of f Ls Ig) le q 0%nat))
    | _ => fun _ _ => 0 end | None => fun _ _ => 0 end).
  exists gr, (fun k g le q => match nth_error (f_integrals f) k with Some Ig =>
    match nth_error (i_geoms Ig) g, nth_error (f_test f (i_type Ig)) g with Some G, Some r => the (fun _ _ => 0) (grad_phys n (jac k g le q) (field_at G r h le q))
    | _, _ => fun _ _ => 0 end | None => fun _ _ => 0 end),
   (fun k g le q => match nth_error terms k with Some (SMaterial on _ sigma) =>
      match sigma (m_q m k g le q) (gr k g le q) with Some s => the (fun _ _ => 0) (flux n on s (gr k g le q)) | None => fun _ _ => 0 end | _ => fun _ _ => 0 end).
  intros k Ig g G r le q T E1 E2 E3 Hle Hq ET. destruct (Hres k Ig g G le q E1 E2 Hle Hq) as (T' & p & out & A1 & A2 & A3 & _).
  rewrite ET in A1. injection A1 as <-. unfold gr. rewrite E1, E2, E3, ET.
  destruct T as [on rho sigma|b|tr|on pr]; cbn [solid_point is_volume is_piola] in *; try (split; [discriminate|exact Logic.I]).
  - destruct (grad_phys n (jac k g le q) (qf_inputs _ _ _ _ _ _)) as [H|]; [|discriminate]. cbn [the].
    destruct (sigma (m_q m k g le q) H) as [s|] eqn:Es; [|discriminate]. destruct (flux n on s H) as [P|] eqn:EP; [|discriminate]. injection A2 as <-.
    destruct (volume_grad n _ _ _ out (field_at G r h le q) D A3) as (Hw & ->). cbn [the]. split; [now split|].
    exists s. split; [reflexivity|now apply flux_moment].
  - injection A2 as <-. destruct (volume_grad n _ _ _ out (field_at G r h le q) D A3) as (Hw & ->).
    destruct (volume_grad n _ _ _ out (qf_inputs G g (Es_of f Ls Ig) le q 0%nat) D A3) as (H & ->). cbn [the]. split; [now split|exact Logic.I].
Qed.

(** with a conduction law whose flux points down the temperature gradient, steady conduction without loads only dissipates *)
Theorem conduction_dissipates n (f : functional) t wrt upd Ls (m m' : mem) L' o nn terms pos jac grad : dim23 n ->
  wf f (nn * 1) (fun w => length (Ls w)) -> all_fit f -> layout f o nn 1 -> evaluate f t wrt upd Ls (nn * 1) m = Ok (L', m') ->
  heat_residual n f t Ls m terms pos jac grad -> same_spaces f ->
  (forall k T, nth_error terms k = Some T -> exists mat, T = HMaterial mat /\ forall X u g, sumn n (fun j => snd (mat X u g) j * g j) <= 0) ->
  (forall k Ig g G le q, nth_error (f_integrals f) k = Some Ig -> nth_error (i_geoms Ig) g = Some G -> (le < length (gk_elems G))%nat -> (q < gk_nq G)%nat ->
     0 <= gk_w G q /\ 0 <= detn n (jac k g le q) /\ qf_inputs G g (Es_of f Ls Ig) le q 1%nat 0%nat 0%nat = 0) ->
  0 <= sumn nn (fun a => nth (dof_number o nn 1 a 0) L' 0 * nth (dof_number o nn 1 a 0) (Ls 0%nat) 0).
Proof.
  intros Hn Hwf Hfit Hlay He Hres HS HT HP. set (h := fun a => nth (dof_number o nn 1 a 0) (Ls 0%nat) 0).
  destruct (heat_work_gradients n f t Ls m terms pos jac grad Hn Hres h) as (gradw & HG).
  change (0 <= sumn nn (fun a => nth (dof_number o nn 1 a 0) L' 0 * h a)).
  rewrite (heat_work n f t wrt upd Ls m m' L' o nn terms pos jac grad Hn Hwf Hfit Hlay He Hres h gradw HG). unfold over_points.
  apply sumn_nonneg. intros k _. destruct (nth_error (f_integrals f) k) as [Ig|] eqn:E1; [|lra].
  apply sumn_nonneg. intros g _. destruct (nth_error (i_geoms Ig) g) as [G|] eqn:E2; [|lra].
  destruct (nth_error (f_test f (i_type Ig)) g) as [r|] eqn:E3; [|lra]. apply sumn_nonneg. intros le Hle. apply sumn_nonneg. intros q Hq.
  destruct (HP k Ig g G le q E1 E2 Hle Hq) as (W & J0 & U0). apply Rmult_le_pos; [|exact W].
  destruct (nth_error terms k) as [T|] eqn:ET; [|lra]. destruct (HT k T ET) as (mat & -> & HM). cbn [heat_power]. rewrite U0.
  apply Rmult_le_pos; [|exact J0].
  specialize (HG k Ig g G r le q _ E1 E2 E3 Hle Hq ET eq_refl).
  destruct (Hres k Ig g G le q E1 E2 Hle Hq) as (T' & p & out & A1 & A2 & A3 & A4 & A5 & _). rewrite ET in A1. injection A1 as <-. specialize (A5 eq_refl).
  assert (E : forall j, (j < n)%nat -> gradw k g le q 0%nat j = grad k g le q 0%nat j).
  { intros j Hj. unfold grad_phys, parent_to_physical in HG, A5. destruct (invn n (jac k g le q)) as [K|]; [|discriminate].
    injection HG as <-. injection A5 as <-. cbn [snd]. unfold mmul. apply sumn_ext. intros i _. f_equal.
    rewrite (displacement_arg 1 f Ls o nn Hfit Hlay k Ig g G r le q 0 (S i) HS E1 E2 E3 Hle Nat.lt_0_1). unfold field_at, interpolate. reflexivity. }
  rewrite (sumn_ext n _ (fun j => snd (mat (pos k g le q) (qf_inputs G g (Es_of f Ls Ig) le q 0%nat 0%nat 0%nat) (grad k g le q 0%nat)) j * grad k g le q 0%nat j))
    by (intros j Hj; now rewrite E).
  specialize (HM (pos k g le q) (qf_inputs G g (Es_of f Ls Ig) le q 0%nat 0%nat 0%nat) (grad k g le q 0%nat)). lra.
Qed.
End Work.
